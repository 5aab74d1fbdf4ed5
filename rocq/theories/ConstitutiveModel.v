(** * Model of /repo/geotecha/constitutive_models: void_ratio_stress.py (AvSoilModel, CcCrSoilModel,
    PwiseLinearSoilModel), void_ratio_permeability.py and velocity_hydraulic_gradient.py.

    numpy applies these formulas elementwise, so one element is modelled.  Arithmetic is exact; the
    decimal literals 2.3025850929940459 and 0.43429448190325182 of the source are kept as they are
    written (they are not ln 10 and 1/ln 10).  inf and nan are not values of the model: where numpy
    would produce one the model returns [Err NotANumber]. *)
From Coq Require Import Reals List ZArith Bool.
From Verif Require Import Base.
Import ListNotations.
Open Scope R_scope.

Notation NotANumber := (UserError 0).

(** np.log10 for a positive argument. *)
Definition log10 (x : R) : R := ln x / ln 10.
(** np.power(10, x) *)
Definition pow10 (x : R) : R := exp (ln 10 * x).
(** np.sign *)
Definition signR (x : R) : R := if Rltb 0 x then 1 else if Rltb x 0 then -1 else 0.
(** x ** y for floats: a negative base gives a complex number or nan; 0 ** y. *)
Definition power (x y : R) : result R :=
  if Rltb 0 x then Ok (exp (y * ln x))
  else if Reqb x 0 then if Reqb y 0 then Ok 1 else if Rltb 0 y then Ok 0 else Err ZeroDivisionError
  else Err NotANumber.
(** a / b for floats. *)
Definition fdiv (a b : R) : result R := if Reqb b 0 then Err ZeroDivisionError else Ok (a / b).

(** ** AvSoilModel, void_ratio_stress.py:61-165 *)
Record AvSoil := mkAvSoil { av_av : R; av_siga : R; av_ea : R }.
(** :105 *)
Definition av_e_from_stress (m : AvSoil) (estress : R) : R := av_ea m - av_av m * (estress - av_siga m).
(** :134 *)
Definition av_stress_from_e (m : AvSoil) (e : R) : R := av_siga m + (av_ea m - e) / av_av m.
(** :163-165 *)
Definition av_av_from_stress (m : AvSoil) (estress : R) : R := av_av m.

(** ** CcCrSoilModel, void_ratio_stress.py:168-407; the keyword pstress is an option *)
Record CcCr := mkCcCr { cc_Cc : R; cc_Cr : R; cc_siga : R; cc_ea : R }.
(** kwargs.get('pstress', estress) *)
Definition get_pstress (pstress : option R) (estress : R) : R := match pstress with Some p => p | None => estress end.
(** :235-249 *)
Definition cc_e_from_stress (m : CcCr) (estress : R) (pstress : option R) : R :=
  let p := get_pstress pstress estress in
  let max_past := Rmax p estress in
  let e := cc_ea m - cc_Cc m * log10 (max_past / cc_siga m) in
  e + cc_Cr m * log10 (max_past / estress).
(** :301, :982 *)
Definition fact : R := 23025850929940459 / 10000000000000000.
(** :295-319 *)
Definition cc_stress_from_e (m : CcCr) (e : R) (pstress : option R) : R :=
  match pstress with
  | None => cc_siga m * exp (fact * (cc_ea m - e) / cc_Cc m)
  | Some p =>
      let ep := cc_ea m - cc_Cc m * log10 (p / cc_siga m) in
      let dpCc := p * (exp (fact * (ep - e) / cc_Cc m) - 1) in
      let dpCr := p * (exp (fact * (ep - e) / cc_Cr m) - 1) in
      p + Rmin dpCc dpCr
  end.
(** :395-407; chooser[-1] is the last entry, Cr *)
Definition lit_av : R := 43429448190325182 / 100000000000000000.
Definition cc_av_from_stress (m : CcCr) (estress : R) (pstress : option R) : R :=
  let p := get_pstress pstress estress in
  let Cx := if Rltb 0 (estress - p) then cc_Cc m          (* index 1 *)
            else if Rltb (estress - p) 0 then cc_Cr m     (* index -1 *)
            else cc_Cc m in                               (* index 0 *)
  lit_av * Cx / estress.

(** ** np.interp(v, xp, fp), xp increasing: clamped at both ends *)
Fixpoint interp_from (v x0 y0 : R) (l : list (R * R)) : R :=
  match l with
  | [] => y0
  | (x1, y1) :: t => if Rltb v x1 then y0 + (y1 - y0) / (x1 - x0) * (v - x0) else interp_from v x1 y1 t
  end.
Definition np_interp (v : R) (xp fp : list R) : result R :=
  match combine xp fp with
  | [] => Err ValueError
  | (x0, y0) :: t => Ok (if Rltb v x0 then y0 else interp_from v x0 y0 t)
  end.
(** any(diff(l) <= 0), then the slice ::-1, otherwise the whole array *)
Fixpoint any_diff_le (l : list R) : bool :=
  match l with
  | a :: ((b :: _) as t) => orb (Rleb (b - a) 0) (any_diff_le t)
  | _ => false
  end.
Definition slice_of (keys l : list R) : list R := if any_diff_le keys then rev l else l.

(** ** PwiseLinearSoilModel, void_ratio_stress.py:410-991 *)
Record Pwise := mkPwise { pw_siga : list R; pw_ea : list R; pw_Cr : R; pw_xlog : bool; pw_ylog : bool }.
(** __init__ :432-459 *)
Definition pwise_init (siga ea : list R) (Cr : R) (xlog ylog : bool) : result Pwise :=
  if Nat.eqb (length siga) (length ea) then Ok (mkPwise siga ea Cr xlog ylog) else Err IndexError.
Definition lg (b : bool) (x : R) : R := if b then log10 x else x.
Definition unlg (b : bool) (x : R) : R := if b then pow10 x else x.
(** the arrays used, in the order of the slice for siga (:608) or for ea (:765) *)
Definition pw_xs (m : Pwise) : list R := map (lg (pw_xlog m)) (pw_siga m).
Definition pw_ys (m : Pwise) : list R := map (lg (pw_ylog m)) (pw_ea m).
(** :589-617 *)
Definition pw_e_from_stress (m : Pwise) (estress : R) (pstress : option R) : result R :=
  let max_past := lg (pw_xlog m) (Rmax (get_pstress pstress estress) estress) in
  let es := lg (pw_xlog m) estress in
  e <- np_interp max_past (slice_of (pw_siga m) (pw_xs m)) (slice_of (pw_siga m) (pw_ys m)) ;;
  Ok (unlg (pw_ylog m) (e + pw_Cr m * (max_past - es))).
(** :745-792 *)
Definition pw_stress_from_e (m : Pwise) (e : R) (pstress : option R) : result R :=
  let ey := lg (pw_ylog m) e in
  s <- np_interp ey (slice_of (pw_ea m) (pw_ys m)) (slice_of (pw_ea m) (pw_xs m)) ;;
  match pstress with
  | None => Ok (unlg (pw_xlog m) s)
  | Some p =>
      let p := lg (pw_xlog m) p in
      ep <- np_interp p (slice_of (pw_siga m) (pw_xs m)) (slice_of (pw_siga m) (pw_ys m)) ;;
      dpCr <- fdiv (ep - ey) (pw_Cr m) ;;
      Ok (unlg (pw_xlog m) (p + Rmin (s - p) dpCr))
  end.
(** np.searchsorted(l, v): the number of leading entries below v *)
Fixpoint searchsorted (l : list R) (v : R) : nat :=
  match l with [] => 0%nat | a :: t => if Rltb a v then S (searchsorted t v) else 0%nat end.
(** l[i - 1]: index -1 is the last entry *)
Definition get_pred (l : list R) (i : nat) : result R := match i with 0%nat => get_last l | S k => get l k end.
(** :953-991 *)
Definition pw_av_from_stress (m : Pwise) (estress : R) (pstress : option R) : result R :=
  let max_past := lg (pw_xlog m) (Rmax (get_pstress pstress estress) estress) in
  let es := lg (pw_xlog m) estress in
  let siga := slice_of (pw_siga m) (pw_xs m) in
  let ea := slice_of (pw_siga m) (pw_ys m) in
  let i := searchsorted siga max_past in
  ea0 <- get_pred ea i ;; ea1 <- get ea i ;; s1 <- get siga i ;; s0 <- get_pred siga i ;;
  Cc <- fdiv (ea0 - ea1) (s1 - s0) ;;
  let e := ea0 - Cc * (max_past - s0) + pw_Cr m * (max_past - es) in
  let Cx := if Rltb es max_past then pw_Cr m else Cc in
  let dy := if pw_ylog m then fact * pow10 e else 1 in
  let dx := if pw_xlog m then fact * pow10 es else 1 in
  fdiv (Cx * dy) dx.

(** ** void_ratio_permeability.py: CkPermeabilityModel :49-158 *)
Record Ck := mkCk { ck_Ck : R; ck_ka : R; ck_ea : R }.
(** :98 *)
Definition ck_e_from_k (m : Ck) (k : R) : R := ck_ea m + ck_Ck m * log10 (k / ck_ka m).
(** :131 *)
Definition ck_k_from_e (m : Ck) (e : R) : R := ck_ka m * pow10 ((e - ck_ea m) / ck_Ck m).
(** ConstantPermeabilityModel :160-235 *)
Definition const_e_from_k (ka k : R) : result R := Err ValueError.       (* :179 *)
Definition const_k_from_e (ka e : R) : R := 1 * ka.                       (* :208 *)
(** e_and_k_for_plotting :230-235, the points being xmin, ..., xmax *)
Definition const_e_and_k_for_plotting (ka : R) (x : list R) : result (list R * list R) :=
  y <- mapM (const_e_from_k ka) x ;; Ok (x, y).
(** PwiseLinearPermeabilityModel :238-448 *)
Record PwiseK := mkPwiseK { pk_ka : list R; pk_ea : list R; pk_xlog : bool; pk_ylog : bool }.
Definition pwisek_init (ka ea : list R) (xlog ylog : bool) : result PwiseK :=
  if Nat.eqb (length ka) (length ea) then Ok (mkPwiseK ka ea xlog ylog) else Err IndexError.
Definition pk_xs (m : PwiseK) : list R := map (lg (pk_xlog m)) (pk_ka m).
Definition pk_ys (m : PwiseK) : list R := map (lg (pk_ylog m)) (pk_ea m).
(** :347-363 *)
Definition pk_e_from_k (m : PwiseK) (k : R) : result R :=
  e <- np_interp (lg (pk_xlog m) k) (slice_of (pk_ka m) (pk_xs m)) (slice_of (pk_ka m) (pk_ys m)) ;;
  Ok (unlg (pk_ylog m) e).
(** :432-448 *)
Definition pk_k_from_e (m : PwiseK) (e : R) : result R :=
  k <- np_interp (lg (pk_ylog m) e) (slice_of (pk_ea m) (pk_ys m)) (slice_of (pk_ea m) (pk_xs m)) ;;
  Ok (unlg (pk_xlog m) k).

(** ** velocity_hydraulic_gradient.py: DarcyFlowModel :98-272 *)
Definition darcy_v_from_i (k i : R) : R := k * i.                         (* :149 *)
Definition darcy_i_from_v (k v : R) : result R := fdiv v k.               (* :178 *)
Definition darcy_dv_di (k i : R) : R := 1 * k * signR i.                  (* :208 *)
Definition darcy_vdrain_strain_rate (k eta head : R) : R := head * k * eta. (* :246 *)

(** ** root_finding.py:226-313 fixed_point_no_accel, scalar branch :281-303; xtol = 1e-8, maxiter = 500 *)
Fixpoint fixed_point_loop (fuel : nat) (func : R -> result R) (xtol p0 : R) : result R :=
  match fuel with
  | 0%nat => Err RuntimeError
  | S fuel' =>
      p <- func p0 ;;
      let relerr := if Reqb p0 0 then p else (p - p0) / p0 in
      if Rltb (Rabs relerr) xtol then Ok p else fixed_point_loop fuel' func xtol p
  end.
(** with maxiter = 0 the final message reads p, which is not set (:312) *)
Definition fixed_point_no_accel (func : R -> result R) (x0 xtol : R) (maxiter : nat) : result R :=
  match maxiter with 0%nat => Err UnboundLocalError | _ => fixed_point_loop maxiter func xtol x0 end.

(** ** HansboNonDarcianFlowModel :275-717 *)
Record Hansbo := mkHansbo { h_kstar : R; h_n : R; h_iL : R; h_i0 : R; h_klinear : R; h_vL : R }.
(** attributes before the final checks; klinear may be missing (line 421 sets k_linear) *)
Record hattr := mkHattr { a_kstar : R; a_n : R; a_iL : R; a_i0 : R; a_klinear : option R }.
Definition rlog (x : R) : result R := if Rltb 0 x then Ok (ln x) else Err NotANumber.
(** log(_klinear/_kstar/_n) / log(_iL) + 1, :477-478 *)
Definition fn_iL (klinear kstar iL n : R) : result R :=
  a <- fdiv klinear kstar ;; a <- fdiv a n ;; a <- rlog a ;; b <- rlog iL ;;
  if Reqb b 0 then Err NotANumber else Ok (a / b + 1).
(** :507-509 *)
Definition fn_i0 (klinear kstar i0 n : R) : result R :=
  a <- fdiv klinear kstar ;; a <- fdiv a n ;; a <- rlog a ;;
  iL <- fdiv (i0 * n) (n - 1) ;; b <- rlog iL ;;
  if Reqb b 0 then Err NotANumber else Ok (a / b + 1).
(** :414-559 *)
Definition hansbo_attrs (klinear kstar n i0 iL : option R) : result hattr :=
  match kstar, n, iL, i0, klinear with
  | Some kstar, Some n, Some iL, None, None =>                            (* :414-427 *)
      if orb (Reqb n 1) (Reqb iL 0) then Ok (mkHattr kstar 1 0 0 None)
      else r <- fdiv (n - 1) n ;; p <- power iL (n - 1) ;;
           Ok (mkHattr kstar n iL (r * iL) (Some (kstar * n * p)))
  | Some kstar, Some n, None, Some i0, None =>                            (* :428-440 *)
      if orb (Reqb n 1) (Reqb i0 0) then Ok (mkHattr kstar 1 0 0 (Some kstar))
      else iL <- fdiv (i0 * n) (n - 1) ;; p <- power iL (n - 1) ;;
           Ok (mkHattr kstar n iL i0 (Some (kstar * n * p)))
  | Some kstar, Some n, None, None, Some klinear =>                       (* :441-453 *)
      if Reqb n 1 then Ok (mkHattr klinear 1 0 0 (Some klinear))
      else q <- fdiv klinear (kstar * n) ;; r <- fdiv 1 (n - 1) ;; iL <- power q r ;;
           i0 <- fdiv (iL * (n - 1)) n ;; Ok (mkHattr kstar n iL i0 (Some klinear))
  | Some kstar, None, Some iL, Some i0, None =>                           (* :454-466 *)
      if Reqb iL i0 then Ok (mkHattr kstar 1 0 0 (Some kstar))
      else n <- fdiv iL (iL - i0) ;; p <- power iL (n - 1) ;;
           Ok (mkHattr kstar n iL i0 (Some (kstar * n * p)))
  | Some kstar, None, Some iL, None, Some klinear =>                      (* :467-495 *)
      if Reqb iL 0 then Ok (mkHattr klinear 1 0 0 (Some klinear))
      else n <- fixed_point_no_accel (fn_iL klinear kstar iL) (100001/100000) (1/100000000) 500 ;;
           i0 <- fdiv (iL * (n - 1)) n ;; Ok (mkHattr kstar n iL i0 (Some klinear))
  | Some kstar, None, None, Some i0, Some klinear =>                      (* :496-524 *)
      if Reqb i0 0 then Ok (mkHattr klinear 1 0 0 (Some klinear))
      else n <- fixed_point_no_accel (fn_i0 klinear kstar i0) (100001/100000) (1/100000000) 500 ;;
           iL <- fdiv (i0 * n) (n - 1) ;; Ok (mkHattr kstar n iL i0 (Some klinear))
  | None, Some n, Some iL, None, Some klinear =>                          (* :528-540 *)
      if orb (Reqb n 1) (Reqb iL 0) then Ok (mkHattr klinear 1 0 0 (Some klinear))
      else i0 <- fdiv (iL * (n - 1)) n ;; p <- power iL (n - 1) ;; kstar <- fdiv klinear (n * p) ;;
           Ok (mkHattr kstar n iL i0 (Some klinear))
  | None, Some n, None, Some i0, Some klinear =>                          (* :541-553 *)
      if orb (Reqb n 1) (Reqb i0 0) then Ok (mkHattr klinear 1 0 0 (Some klinear))
      else iL <- fdiv (i0 * n) (n - 1) ;; p <- power iL (n - 1) ;; kstar <- fdiv klinear (n * p) ;;
           Ok (mkHattr kstar n iL i0 (Some klinear))
  | None, None, Some iL, Some i0, Some klinear =>                         (* :554-559 *)
      n <- fdiv iL (iL - i0) ;; p <- power iL (n - 1) ;; kstar <- fdiv klinear (n * p) ;;
      Ok (mkHattr kstar n iL i0 (Some klinear))
  | _, _, _, _, _ => Err TypeError                                        (* :407-411 *)
  end.
(** __init__ :392-569, with the checks :562-569 *)
Definition hansbo_init (klinear kstar n i0 iL : option R) : result Hansbo :=
  a <- hansbo_attrs klinear kstar n i0 iL ;;
  if Rltb (a_iL a) (a_i0 a) then Err ValueError
  else if andb (Rleb (a_iL a) (a_i0 a)) (Rltb 0 (a_i0 a)) then Err ValueError
  else if Rltb (a_n a) 1 then Err ValueError
  else match a_klinear a with
       | None => Err AttributeError
       | Some kl => Ok (mkHansbo (a_kstar a) (a_n a) (a_iL a) (a_i0 a) kl (kl * (a_iL a - a_i0 a)))
       end.
(** np.where evaluates both branches; only the selected one matters (the base is never negative).
    v_from_i :601-604 *)
Definition hansbo_v_from_i (m : Hansbo) (i : R) : result R :=
  let ai := Rabs i in
  v <- (if Rleb (h_iL m) ai then Ok (h_klinear m * (ai - h_i0 m))
        else p <- power ai (h_n m) ;; Ok (h_kstar m * p)) ;;
  Ok (v * signR i * 1).
(** i_from_v :634-637 *)
Definition hansbo_i_from_v (m : Hansbo) (v : R) : result R :=
  let av := Rabs v in
  i <- (if Rleb (h_vL m) av then q <- fdiv av (h_klinear m) ;; Ok (q + h_i0 m)
        else q <- fdiv av (h_kstar m) ;; r <- fdiv 1 (h_n m) ;; power q r) ;;
  Ok (i * signR v * 1).
(** dv_di :666-669 *)
Definition hansbo_dv_di (m : Hansbo) (i : R) : result R :=
  let ai := Rabs i in
  d <- (if Rleb (h_iL m) ai then Ok (h_klinear m)
        else p <- power ai (h_n m - 1) ;; Ok (h_kstar m * h_n m * p)) ;;
  Ok (d * signR i * 1).
(** vdrain_strain_rate :716-717 *)
Definition hansbo_vdrain_strain_rate (m : Hansbo) (eta head gamw : R) : result R :=
  p <- power head (h_n m) ;; q <- power gamw (h_n m - 1) ;;
  Ok (p * h_klinear m * q * eta).
