(** * Model of /repo/geotecha/speccon/speccon1d.py and of Speccon1dVR in speccon1d_vr.py
    (exact real arithmetic, real eigenvalues; theta_zero_indexes left at its default None).
    Matrices are lists of rows. *)
From Coq Require Import Reals List Arith ZArith Bool.
From Verif Require Import Base PiecewiseModel LayersModel PolyLineModel SpectralModel WrapModel LoadModel LoadTrigModel.
Import ListNotations.
Open Scope R_scope.

(** ** numpy helpers *)
Definition cell (A : list (list R)) (i j : nat) : R := nth j (nth i A []) 0.
Definition item (v : list R) (i : nat) : R := nth i v 0.
(** An n by k array given elementwise. *)
Definition table (n k : nat) (f : nat -> nat -> R) : list (list R) := map (fun i => map (f i) (seq 0 k)) (seq 0 n).
(** np.dot of a matrix and a vector, and of two matrices (shapes agree everywhere below). *)
Definition dot_mv (A : list (list R)) (v : list R) : list R :=
  map (fun row => sumn (map (fun k => nth k row 0 * item v k) (seq 0 (length v)))) A.
Definition dot_mm (A B : list (list R)) : list (list R) :=
  map (fun row => map (fun j => sumn (map (fun k => nth k row 0 * cell B k j) (seq 0 (length B)))) (seq 0 (length (hd [] B)))) A.

(** ** Loads *)
(** omega_phase arguments: None, or a list of None / (omega, phase); None means [None]*len(loads). *)
Definition om_arg := option (list (option (R * R))).
Definition om_list (n : nat) (o : om_arg) : list (option (R * R)) := match o with None => repeat None n | Some l => l end.
(** pEload_linear / pEload_coslinear, pEDload_linear / pEDload_coslinear: integrals.py:564-661, 764-864, 464-562, 663-762. *)
Definition load_E (im : impl) (eigs tvals : list R) (dT : R) (p : points) (om : option (R * R)) : result (list (list R)) :=
  match om with
  | Some (omega, phase) => Eload_coslinear im (px p) (py p) omega phase eigs tvals dT
  | None => Eload_linear im (px p) (py p) eigs tvals dT
  end.
Definition load_ED (im : impl) (eigs tvals : list R) (dT : R) (p : points) (om : option (R * R)) : result (list (list R)) :=
  match om with
  | Some (omega, phase) => EDload_coslinear im (px p) (py p) omega phase eigs tvals dT
  | None => EDload_linear im (px p) (py p) eigs tvals dT
  end.
(** E_Igamv_the += (E*np.dot(Igamv, theta)).T *)
Definition add_term (n nt : nat) (acc E : list (list R)) (w : list R) : list (list R) :=
  table n nt (fun j i => cell acc j i + cell E i j * item w j).
(** for vs_t, om_ph in zip(vs_time, omega_phase): E = ...; E_Igamv_the += ... *)
Fixpoint add_loads (n nt : nat) (Ef : points -> option (R * R) -> result (list (list R))) (Igamv : list (list R)) (theta : list R)
  (l : list (points * option (R * R))) (acc : list (list R)) : result (list (list R)) :=
  match l with
  | [] => Ok acc
  | (p, om) :: t => E <- Ef p om ;; add_loads n nt Ef Igamv theta t (add_term n nt acc E (dot_mv Igamv theta))
  end.
Definition zero_table (n nt : nat) : list (list R) := table n nt (fun _ _ => 0).

(** PolyLine(a.x1, a.x2, ones, ones), PolyLine(a.x1, a.x2, c-a.x1, c-a.x2), PolyLine(a.x1, a.x2, a.x1, a.x2) as points. *)
Definition over_layers (a : points) (g : R -> R) : result points :=
  convert_x1_x2_y1_y2_to_x_y (map (fun l => mkLayer (lx1 l) (lx2 l) (g (lx1 l)) (g (lx2 l))) (layers a)).
(** 591-595, 811-815, 1250-1254: zdist. *)
Definition zdist (drn : Z) (a : points) : result points :=
  if Z.eqb drn 1 then over_layers a (fun _ => 1)
  else l <- get_last (layers a) ;; over_layers a (fun x => lx2 l - x).
Definition zbot (a : points) : result points := over_layers a (fun x => x).

(** The common part of dim1sin_E_Igamv_the_BC_*: theta for the top and for the bottom boundary condition. *)
Definition bc_terms (n nt : nat) (Ef : points -> option (R * R) -> result (list (list R))) (Igamv : list (list R))
  (theta_top theta_bot : unit -> result (list R)) (top bot : option (list points)) (top_om bot_om : om_arg) : result (list (list R)) :=
  acc <- match top with
         | None => Ok (zero_table n nt)
         | Some l => th <- theta_top tt ;; add_loads n nt Ef Igamv th (combine l (om_list (length l) top_om)) (zero_table n nt)
         end ;;
  match bot with
  | None => Ok acc
  | Some l => th <- theta_bot tt ;; add_loads n nt Ef Igamv th (combine l (om_list (length l) bot_om)) acc
  end.
(** speccon1d.py:419-634 *)
Definition BC_aDfDt (drn : Z) (m eigs tvals : list R) (Igamv : list (list R)) (a : points)
  (top bot : option (list points)) (top_om bot_om : om_arg) (dT : R) (im : impl) : result (list (list R)) :=
  zd <- zdist drn a ;;
  bc_terms (length m) (length tvals) (load_ED im eigs tvals dT) Igamv
    (fun _ => pdim1sin_ab_linear vectorized m a zd)
    (fun _ => zb <- zbot a ;; pdim1sin_ab_linear vectorized m a zb) top bot top_om bot_om.
(** speccon1d.py:637-853 *)
Definition BC_abf (drn : Z) (m eigs tvals : list R) (Igamv : list (list R)) (a b : points)
  (top bot : option (list points)) (top_om bot_om : om_arg) (dT : R) (im : impl) : result (list (list R)) :=
  ab <- common2 a b ;; let '(a, b) := ab in
  zd <- zdist drn a ;;
  bc_terms (length m) (length tvals) (load_E im eigs tvals dT) Igamv
    (fun _ => pdim1sin_abc_linear vectorized m a b zd)
    (fun _ => zb <- zbot a ;; pdim1sin_abc_linear vectorized m a b zb) top bot top_om bot_om.
(** speccon1d.py:856-1072 *)
Definition BC_abDfDt (drn : Z) (m eigs tvals : list R) (Igamv : list (list R)) (a b : points)
  (top bot : option (list points)) (top_om bot_om : om_arg) (dT : R) (im : impl) : result (list (list R)) :=
  ab <- common2 a b ;; let '(a, b) := ab in
  zd <- zdist drn a ;;
  bc_terms (length m) (length tvals) (load_ED im eigs tvals dT) Igamv
    (fun _ => pdim1sin_abc_linear vectorized m a b zd)
    (fun _ => zb <- zbot a ;; pdim1sin_abc_linear vectorized m a b zb) top bot top_om bot_om.
(** speccon1d.py:1075-1293 *)
Definition BC_D_aDf (drn : Z) (m eigs tvals : list R) (Igamv : list (list R)) (a : points)
  (top bot : option (list points)) (top_om bot_om : om_arg) (dT : R) (im : impl) : result (list (list R)) :=
  zd <- zdist drn a ;;
  bc_terms (length m) (length tvals) (load_E im eigs tvals dT) Igamv
    (fun _ => pdim1sin_D_aDb_linear vectorized m a zd)
    (fun _ => zb <- zbot a ;; pdim1sin_D_aDb_linear vectorized m a zb) top bot top_om bot_om.
(** speccon1d.py:1478-1483, 1495-1500: theta = k sin(z m) zd for every fixed point. *)
Definition delta_thetas (m : list R) (pts : list (R * R * R)) : list (list R) :=
  map (fun p => let '(z, zd, k) := p in map (fun mi => k * sin (z * mi) * zd) m) pts.
Definition add_thetas (n nt : nat) (Igamv E : list (list R)) (thetas : list (list R)) (acc : list (list R)) : list (list R) :=
  fold_left (fun acc th => add_term n nt acc E (dot_mv Igamv th)) thetas acc.
Fixpoint add_delta_loads (n nt : nat) (Ef : points -> option (R * R) -> result (list (list R))) (Igamv : list (list R))
  (thetas : list (list R)) (l : list (points * option (R * R))) (acc : list (list R)) : result (list (list R)) :=
  match l with
  | [] => Ok acc
  | (p, om) :: t => E <- Ef p om ;; add_delta_loads n nt Ef Igamv thetas t (add_thetas n nt Igamv E thetas acc)
  end.
(** speccon1d.py:1296-1507 (the zdist of 1461-1465 is overwritten by 1467). *)
Definition BC_deltaf (drn : Z) (m eigs tvals : list R) (Igamv : list (list R)) (zvals pseudo_k : list R)
  (top bot : option (list points)) (top_om bot_om : om_arg) (dT : R) (im : impl) : result (list (list R)) :=
  let n := length m in let nt := length tvals in
  let zd := map (fun z => 1 - z * (1 - IZR drn)) zvals in
  acc <- match top with
         | None => Ok (zero_table n nt)
         | Some l => add_delta_loads n nt (load_E im eigs tvals dT) Igamv (delta_thetas m (combine (combine zvals zd) pseudo_k))
                       (combine l (om_list (length l) top_om)) (zero_table n nt)
         end ;;
  match bot with
  | None => Ok acc
  | Some l => add_delta_loads n nt (load_E im eigs tvals dT) Igamv (delta_thetas m (combine (combine zvals zvals) pseudo_k))
                (combine l (om_list (length l) bot_om)) acc
  end.
(** speccon1d.py:1510-1653 *)
Fixpoint deltamag_loop (n nt : nat) (Ef : points -> option (R * R) -> result (list (list R))) (m : list R) (Igamv : list (list R))
  (l : list (R * R * option points * option (R * R))) (acc : list (list R)) : result (list (list R)) :=
  match l with
  | [] => Ok acc
  | (_, _, None, _) :: t => deltamag_loop n nt Ef m Igamv t acc
  | (z, k, Some p, om) :: t =>
      E <- Ef p om ;;
      deltamag_loop n nt Ef m Igamv t (add_term n nt acc E (dot_mv Igamv (map (fun mi => k * sin (z * mi)) m)))
  end.
Definition deltamag (m eigs tvals : list R) (Igamv : list (list R)) (zvals pseudo_k : list R) (mags : list (option points))
  (om : om_arg) (dT : R) (im : impl) : result (list (list R)) :=
  deltamag_loop (length m) (length tvals) (load_E im eigs tvals dT) m Igamv
    (combine (combine (combine zvals pseudo_k) mags) (om_list (length mags) om)) (zero_table (length m) (length tvals)).
(** speccon1d.py:1656-1820: the loop replaces a by its refined version. *)
Fixpoint aDmag_loop (n nt : nat) (Ef : points -> option (R * R) -> result (list (list R))) (m : list R) (Igamv : list (list R)) (a : points)
  (l : list (points * points * option (R * R))) (acc : list (list R)) : result (list (list R)) :=
  match l with
  | [] => Ok acc
  | (mt, mz, om) :: t =>
      c <- common2 a mz ;; let '(a, mz) := c in
      theta <- pdim1sin_ab_linear vectorized m a mz ;;
      E <- Ef mt om ;;
      aDmag_loop n nt Ef m Igamv a t (add_term n nt acc E (dot_mv Igamv theta))
  end.
Definition aDmagDt_bilinear (m eigs tvals : list R) (Igamv : list (list R)) (a : points) (mag_vs_depth mag_vs_time : list points)
  (om : om_arg) (dT : R) (im : impl) : result (list (list R)) :=
  aDmag_loop (length m) (length tvals) (load_ED im eigs tvals dT) m Igamv a
    (combine (combine mag_vs_time mag_vs_depth) (om_list (length mag_vs_time) om)) (zero_table (length m) (length tvals)).
(** speccon1d.py:1823-1944 *)
Fixpoint abmag_loop (n nt : nat) (Ef : points -> option (R * R) -> result (list (list R))) (m : list R) (Igamv : list (list R)) (a b : points)
  (l : list (points * points * option (R * R))) (acc : list (list R)) : result (list (list R)) :=
  match l with
  | [] => Ok acc
  | (mt, mz, om) :: t =>
      c <- common3 a b mz ;; let '(a, b, mz) := c in
      theta <- pdim1sin_abc_linear vectorized m a b mz ;;
      E <- Ef mt om ;;
      abmag_loop n nt Ef m Igamv a b t (add_term n nt acc E (dot_mv Igamv theta))
  end.
Definition abmag_bilinear (m eigs tvals : list R) (Igamv : list (list R)) (a b : points) (mag_vs_depth mag_vs_time : list points)
  (om : om_arg) (dT : R) (im : impl) : result (list (list R)) :=
  abmag_loop (length m) (length tvals) (load_E im eigs tvals dT) m Igamv a b
    (combine (combine mag_vs_time mag_vs_depth) (om_list (length mag_vs_time) om)) (zero_table (length m) (length tvals)).

(** ** Pore pressure, its average, and the integral of a times it *)
(** [* mult], mult = np.cos(omega * tvals + phase) or 1: column i is multiplied. *)
Definition mult (om : option (R * R)) (t : R) : R := match om with Some (omega, phase) => cos (omega * t + phase) | None => 1 end.
Definition by_mult (om : option (R * R)) (tvals : list R) (A : list (list R)) : list (list R) :=
  map (fun row => map (fun p => fst p * mult om (snd p)) (combine row tvals)) A.
(** out += contribution, load by load *)
Fixpoint add_contribs (contrib : points -> result (list (list R))) (tvals : list R) (l : list (points * option (R * R)))
  (out : list (list R)) : result (list (list R)) :=
  match l with
  | [] => Ok out
  | (p, om) :: t => A <- contrib p ;; add_contribs contrib tvals t (madd out (by_mult om tvals A))
  end.
Definition add_both (ctop cbot : points -> result (list (list R))) (tvals : list R)
  (top bot : option (list points)) (top_om bot_om : om_arg) (out : list (list R)) : result (list (list R)) :=
  out <- match top with None => Ok out | Some l => add_contribs ctop tvals (combine l (om_list (length l) top_om)) out end ;;
  match bot with None => Ok out | Some l => add_contribs cbot tvals (combine l (om_list (length l) bot_om)) out end.
(** PolyLine([0], [1], [1], [0]) and PolyLine([0], [1], [0], [1]) *)
Definition falling : list (layer R) := [mkLayer 0 1 1 0].
Definition rising : list (layer R) := [mkLayer 0 1 0 1].
(** pinterp_x_y(mag_vs_time, tvals, choose_max=True), a 1d array added to every row *)
Definition every_row (n : nat) (tvals : list R) (p : points) : result (list (list R)) :=
  v <- interp_x_y (px p) (py p) tvals true ;; Ok (repeat v n).
(** pinterp_xa_ya_multipy_x1b_x2b_y1b_y2b, piecewise_linear_1d.py:1209-1293 *)
Definition interp_multiply (lb : list (layer R)) (tvals outz : list R) (p : points) : result (list (list R)) :=
  ya <- interp_x_y (px p) (py p) tvals true ;; yb <- interp_x1_x2_y1_y2 lb outz false ;; Ok (outer yb ya).
(** pxa_ya_multipy_avg_x1b_x2b_y1b_y2b_between, piecewise_linear_1d.py:1565-1651 *)
Definition avg_multiply (lb : list (layer R)) (tvals z1 z2 : list R) (p : points) : result (list (list R)) :=
  ya <- interp_x_y (px p) (py p) tvals true ;; yb <- avg_x1_x2_y1_y2_between_xi_xj lb z1 z2 ;; Ok (outer yb ya).
(** speccon1d.py:91-183 *)
Definition dim1sin_f (m outz tvals : list R) (vE : list (list R)) (drn : Z)
  (top bot : option (list points)) (top_om bot_om : om_arg) : result (list (list R)) :=
  add_both (if Z.eqb drn 1 then every_row (length outz) tvals else interp_multiply falling tvals outz)
           (interp_multiply rising tvals outz) tvals top bot top_om bot_om (dot_mm (dim1sin m outz) vE).
(** speccon1d.py:186-295 *)
Definition dim1sin_avgf (m : list R) (z : list (R * R)) (tvals : list R) (vE : list (list R)) (drn : Z)
  (top bot : option (list points)) (top_om bot_om : om_arg) : result (list (list R)) :=
  let z1 := map fst z in let z2 := map snd z in
  add_both (if Z.eqb drn 1 then every_row (length z) tvals else avg_multiply falling tvals z1 z2)
           (avg_multiply rising tvals z1 z2) tvals top bot top_om bot_om (dot_mm (dim1sin_avg_between m z) vE).
(** speccon1d.py:298-416 *)
Definition dim1sin_integrate_af (m : list R) (z : list (R * R)) (tvals : list R) (vE : list (list R)) (drn : Z) (a : points)
  (top bot : option (list points)) (top_om bot_om : om_arg) : result (list (list R)) :=
  let z1 := map fst z in let z2 := map snd z in
  phi <- pdim1sin_a_linear_between m a z ;;
  add_both (fun p => c <- (if Z.eqb drn 1 then over_layers a (fun _ => 1) else over_layers a (fun x => 1 - x)) ;;
                     single_load p a c None tvals z1 z2 true)
           (fun p => c <- over_layers a (fun x => x) ;; single_load p a c None tvals z1 z2 true)
           tvals top bot top_om bot_om (dot_mm phi vE).

(** ** Speccon1dVR *)
(** The attributes used below (speccon1d_vr.py:487-560); mv is required, the others may be None. *)
Record problem := mkProblem {
  neig : nat; drn : Z; pim : impl; dT : R; Hh : R; mvref : R;
  mv : points; kv : option points; dTv : option R; kh : option points; et : option points; dTh : option R;
  surcharge_vs_depth : option (list points); surcharge_vs_time : option (list points); surcharge_omega_phase : om_arg;
  vacuum_vs_depth : option (list points); vacuum_vs_time : option (list points); vacuum_omega_phase : om_arg;
  top_vs_time : option (list points); top_omega_phase : om_arg;
  bot_vs_time : option (list points); bot_omega_phase : om_arg;
  fixed_ppress : option (list (R * R * option points)); fixed_ppress_omega_phase : om_arg;
  pumping : option (list (R * points)); pumping_omega_phase : om_arg }.

(** A[np.abs(A) < 1e-8] = 0.0 *)
Definition cut (A : list (list R)) : list (list R) := map (map (fun x => if Rltb (Rabs x) (/ 100000000) then 0 else x)) A.
(** 712-729 *)
Definition make_m (P : problem) : result (list R) := mapM (fun k => m_from_sin_mx k (drn P)) (seq 0 (neig P)).
(** 731-750 *)
Definition make_gam (P : problem) (m : list R) : list (list R) := cut (pdim1sin_af_linear (pim P) m (mv P)).
(** 752-788 (dT = 0 is a ZeroDivisionError or inf in the code; excluded in the theorems). *)
Definition fixed_psi (P : problem) (m : list R) (psi : list (list R)) : list (list R) :=
  match fixed_ppress P with
  | None => psi
  | Some l => fold_left (fun psi f => let '(z, k, _) := f in
      table (neig P) (neig P) (fun i j => cell psi i j + k / dT P * sin (item m i * z) * sin (item m j * z))) l psi
  end.
Definition make_psi (P : problem) (m : list R) : result (list (list R)) :=
  let n := neig P in
  let psi := zero_table n n in
  let psi := match kv P, dTv P with
             | Some k, Some d => let A := pdim1sin_D_aDf_linear (pim P) m k in
                 table n n (fun i j => cell psi i j - d / dT P * cell A i j)
             | _, _ => psi
             end in
  psi <- match kh P, et P, dTh P with
         | Some k, Some e, Some d =>
             _ <- polyline_make_x_common [k; e] ;;
             A <- pdim1sin_abf_linear (pim P) m k e ;;
             Ok (table n n (fun i j => cell psi i j + d / dT P * cell A i j))
         | _, _, _ => Ok psi
         end ;;
  Ok (cut (fixed_psi P m psi)).

Section LinearAlgebra.
(** np.linalg.inv and np.linalg.eig (real eigenvalues), not modelled: any functions. *)
Variable inv : list (list R) -> result (list (list R)).
Variable eig : list (list R) -> result (list R * list (list R)).
(** 790-817: eigs, v, Igamv *)
Definition make_eigs_and_v (gam psi : list (list R)) : result (list R * list (list R) * list (list R)) :=
  ig <- inv gam ;; ev <- eig (dot_mm ig psi) ;; igv <- inv (dot_mm gam (snd ev)) ;; Ok (fst ev, snd ev, igv).
(** 623-641 *)
Definition time_independent (P : problem) : result (list R * list R * list (list R) * list (list R)) :=
  m <- make_m P ;; let gam := make_gam P m in psi <- make_psi P m ;;
  e <- make_eigs_and_v gam psi ;; let '(eigs, v, igv) := e in Ok (m, eigs, v, igv).

(** 1033-1053 *)
Definition scale (c : R) (p : points) : points := map (fun q => (fst q, snd q * c)) p.
Definition normalised_bot (P : problem) : option (list points) :=
  match bot_vs_time P with
  | Some l => Some (if Z.eqb (drn P) 1 then map (scale (Hh P)) l else l)
  | None => None
  end.
(** acc += c * part, where part may be absent *)
Definition add_part (n nt : nat) (c : R) (part : result (list (list R))) (acc : list (list R)) : result (list (list R)) :=
  A <- part ;; Ok (table n nt (fun i j => cell acc i j + c * cell A i j)).
(** 1055-1106 *)
Definition make_BC (P : problem) (m eigs tvals : list R) (Igamv : list (list R)) : result (list (list R)) :=
  let n := neig P in let nt := length tvals in
  let bot := normalised_bot P in
  let top := top_vs_time P in let tom := top_omega_phase P in let bom := bot_omega_phase P in
  acc <- add_part n nt (-1) (BC_aDfDt (drn P) m eigs tvals Igamv (mv P) top bot tom bom (dT P) (pim P)) (zero_table n nt) ;;
  acc <- match et P, kh P, dTh P with
         | Some e, Some k, Some d => if Reqb d 0 then Ok acc else
             add_part n nt (- d) (BC_abf (drn P) m eigs tvals Igamv k e top bot tom bom (dT P) (pim P)) acc
         | _, _, _ => Ok acc
         end ;;
  acc <- match kv P, dTv P with
         | Some k, Some d => if Reqb d 0 then Ok acc else
             add_part n nt d (BC_D_aDf (drn P) m eigs tvals Igamv k top bot tom bom (dT P) (pim P)) acc
         | _, _ => Ok acc
         end ;;
  match fixed_ppress P with
  | None => Ok acc
  | Some l => add_part n nt (-1) (BC_deltaf (drn P) m eigs tvals Igamv (map (fun f => fst (fst f)) l) (map (fun f => snd (fst f)) l)
                                   top bot tom bom (dT P) (pim P)) acc
  end.
(** 819-860 with 862-935, 937-982, 984-1031 *)
Definition make_E_Igamv_the (P : problem) (m eigs tvals : list R) (Igamv : list (list R)) : result (list (list R)) :=
  let n := neig P in let nt := length tvals in
  let acc := zero_table n nt in
  acc <- match surcharge_vs_depth P, surcharge_vs_time P with
         | Some sz, Some st => add_part n nt 1
             (aDmagDt_bilinear m eigs tvals Igamv (mv P) sz st (surcharge_omega_phase P) (dT P) (pim P)) acc
         | _, _ => Ok acc
         end ;;
  acc <- match vacuum_vs_depth P, vacuum_vs_time P, et P, kh P, dTh P with
         | Some vz, Some vt, Some e, Some k, Some d => if Reqb d 0 then Ok acc else add_part n nt d
             (abmag_bilinear m eigs tvals Igamv k e vz vt (vacuum_omega_phase P) (dT P) (pim P)) acc
         | _, _, _, _, _ => Ok acc
         end ;;
  acc <- match top_vs_time P, bot_vs_time P with
         | None, None => Ok acc
         | _, _ => add_part n nt 1 (make_BC P m eigs tvals Igamv) acc
         end ;;
  acc <- match fixed_ppress P with
         | None => Ok acc
         | Some l => add_part n nt 1 (deltamag m eigs tvals Igamv (map (fun f => fst (fst f)) l) (map (fun f => snd (fst f)) l)
                       (map snd l) (fixed_ppress_omega_phase P) (dT P) (pim P)) acc
         end ;;
  match pumping P with
  | None => Ok acc
  | Some l => add_part n nt 1 (deltamag m eigs tvals Igamv (map fst l) (map (fun _ => 1) l)
                (map (fun f => Some (scale (/ (mvref P * Hh P)) (snd f))) l) (pumping_omega_phase P) (dT P) (pim P)) acc
  end.
(** 623-654: m and v_E_Igamv_the. *)
Definition solve (P : problem) (tvals : list R) : result (list R * list (list R)) :=
  r <- time_independent P ;; let '(m, eigs, v, Igamv) := r in
  E <- make_E_Igamv_the P m eigs tvals Igamv ;; Ok (m, dot_mm v E).

(** 660-709 with 1109-1198: the three outputs; [idx] are the *_tval_indexes (indexes into tvals). *)
Definition pick (idx : list nat) (tvals : list R) : list R := map (item tvals) idx.
Definition pick_columns (idx : list nat) (A : list (list R)) : list (list R) := map (pick idx) A.
Definition make_por (P : problem) (tvals : list R) (ppress_z : list R) (idx : list nat) : result (list (list R)) :=
  s <- solve P tvals ;; let '(m, vE) := s in
  dim1sin_f m ppress_z (pick idx tvals) (pick_columns idx vE) (drn P) (top_vs_time P) (normalised_bot P) (top_omega_phase P) (bot_omega_phase P).
Definition make_avp (P : problem) (tvals : list R) (z_pairs : list (R * R)) (idx : list nat) : result (list (list R)) :=
  s <- solve P tvals ;; let '(m, vE) := s in
  dim1sin_avgf m z_pairs (pick idx tvals) (pick_columns idx vE) (drn P) (top_vs_time P) (normalised_bot P) (top_omega_phase P) (bot_omega_phase P).
Definition om_super (o : om_arg) : omega_phase_arg := match o with None => OmNone | Some l => OmList l end.
Definition mscale (c : R) (A : list (list R)) : list (list R) := map (map (fun x => x * c)) A.
(** surcharge_vs_depth None with surcharge_vs_time given fails inside polyline_make_x_common (AttributeError). *)
Definition make_set (P : problem) (tvals : list R) (z_pairs : list (R * R)) (idx : list nat) : result (list (list R)) :=
  s <- solve P tvals ;; let '(m, vE) := s in
  A <- dim1sin_integrate_af m z_pairs (pick idx tvals) (pick_columns idx vE) (drn P) (mv P) (top_vs_time P) (normalised_bot P)
         (top_omega_phase P) (bot_omega_phase P) ;;
  let out := mscale (-1) A in
  out <- match surcharge_vs_time P with
         | None => Ok out
         | Some st =>
             match surcharge_vs_depth P with
             | None => Err AttributeError
             | Some sz => B <- cos_super (Many st) (Many sz) (mv P) (pick idx tvals) (map fst z_pairs) (map snd z_pairs)
                               (om_super (surcharge_omega_phase P)) true ;; Ok (madd out B)
             end
         end ;;
  Ok (mscale (Hh P * mvref P) out).
End LinearAlgebra.
