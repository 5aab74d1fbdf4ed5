(** * Model of /repo/geotecha/constitutive_models/epus.py, class EpusProfile, 1365-2078

    Arithmetic is exact.  A profile is the list of its points: the arrays z, gam, uw, ss, st, e, w, Sr, vw entry by entry.
    [ep] is the calculation of a new EPUS object with the parameters of epus_object, Npoint as given and a stress path:
    Calresults of EpusModel or FCalresults of EpusExtModel.  A degree of saturation that is nan (void ratio 0) is an
    error here.  int(f * n) is taken for results that are not negative.  Not modelled: the plot, saving to a file. *)
From Coq Require Import Reals List ZArith Bool String.
From Verif Require Import Base ConstitutiveModel SwccModel FourierModel EpusModel.
Import ListNotations.
Open Scope R_scope.

(** ** The arguments, 1470-1507 *)
Record profile_par := mkProfilePar {
  MinSuc : R; Gs_ : R; H_ : R; zw_ : option R; q0_ : R; gamw_ : R; nz_ : nat; Npoint_ : nat; npp_ : nat;
  nz_refine : list R; Npoint_refine : list R; npp_refine : list R; atol : R; rtol : R; max_iter : nat;
  initial_stress : option (list R * list R) }.
(** 1490-1493 *)
Definition zw (a : profile_par) : R := match zw_ a with None => H_ a | Some z => z end.

Record row := mkRow { r_z : R; r_gam : R; r_uw : R; r_ss : R; r_st : R; r_e : R; r_w : R; r_Sr : R; r_vw : R }.
Definition with_st (r : row) (x : R) : row := mkRow (r_z r) (r_gam r) (r_uw r) (r_ss r) x (r_e r) (r_w r) (r_Sr r) (r_vw r).
Definition with_gam (r : row) (x : R) : row := mkRow (r_z r) x (r_uw r) (r_ss r) (r_st r) (r_e r) (r_w r) (r_Sr r) (r_vw r).
Definition with_datum (r : row) (ss st e w sr vw : R) : row := mkRow (r_z r) (r_gam r) (r_uw r) ss st e w sr vw.

(** ** _blank_profile, 1615-1655 *)
(** 1626-1636 *)
Definition grid (a : profile_par) (nz : nat) : result (list R) :=
  let ztemp := map (fun k => INR k * (H_ a / (INR nz - 1))) (seq 0 nz) in
  z1 <- get ztemp 1 ;; z0 <- get ztemp 0 ;;
  let dz := (z1 - z0) / 5 in
  let extra := filter (fun z => (Rltb 0 z && Rltb z (H_ a))%bool) [zw a - dz; zw a; zw a + dz] in
  Ok (unique (ztemp ++ extra)).
(** 1638-1655 *)
Definition blank_profile (a : profile_par) (nz : nat) : result (list row) :=
  g <- grid a nz ;;
  Ok (map (fun z => let uw := (z - zw a) * gamw_ a in mkRow z 0 uw (if Rltb uw 0 then - uw else 0) 0 0 0 0 0) g).

(** ** _initialize_stress, 1535-1546 *)
Definition initialize_stress (a : profile_par) (pr : list row) : result (list row) :=
  match initial_stress a with
  | None => Ok (map (fun r => let s := r_z r * 15 + q0_ a in with_st r (if Rltb 0 (r_uw r) then s - r_uw r else s)) pr)
  | Some (zi, si) => mapM (fun r => s <- np_interp (r_z r) zi si ;; Ok (with_st r s)) pr
  end.

(** ** _stress_from_overburden, 1554-1566 *)
(** np.cumsum *)
Fixpoint cumsum_from (acc : R) (l : list R) : list R := match l with [] => [] | x :: t => (acc + x) :: cumsum_from (acc + x) t end.
Definition stress_from_overburden (a : profile_par) (pr : list row) : list row :=
  let dsig := map (fun rs => (r_z (snd rs) - r_z (fst rs)) * ((r_gam (snd rs) + r_gam (fst rs)) * (1 / 2))) (combine pr (tl pr)) in
  let total := q0_ a :: map (fun x => q0_ a + x) (cumsum_from 0 dsig) in
  map (fun rt => let s := snd rt in with_st (fst rt) (if Rltb 0 (r_uw (fst rt)) then s - r_uw (fst rt) else s)) (combine pr total).

(** ** _update_density, 1570-1580 *)
Definition update_density (a : profile_par) (pr : list row) : list row :=
  map (fun r => with_gam r ((Gs_ a + r_Sr r * r_e r) / (1 + r_e r) * gamw_ a)) pr.

(** ** _e_and_Sr_from_EPUS, 1583-1613 *)
Definition stress_step (n : nat) (v : R) : step := mkStep true v n "1. Stress increase"%string.
Definition suction_step (n : nat) (v : R) : step := mkStep false v n "2. Suction increase"%string.
(** 1591 *)
Definition floored (a : profile_par) (st : R) : R := let m := pow10 (MinSuc a) / 1000 in if Rltb st m then m else st.
(** 1592-1600, 1831-1839 *)
Definition point_path (a : profile_par) (npp : nat) (r : row) : list step :=
  if Rleb (r_ss r) (pow10 (MinSuc a)) then [stress_step npp (floored a (r_st r))]
  else [stress_step npp (floored a (r_st r)); suction_step npp (r_ss r)].
(** datapoints[-1].x[-1] *)
Definition last_point (ds : list DataResults) : result datum := d <- get_last ds ;; get_last d.
(** 1601-1613 for one point *)
Definition from_epus (ep : nat -> list step -> result (list DataResults)) (npoint : nat) (path : list step) (r : row) : result row :=
  ds <- ep npoint path ;; d <- last_point ds ;;
  match d_Sr d, d_vw d with
  | Some sr, Some vw => Ok (with_datum r (d_ss d) (d_st d) (d_e d) (d_w d) (if Rltb 1 sr then 1 else sr) vw)
  | _, _ => Err ValueError
  end.
Definition e_and_Sr (a : profile_par) (ep : nat -> list step -> result (list DataResults)) (npoint npp : nat) (pr : list row) : result (list row) :=
  mapM (fun r => from_epus ep npoint (point_path a npp r) r) pr.

(** ** calc, 1659-1703 *)
(** 1692-1694 *)
Definition one_pass (a : profile_par) (ep : nat -> list step -> result (list DataResults)) (npoint npp : nat) (pr : list row) : result (list row) :=
  p1 <- e_and_Sr a ep npoint npp pr ;; Ok (stress_from_overburden a (update_density a p1)).
(** np.allclose(old, new) *)
Definition close (a : profile_par) (old new : list row) : bool :=
  forallb (fun xy => Rleb (Rabs (r_st (fst xy) - r_st (snd xy))) (atol a + rtol a * Rabs (r_st (snd xy)))) (combine old new).
(** 1688-1698: the profile and the last j; [n] passes are left. *)
Fixpoint passes (a : profile_par) (ep : nat -> list step -> result (list DataResults)) (npoint npp n j : nat) (pr : list row) : result (list row * nat) :=
  match n with
  | O => Err UnboundLocalError
  | S n' =>
      pr' <- one_pass a ep npoint npp pr ;;
      if close a pr pr' then Ok (pr', j)
      else match n' with O => Ok (pr', j) | _ => passes a ep npoint npp n' (S j) pr' end
  end.
(** int(f * n) *)
Definition scaled (f : R) (n : nat) : nat := Z.to_nat (py_int (f * INR n)).
(** 1663-1703, one refinement; [old] is the profile so far, None the first time. *)
Definition refine (a : profile_par) (ep : nat -> list step -> result (list DataResults)) (f : R * (R * R)) (old : option (list row)) : result (list row * nat) :=
  let fnz := fst f in let fNpoint := fst (snd f) in let fnpp := snd (snd f) in
  let nz := scaled fnz (nz_ a) in let npoint := scaled fnz (Npoint_ a) in let npp := scaled fnz (npp_ a) in
  new <- blank_profile a nz ;;
  start <- match old with
           | None => initialize_stress a new
           | Some pr => mapM (fun r => s <- np_interp (r_z r) (map r_z pr) (map r_st pr) ;; Ok (with_st r s)) new
           end ;;
  r <- passes a ep npoint npp (max_iter a) 0 start ;;
  if (max_iter a <=? snd r)%nat then Err ValueError else Ok (fst r, S (snd r)).
Fixpoint refinements (a : profile_par) (ep : nat -> list step -> result (list DataResults)) (l : list (R * (R * R))) (old : option (list row)) : result (option (list row) * list nat) :=
  match l with
  | [] => Ok (old, [])
  | f :: t => r <- refine a ep f old ;; r' <- refinements a ep t (Some (fst r)) ;; Ok (fst r', snd r :: snd r')
  end.
(** The profile (None: not set) and niter. *)
Definition calc (a : profile_par) (ep : nat -> list step -> result (list DataResults)) : result (option (list row) * list nat) :=
  refinements a ep (combine (nz_refine a) (combine (Npoint_refine a) (npp_refine a))) None.

(** ** compression_indexes, 1793-1944; [npoint], [npp] are what calc left in _Npoint, _npp *)
(** 1827-1858 *)
Definition dsig_point (a : profile_par) (npp : nat) (dsig : R) (r : row) : list step := point_path a npp r ++ [stress_step npp (floored a (r_st r) + dsig)].
(** 1867-1904 *)
Definition dpsi_point (a : profile_par) (npp : nat) (dpsi : R) (r : row) : list step :=
  let st := floored a (r_st r) in
  point_path a npp r ++
  (if Rltb (r_uw r) 0 then [suction_step npp (r_ss r + dpsi)]
   else if Rleb (pow10 (MinSuc a)) (r_uw r - dpsi) then [stress_step npp (st + dpsi)]
   else [stress_step npp (st + r_uw r); suction_step npp (dpsi - r_uw r)]).
Record indexes := mkIndexes { m1s : R; m2s : R; m1w : R; m2w : R; m1a : R; m2a : R }.
(** 1937-1944; a dsig or dpsi of zero, where numpy gives inf or nan, is an error here. *)
Definition point_indexes (dsig dpsi : R) (r rsig rpsi : row) : result indexes :=
  let m1s_ := (r_e rsig - r_e r) / (1 + r_e r) / dsig in
  let m2s_ := (r_e rpsi - r_e r) / (1 + r_e r) / dpsi in
  let m1w_ := (r_Sr rsig * r_e rsig - r_Sr r * r_e r) / (1 + r_e r) / dsig in
  let m2w_ := (r_Sr rpsi * r_e rpsi - r_Sr r * r_e r) / (1 + r_e r) / dpsi in
  if (Reqb dsig 0 || Reqb dpsi 0)%bool then Err ZeroDivisionError else Ok (mkIndexes m1s_ m2s_ m1w_ m2w_ (m1s_ - m1w_) (m2s_ - m2w_)).
Definition compression_indexes (a : profile_par) (ep : nat -> list step -> result (list DataResults)) (npoint npp : nat) (dsig dpsi : R) (pr : list row) : result (list indexes) :=
  psig <- mapM (fun r => from_epus ep npoint (dsig_point a npp dsig r) r) pr ;;
  ppsi <- mapM (fun r => from_epus ep npoint (dpsi_point a npp dpsi r) r) pr ;;
  mapM (fun x => point_indexes dsig dpsi (fst x) (fst (snd x)) (snd (snd x))) (combine pr (combine psig ppsi)).

(** The loops of 1826-1858 and 1866-1914 write into self.profile point by point; the clipping of Sr after the loop is done at once here. *)
Fixpoint in_place (f : row -> result row) (pr : list row) : list row * option exn :=
  match pr with
  | [] => ([], None)
  | r :: t => match f r with Ok r' => let x := in_place f t in (r' :: fst x, snd x) | Err e => (pr, Some e) end
  end.
(** The object's profile afterwards, and the error if there is one. *)
Definition compression_indexes_profile (a : profile_par) (ep : nat -> list step -> result (list DataResults)) (npoint npp : nat) (dsig dpsi : R) (pr : list row) : list row * option exn :=
  let x := in_place (fun r => from_epus ep npoint (dsig_point a npp dsig r) r) pr in
  match snd x with
  | Some _ => x
  | None => let y := in_place (fun r => from_epus ep npoint (dpsi_point a npp dpsi r) r) pr in
            match snd y with Some _ => y | None => (pr, None) end
  end.

(** ** water_permeability, 1947-2024, and air_permeability, 2026-2078; [k_from_e] is the permeability model *)
Definition kr_point (a : profile_par) (ep : nat -> list step -> result (list DataResults)) (npoint npp npp_swcc : nat) (r : row) : result R :=
  if Rleb (r_ss r) (pow10 (MinSuc a)) then Ok 1
  else ds <- ep npoint [stress_step npp (floored a (r_st r)); suction_step npp_swcc million] ;;
       d <- get_last ds ;;
       curve <- mapM (fun x => match d_vw x with Some v => Ok (d_ss x, v) | None => Err ValueError end) d ;;
       kwrel_from_discrete_swcc (r_ss r) curve.
Definition water_permeability (a : profile_par) (ep : nat -> list step -> result (list DataResults)) (k_from_e : R -> R) (npoint npp npp_swcc : nat) (pr : list row) : result (list R) :=
  kr <- mapM (kr_point a ep npoint npp npp_swcc) pr ;; Ok (map (fun x => k_from_e (r_e (fst x)) * snd x) (combine pr kr)).
Definition air_permeability (k_from_e : R -> R) (qfit : R) (pr : list row) : list R :=
  map (fun r => k_from_e (r_e r) * karel_air_from_saturation (r_Sr r) qfit) pr.
