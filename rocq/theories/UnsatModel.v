(** * Model of Speccon1dUnsat, /repo/geotecha/speccon/speccon1d_unsat.py: unsaturated soil, water and air pressures
    (exact real arithmetic, real eigenvalues) *)
From Coq Require Import Reals List Arith ZArith Bool.
From Verif Require Import Base PiecewiseModel LayersModel PolyLineModel SpectralModel WrapModel LoadModel LoadTrigModel SpecconModel.
Import ListNotations.
Open Scope R_scope.

(** The attributes used below (speccon1d_unsat.py:514-552, 598-642); the input check (573-583) requires dTw, dTa and the
    eight profiles.  [u_n] is the porosity n, [u_S] the saturation S, [u_ua] the initial absolute air pressure ua_. *)
Record uproblem := mkUproblem { u_neig : nat; u_drn : Z; u_im : impl; u_dT : R; u_H : R; u_mvref : R; u_ua : R;
  m1kw : points; m1ka : points; m2w : points; m2a : points; u_n : points; u_S : points;
  u_kw : points; u_Da : points; dTw : R; dTa : R;
  u_surcharge_vs_depth : option (list points); u_surcharge_vs_time : option (list points); u_surcharge_omega_phase : om_arg;
  wtop_vs_time : option (list points); wtop_omega_phase : om_arg; wbot_vs_time : option (list points); wbot_omega_phase : om_arg;
  atop_vs_time : option (list points); atop_omega_phase : om_arg; abot_vs_time : option (list points); abot_omega_phase : om_arg }.

(** ** speccon1d.py with theta_zero_indexes *)
(** theta[theta_zero_indexes] = 0.0; [keep k] says that k is not among the theta_zero_indexes. *)
Definition zero_at (keep : nat -> bool) (theta : list R) : list R :=
  map (fun k => if keep k then item theta k else 0) (seq 0 (length theta)).
Definition kept_theta (keep : nat -> bool) (theta : result (list R)) : result (list R) := th <- theta ;; Ok (zero_at keep th).
(** speccon1d.py:419-634, with 603-604 and 619-620 *)
Definition BC_aDfDt_z (keep : nat -> bool) (drn : Z) (m eigs tvals : list R) (Igamv : list (list R)) (a : points)
  (top bot : option (list points)) (top_om bot_om : om_arg) (dT : R) (im : impl) : result (list (list R)) :=
  zd <- zdist drn a ;;
  bc_terms (length m) (length tvals) (load_ED im eigs tvals dT) Igamv
    (fun _ => kept_theta keep (pdim1sin_ab_linear vectorized m a zd))
    (fun _ => kept_theta keep (zb <- zbot a ;; pdim1sin_ab_linear vectorized m a zb)) top bot top_om bot_om.
(** speccon1d.py:856-1072, with 1043-1044 and 1057-1058 *)
Definition BC_abDfDt_z (keep : nat -> bool) (drn : Z) (m eigs tvals : list R) (Igamv : list (list R)) (a b : points)
  (top bot : option (list points)) (top_om bot_om : om_arg) (dT : R) (im : impl) : result (list (list R)) :=
  ab <- common2 a b ;; let '(a, b) := ab in
  zd <- zdist drn a ;;
  bc_terms (length m) (length tvals) (load_ED im eigs tvals dT) Igamv
    (fun _ => kept_theta keep (pdim1sin_abc_linear vectorized m a b zd))
    (fun _ => kept_theta keep (zb <- zbot a ;; pdim1sin_abc_linear vectorized m a b zb)) top bot top_om bot_om.
(** speccon1d.py:1075-1293, with 1261-1262 and 1277-1278 *)
Definition BC_D_aDf_z (keep : nat -> bool) (drn : Z) (m eigs tvals : list R) (Igamv : list (list R)) (a : points)
  (top bot : option (list points)) (top_om bot_om : om_arg) (dT : R) (im : impl) : result (list (list R)) :=
  zd <- zdist drn a ;;
  bc_terms (length m) (length tvals) (load_E im eigs tvals dT) Igamv
    (fun _ => kept_theta keep (pdim1sin_D_aDb_linear vectorized m a zd))
    (fun _ => kept_theta keep (zb <- zbot a ;; pdim1sin_D_aDb_linear vectorized m a zb)) top bot top_om bot_om.
(** speccon1d.py:1656-1820, with 1803-1804 *)
Fixpoint aDmag_loop_z (keep : nat -> bool) (n nt : nat) (Ef : points -> option (R * R) -> result (list (list R))) (m : list R)
  (Igamv : list (list R)) (a : points) (l : list (points * points * option (R * R))) (acc : list (list R)) : result (list (list R)) :=
  match l with
  | [] => Ok acc
  | (mt, mz, om) :: t =>
      c <- common2 a mz ;; let '(a, mz) := c in
      theta <- kept_theta keep (pdim1sin_ab_linear vectorized m a mz) ;;
      E <- Ef mt om ;;
      aDmag_loop_z keep n nt Ef m Igamv a t (add_term n nt acc E (dot_mv Igamv theta))
  end.
Definition aDmagDt_bilinear_z (keep : nat -> bool) (m eigs tvals : list R) (Igamv : list (list R)) (a : points)
  (mag_vs_depth mag_vs_time : list points) (om : om_arg) (dT : R) (im : impl) : result (list (list R)) :=
  aDmag_loop_z keep (length m) (length tvals) (load_ED im eigs tvals dT) m Igamv a
    (combine (combine mag_vs_time mag_vs_depth) (om_list (length mag_vs_time) om)) (zero_table (length m) (length tvals)).

(** ** Speccon1dUnsat *)
(** 768-789: m; m_block is m twice *)
Definition u_make_m (U : uproblem) : result (list R) := mapM (fun k => m_from_sin_mx k (u_drn U)) (seq 0 (u_neig U)).
Definition m_block (m : list R) : list R := m ++ m.
(** A[:n,:n] = ww, A[:n,n:] = wa, A[n:,:n] = aw, A[n:,n:] = aa *)
Definition blocks2 (n : nat) (ww wa aw aa : nat -> nat -> R) : list (list R) :=
  table (2 * n) (2 * n) (fun i j =>
    if Nat.ltb i n then (if Nat.ltb j n then ww i j else wa i (j - n)%nat)
    else (if Nat.ltb j n then aw (i - n)%nat j else aa (i - n)%nat (j - n)%nat)).
(** 792-827 *)
Definition u_make_gam (U : uproblem) (m : list R) : result (list (list R)) :=
  let G c := pdim1sin_af_linear (u_im U) m c in
  let gam_1kw := G (m1kw U) in let gam_1ka := G (m1ka U) in let gam_2w := G (m2w U) in let gam_2a := G (m2a U) in
  let gam_n := G (u_n U) in
  gam_sn <- pdim1sin_abf_linear (u_im U) m (u_n U) (u_S U) ;;
  let d := u_ua U * u_mvref U in
  Ok (cut (blocks2 (u_neig U) (cell gam_2w) (fun i j => cell gam_1kw i j - cell gam_2w i j) (cell gam_2a)
    (fun i j => cell gam_1ka i j - cell gam_2a i j - cell gam_n i j / d + cell gam_sn i j / d))).
(** 830-854 *)
Definition u_make_psi (U : uproblem) (m : list R) : list (list R) :=
  let W := pdim1sin_D_aDf_linear (u_im U) m (u_kw U) in let A := pdim1sin_D_aDf_linear (u_im U) m (u_Da U) in
  blocks2 (u_neig U) (fun i j => dTw U / u_dT U * cell W i j) (fun _ _ => 0) (fun _ _ => 0) (fun i j => dTa U / u_dT U * cell A i j).
(** 973-1003 *)
Definition u_normalised (U : uproblem) (bot : option (list points)) : option (list points) :=
  match bot with
  | Some l => Some (if Z.eqb (u_drn U) 1 then map (scale (u_H U)) l else l)
  | None => None
  end.
Definition is_none {T} (o : option T) : bool := match o with None => true | Some _ => false end.

Section LinearAlgebra.
Variable inv : list (list R) -> result (list (list R)).
Variable eig : list (list R) -> result (list R * list (list R)).
(** 645-664: m, eigs, v, Igamv; 856-881 is the same as in Speccon1dVR *)
Definition u_time_independent (U : uproblem) : result (list R * list R * list (list R) * list (list R)) :=
  m <- u_make_m U ;; gam <- u_make_gam U m ;; let psi := u_make_psi U m in
  e <- make_eigs_and_v inv eig gam psi ;; let '(eigs, v, igv) := e in Ok (m, eigs, v, igv).

Section Time.
Variables (U : uproblem) (m eigs tvals : list R) (Igamv : list (list R)).
(** theta_zero_indexes=slice(neig, None) keeps the first half (water), slice(None, neig) the second (air) *)
Definition water_rows (k : nat) : bool := Nat.ltb k (u_neig U).
Definition air_rows (k : nat) : bool := Nat.leb (u_neig U) k.
(** 926-968 *)
Definition u_surcharge (sz st : list points) : result (list (list R)) :=
  let n := (2 * u_neig U)%nat in let nt := length tvals in
  A <- aDmagDt_bilinear_z water_rows (m_block m) eigs tvals Igamv (m1kw U) sz st (u_surcharge_omega_phase U) (u_dT U) (u_im U) ;;
  add_part n nt 1 (aDmagDt_bilinear_z air_rows (m_block m) eigs tvals Igamv (m1ka U) sz st (u_surcharge_omega_phase U) (u_dT U) (u_im U)) A.
(** E_Igamv_the_BC_aDfDt_linear for the water's and for the air's boundary loads *)
Definition by_water (keep : nat -> bool) (c : points) : result (list (list R)) :=
  BC_aDfDt_z keep (u_drn U) (m_block m) eigs tvals Igamv c (wtop_vs_time U) (u_normalised U (wbot_vs_time U))
    (wtop_omega_phase U) (wbot_omega_phase U) (u_dT U) (u_im U).
Definition by_air (keep : nat -> bool) (c : points) : result (list (list R)) :=
  BC_aDfDt_z keep (u_drn U) (m_block m) eigs tvals Igamv c (atop_vs_time U) (u_normalised U (abot_vs_time U))
    (atop_omega_phase U) (abot_omega_phase U) (u_dT U) (u_im U).
(** 1005-1119; note the test of dTw, not dTa, at 1110 *)
Definition u_BC : result (list (list R)) :=
  let n := (2 * u_neig U)%nat in let nt := length tvals in
  acc <- add_part n nt (-1) (by_water water_rows (m2w U)) (zero_table n nt) ;;
  acc <- add_part n nt (-1) (by_air water_rows (m1kw U)) acc ;;
  acc <- add_part n nt 1 (by_air water_rows (m2w U)) acc ;;
  acc <- (if Reqb (dTw U) 0 then Ok acc else add_part n nt (- dTw U)
           (BC_D_aDf_z water_rows (u_drn U) (m_block m) eigs tvals Igamv (u_kw U) (wtop_vs_time U) (u_normalised U (wbot_vs_time U))
              (wtop_omega_phase U) (wbot_omega_phase U) (u_dT U) (u_im U)) acc) ;;
  acc <- add_part n nt (-1) (by_water air_rows (m2a U)) acc ;;
  acc <- add_part n nt (-1) (by_air air_rows (m1ka U)) acc ;;
  acc <- add_part n nt 1 (by_air air_rows (m2a U)) acc ;;
  acc <- add_part n nt (/ (u_mvref U * u_ua U)) (by_air air_rows (u_n U)) acc ;;
  acc <- add_part n nt (- / (u_mvref U * u_ua U))
           (BC_abDfDt_z air_rows (u_drn U) (m_block m) eigs tvals Igamv (u_S U) (u_n U) (atop_vs_time U) (u_normalised U (abot_vs_time U))
              (atop_omega_phase U) (abot_omega_phase U) (u_dT U) (u_im U)) acc ;;
  if Reqb (dTw U) 0 then Ok acc else add_part n nt (- dTa U)
    (BC_D_aDf_z air_rows (u_drn U) (m_block m) eigs tvals Igamv (u_Da U) (atop_vs_time U) (u_normalised U (abot_vs_time U))
       (atop_omega_phase U) (abot_omega_phase U) (u_dT U) (u_im U)) acc.
(** 893-924; the boundary loads are skipped when none of the four is None (917-920) *)
Definition u_make_E_Igamv_the : result (list (list R)) :=
  let n := (2 * u_neig U)%nat in let nt := length tvals in
  acc <- match u_surcharge_vs_depth U, u_surcharge_vs_time U with
         | Some sz, Some st => add_part n nt 1 (u_surcharge sz st) (zero_table n nt)
         | _, _ => Ok (zero_table n nt)
         end ;;
  if is_none (atop_vs_time U) || is_none (abot_vs_time U) || is_none (wtop_vs_time U) || is_none (wbot_vs_time U)
  then add_part n nt 1 u_BC acc else Ok acc.
End Time.
(** 645-679: m and v_E_Igamv_the *)
Definition u_solve (U : uproblem) (tvals : list R) : result (list R * list (list R)) :=
  r <- u_time_independent U ;; let '(m, eigs, v, Igamv) := r in
  E <- u_make_E_Igamv_the U m eigs tvals Igamv ;; Ok (m, dot_mm v E).

(** v_E_Igamv_the[:neig, indexes] and v_E_Igamv_the[neig:, indexes] *)
Definition water_part (U : uproblem) (A : list (list R)) : list (list R) := firstn (u_neig U) A.
Definition air_part (U : uproblem) (A : list (list R)) : list (list R) := skipn (u_neig U) A.
(** 1123-1158: porw, pora *)
Definition u_make_por (U : uproblem) (tvals ppress_z : list R) (idx : list nat) : result (list (list R) * list (list R)) :=
  s <- u_solve U tvals ;; let '(m, vE) := s in
  w <- dim1sin_f m ppress_z (pick idx tvals) (pick_columns idx (water_part U vE)) (u_drn U) (wtop_vs_time U)
         (u_normalised U (wbot_vs_time U)) (wtop_omega_phase U) (wbot_omega_phase U) ;;
  a <- dim1sin_f m ppress_z (pick idx tvals) (pick_columns idx (air_part U vE)) (u_drn U) (atop_vs_time U)
         (u_normalised U (abot_vs_time U)) (atop_omega_phase U) (abot_omega_phase U) ;;
  Ok (w, a).
(** 1163-1196: avpw, avpa *)
Definition u_make_avp (U : uproblem) (tvals : list R) (z_pairs : list (R * R)) (idx : list nat) : result (list (list R) * list (list R)) :=
  s <- u_solve U tvals ;; let '(m, vE) := s in
  w <- dim1sin_avgf m z_pairs (pick idx tvals) (pick_columns idx (water_part U vE)) (u_drn U) (wtop_vs_time U)
         (u_normalised U (wbot_vs_time U)) (wtop_omega_phase U) (wbot_omega_phase U) ;;
  a <- dim1sin_avgf m z_pairs (pick idx tvals) (pick_columns idx (air_part U vE)) (u_drn U) (atop_vs_time U)
         (u_normalised U (abot_vs_time U)) (atop_omega_phase U) (abot_omega_phase U) ;;
  Ok (w, a).
(** 1198-1279: set, setw, seta.  [m2w - m1kw] is the PolyLine difference.  At 1247 the m2a part is taken from setw, not seta. *)
Definition u_make_set (U : uproblem) (tvals : list R) (z_pairs : list (R * R)) (idx : list nat)
  : result (list (list R) * list (list R) * list (list R)) :=
  s <- u_solve U tvals ;; let '(m, vE) := s in
  let tv := pick idx tvals in
  let air c := dim1sin_integrate_af m z_pairs tv (pick_columns idx (air_part U vE)) (u_drn U) c (atop_vs_time U)
                 (u_normalised U (abot_vs_time U)) (atop_omega_phase U) (abot_omega_phase U) in
  let water c := dim1sin_integrate_af m z_pairs tv (pick_columns idx (water_part U vE)) (u_drn U) c (wtop_vs_time U)
                   (u_normalised U (wbot_vs_time U)) (wtop_omega_phase U) (wbot_omega_phase U) in
  dw <- add_points Rminus (m2w U) (m1kw U) ;;
  setw <- air dw ;;
  B <- water (m2w U) ;; let setw := madd setw (mscale (-1) B) in
  da <- add_points Rminus (m2a U) (m1ka U) ;;
  seta <- air da ;;
  B <- water (m2a U) ;; let setw := madd setw (mscale (-1) B) in
  r <- match u_surcharge_vs_time U with
       | None => Ok (setw, seta)
       | Some st =>
           match u_surcharge_vs_depth U with
           | None => Err AttributeError
           | Some sz =>
               let load c := cos_super (Many st) (Many sz) c tv (map fst z_pairs) (map snd z_pairs) (om_super (u_surcharge_omega_phase U)) true in
               B <- load (m1kw U) ;; let setw := madd setw B in
               B <- load (m1ka U) ;; Ok (setw, madd seta B)
           end
       end ;;
  let '(setw, seta) := r in
  let setw := mscale (u_H U * u_mvref U) setw in
  let seta := mscale (u_H U * u_mvref U) seta in
  Ok (madd seta setw, setw, seta).
End LinearAlgebra.
