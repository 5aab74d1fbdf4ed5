(** * Model of Speccon1dVRW, /repo/geotecha/speccon/speccon1d_vrw.py (exact real arithmetic, real
    eigenvalues), and of dim1sin_foft_Ipsiw_the_BC_D_aDf_linear, speccon1d.py:1947-2162. *)
From Coq Require Import Reals List Arith ZArith Bool.
From Verif Require Import Base PiecewiseModel LayersModel PolyLineModel SpectralModel WrapModel LoadModel LoadTrigModel SpecconModel.
Import ListNotations.
Open Scope R_scope.

(** The attributes (speccon1d_vrw.py:462-560).  [soil] has those that Speccon1dVR has too; its kh, et, dTh and
    vacuum attributes are not read here (this program has no vacuum).  dTh and dTw are required, and kh, et, kw with
    them, by the input check (the groups ['dTh'] and ['dTw'], 'dTh kh et' and 'dTw kw'), so they are not optional. *)
Record wproblem := mkWproblem { soil : problem; wkh : points; wet : points; wdTh : R; wkw : points; wdTw : R }.

(** speccon1d_vrw.py:817-822 *)
Definition make_psi_s (W : wproblem) (m : list R) : result (list (list R)) :=
  let P := soil W in let n := neig P in
  _ <- polyline_make_x_common [wkh W; wet W] ;;
  A <- pdim1sin_abf_linear (pim P) m (wkh W) (wet W) ;;
  Ok (table n n (fun i j => wdTh W / dT P * cell A i j)).
(** 795-831: psi before the drains are eliminated *)
Definition make_psi1 (W : wproblem) (m : list R) (psi_s : list (list R)) : list (list R) :=
  let P := soil W in let n := neig P in
  let psi := zero_table n n in
  let psi := match kv P, dTv P with
             | Some k, Some d => let A := pdim1sin_D_aDf_linear (pim P) m k in
                 table n n (fun i j => cell psi i j - d / dT P * cell A i j)
             | _, _ => psi
             end in
  let psi := table n n (fun i j => cell psi i j + cell psi_s i j) in
  fixed_psi P m psi.
(** 781-793 *)
Definition make_psi_w (W : wproblem) (m : list R) (psi_s : list (list R)) : list (list R) :=
  let P := soil W in let n := neig P in
  let psi_w := zero_table n n in
  let A := pdim1sin_D_aDf_linear (pim P) m (wkw W) in
  let psi_w := table n n (fun i j => cell psi_w i j - wdTw W / dT P * cell A i j) in
  table n n (fun i j => cell psi_w i j + cell psi_s i j).

(** speccon1d.py:2119-2162 (a is not None, theta_zero_indexes None).  pinterp_x_y without choose_max. *)
Definition foft_values (p : points) (om : option (R * R)) (tvals : list R) : result (list R) :=
  v <- interp_x_y (px p) (py p) tvals false ;;
  Ok (match om with
      | Some (omega, phase) => map (fun q => fst q * cos (omega * snd q + phase)) (combine v tvals)
      | None => v
      end).
(** foft_Ipsiw_the += E[None, :]*np.dot(Ipsiw, theta)[:, None] *)
Fixpoint foft_loop (n nt : nat) (tvals : list R) (w : list R) (l : list (points * option (R * R))) (acc : list (list R)) : result (list (list R)) :=
  match l with
  | [] => Ok acc
  | (p, om) :: t => E <- foft_values p om tvals ;;
      foft_loop n nt tvals w t (table n nt (fun j i => cell acc j i + item E i * item w j))
  end.
Definition foft_Ipsiw_the_BC_D_aDf (drn : Z) (m tvals : list R) (Ipsiw : list (list R)) (a : points)
  (top bot : option (list points)) (top_om bot_om : om_arg) : result (list (list R)) :=
  let n := length m in let nt := length tvals in
  zd <- zdist drn a ;;
  acc <- match top with
         | None => Ok (zero_table n nt)
         | Some l => th <- pdim1sin_D_aDb_linear vectorized m a zd ;;
             foft_loop n nt tvals (dot_mv Ipsiw th) (combine l (om_list (length l) top_om)) (zero_table n nt)
         end ;;
  match bot with
  | None => Ok acc
  | Some l => zb <- zbot a ;; th <- pdim1sin_D_aDb_linear vectorized m a zb ;;
      foft_loop n nt tvals (dot_mv Ipsiw th) (combine l (om_list (length l) bot_om)) acc
  end.

Section LinearAlgebra.
Variable inv : list (list R) -> result (list (list R)).
Variable eig : list (list R) -> result (list R * list (list R)).
(** What make_time_independent_arrays leaves behind (645-659, 833-862). *)
Record warrays := mkWarrays { w_m : list R; w_eigs : list R; w_v : list (list R); w_Igamv : list (list R);
  w_psi_s : list (list R); w_Ipsi_w : list (list R); w_psi_s_Ipsi_w : list (list R) }.
Definition w_time_independent (W : wproblem) : result warrays :=
  let P := soil W in let n := neig P in
  m <- make_m P ;;
  let gam := make_gam P m in
  psi_s <- make_psi_s W m ;;
  let psi := make_psi1 W m psi_s in
  let psi_w := make_psi_w W m psi_s in
  Ipsi_w <- inv psi_w ;;
  let psi_s_Ipsi_w := dot_mm psi_s Ipsi_w in
  let D := dot_mm psi_s_Ipsi_w psi_s in
  let psi := cut (table n n (fun i j => cell psi i j - cell D i j)) in
  e <- make_eigs_and_v inv eig gam psi ;; let '(eigs, v, igv) := e in
  Ok (mkWarrays m eigs v igv psi_s Ipsi_w psi_s_Ipsi_w).

(** 1006-1057 *)
Definition w_make_BC (W : wproblem) (X : warrays) (tvals : list R) : result (list (list R)) :=
  let P := soil W in
  let n := neig P in let nt := length tvals in
  let m := w_m X in let eigs := w_eigs X in let Igamv := w_Igamv X in
  let bot := normalised_bot P in
  let top := top_vs_time P in let tom := top_omega_phase P in let bom := bot_omega_phase P in
  acc <- add_part n nt (-1) (BC_aDfDt (drn P) m eigs tvals Igamv (mv P) top bot tom bom (dT P) (pim P)) (zero_table n nt) ;;
  acc <- match kv P, dTv P with
         | Some k, Some d => if Reqb d 0 then Ok acc else
             add_part n nt d (BC_D_aDf (drn P) m eigs tvals Igamv k top bot tom bom (dT P) (pim P)) acc
         | _, _ => Ok acc
         end ;;
  acc <- match fixed_ppress P with
         | None => Ok acc
         | Some l => add_part n nt (-1) (BC_deltaf (drn P) m eigs tvals Igamv (map (fun f => fst (fst f)) l) (map (fun f => snd (fst f)) l)
                                          top bot tom bom (dT P) (pim P)) acc
         end ;;
  if Reqb (wdTw W) 0 then Ok acc else
  add_part n nt (wdTw W) (BC_D_aDf (drn P) m eigs tvals (dot_mm Igamv (w_psi_s_Ipsi_w X)) (wkw W) top bot tom bom (dT P) (pim P)) acc.
(** 864-982 *)
Definition w_make_E_Igamv_the (W : wproblem) (X : warrays) (tvals : list R) : result (list (list R)) :=
  let P := soil W in
  let n := neig P in let nt := length tvals in
  let m := w_m X in let eigs := w_eigs X in let Igamv := w_Igamv X in
  let acc := zero_table n nt in
  acc <- match surcharge_vs_depth P, surcharge_vs_time P with
         | Some sz, Some st => add_part n nt 1
             (aDmagDt_bilinear m eigs tvals Igamv (mv P) sz st (surcharge_omega_phase P) (dT P) (pim P)) acc
         | _, _ => Ok acc
         end ;;
  acc <- match top_vs_time P, bot_vs_time P with
         | None, None => Ok acc
         | _, _ => add_part n nt 1 (w_make_BC W X tvals) acc
         end ;;
  acc <- match fixed_ppress P with
         | None => Ok acc
         | Some l => add_part n nt 1 (deltamag m eigs tvals Igamv (map (fun f => fst (fst f)) l) (map (fun f => snd (fst f)) l)
                       (map snd l) (fixed_ppress_omega_phase P) (dT P) (pim P)) acc
         end ;;
  match pumping P with
  | None => Ok acc
  | Some l => add_part n nt 1 (deltamag m eigs tvals Igamv (map fst l) (map (fun _ => 1) l)
                (map (fun f => Some (scale (/ (mvref P * Hh P)) (snd f))) l) (pumping_omega_phase P) (dT P) (pim P)) acc
  end.
(** 645-673 *)
Definition w_solve (W : wproblem) (tvals : list R) : result (warrays * list (list R)) :=
  X <- w_time_independent W ;; E <- w_make_E_Igamv_the W X tvals ;; Ok (X, dot_mm (w_v X) E).

(** 1059-1170: the four outputs *)
Definition w_make_por (W : wproblem) (tvals ppress_z : list R) (idx : list nat) : result (list (list R)) :=
  let P := soil W in
  s <- w_solve W tvals ;; let '(X, vE) := s in
  dim1sin_f (w_m X) ppress_z (pick idx tvals) (pick_columns idx vE) (drn P) (top_vs_time P) (normalised_bot P) (top_omega_phase P) (bot_omega_phase P).
(** 1084-1111: note self.bot_vs_time, not bot_vs_time, in 1097 *)
Definition w_make_porwell (W : wproblem) (tvals ppress_z : list R) (idx : list nat) : result (list (list R)) :=
  let P := soil W in
  s <- w_solve W tvals ;; let '(X, vE) := s in
  let m := w_m X in
  let tv := pick idx tvals in
  let a := dot_mm (w_Ipsi_w X) (w_psi_s X) in
  A <- dim1sin_f m ppress_z tv (dot_mm a (pick_columns idx vE)) (drn P) (top_vs_time P) (bot_vs_time P) (top_omega_phase P) (bot_omega_phase P) ;;
  F <- foft_Ipsiw_the_BC_D_aDf (drn P) m tv (w_Ipsi_w X) (wkw W) (top_vs_time P) (normalised_bot P) (top_omega_phase P) (bot_omega_phase P) ;;
  B <- dim1sin_f m ppress_z tv F (drn P) None None None None ;;
  Ok (madd A (mscale (wdTw W) B)).
Definition w_make_avp (W : wproblem) (tvals : list R) (z_pairs : list (R * R)) (idx : list nat) : result (list (list R)) :=
  let P := soil W in
  s <- w_solve W tvals ;; let '(X, vE) := s in
  dim1sin_avgf (w_m X) z_pairs (pick idx tvals) (pick_columns idx vE) (drn P) (top_vs_time P) (normalised_bot P) (top_omega_phase P) (bot_omega_phase P).
Definition w_make_set (W : wproblem) (tvals : list R) (z_pairs : list (R * R)) (idx : list nat) : result (list (list R)) :=
  let P := soil W in
  s <- w_solve W tvals ;; let '(X, vE) := s in
  A <- dim1sin_integrate_af (w_m X) z_pairs (pick idx tvals) (pick_columns idx vE) (drn P) (mv P) (top_vs_time P) (normalised_bot P)
         (top_omega_phase P) (bot_omega_phase P) ;;
  let out := mscale (-1) A in
  out <- match surcharge_vs_time P with
         | None => Ok out
         | Some st =>
             match surcharge_vs_depth P with
             | None => Err AttributeError
             | Some sz => B <- cos_super (Many st) (Many sz) (mv P) (pick idx tvals) (map fst z_pairs) (map snd z_pairs)
                               (om_super (surcharge_omega_phase P)) true ;; Ok (madd out B)
             end
         end ;;
  Ok (mscale (Hh P * mvref P) out).
End LinearAlgebra.
