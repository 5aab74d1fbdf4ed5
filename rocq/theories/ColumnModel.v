(** * Model of Speccon1dVRC, /repo/geotecha/speccon/speccon1d_vrc.py: soil with stone columns (exact real arithmetic,
    real eigenvalues) *)
From Coq Require Import Reals List Arith ZArith Bool.
From Verif Require Import Base PiecewiseModel LayersModel PolyLineModel SpectralModel WrapModel LoadModel LoadTrigModel SpecconModel WellModel.
Import ListNotations.
Open Scope R_scope.

(** The attributes (speccon1d_vrc.py:524-539).  [cbase] has those that Speccon1dVR has too, of which the program reads
    H, drn, dT, neig, mvref, mv, implementation and the surcharge, top and bottom loads only (there are no pumps, no
    fixed pressures and no vacuum).  The others are required by the input check (575-595), so they are not optional:
    n = ratio of the radii, kv and dTv, kh, et and dTh for the soil, kvc and dTvc, khc and dThc for the column. *)
Record cproblem := mkCproblem { cbase : problem; cn : R; ckv : points; cdTv : R; ckh : points; cet : points; cdTh : R;
  ckvc : points; cdTvc : R; ckhc : points; cdThc : R }.
(** 663: self.alp = 1 / self.n**2 *)
Definition alp (W : cproblem) : R := 1 / (cn W * cn W).

(** 813-816, 828-831: d / self.dT * integ.pdim1sin_D_aDf_linear(m, k) *)
Definition psi_vertical (P : problem) (m : list R) (d : R) (k : points) : list (list R) :=
  let A := pdim1sin_D_aDf_linear (pim P) m k in table (neig P) (neig P) (fun i j => d / dT P * cell A i j).
(** 819-823 *)
Definition make_psi_sh (W : cproblem) (m : list R) : result (list (list R)) :=
  let P := cbase W in let n := neig P in
  _ <- polyline_make_x_common [ckh W; cet W] ;;
  A <- pdim1sin_abf_linear (pim P) m (ckh W) (cet W) ;;
  Ok (table n n (fun i j => cdTh W / dT P * cell A i j)).
(** 834-837 *)
Definition make_psi_ch (W : cproblem) (m : list R) : list (list R) :=
  let P := cbase W in let n := neig P in
  let A := pdim1sin_af_linear (pim P) m (ckhc W) in table n n (fun i j => cdThc W / dT P * cell A i j).
(** numpy.diag([x] * n) *)
Definition diag (n : nat) (x : R) : list (list R) := table n n (fun i j => if Nat.eqb i j then x else 0).
(** numpy.bmat of three rows of three n by n blocks: element i, j is in block i/n, j/n *)
Definition bmat3 (n : nat) (blocks : list (list (list (list R)))) : list (list R) :=
  table (3 * n) (3 * n) (fun i j => cell (nth (j / n) (nth (i / n) blocks []) []) (i mod n) (j mod n)).
(** bet[r*n:(r+1)*n, c*n:(c+1)*n] *)
Definition block (n : nat) (A : list (list R)) (r c : nat) : list (list R) := table n n (fun i j => cell A (r * n + i) (c * n + j)).
(** 844-852, with psi_s and psi_c of 825 and 839 *)
Definition make_Ibet (n : nat) (al : R) (psi_sv psi_sh psi_cv psi_ch : list (list R)) : list (list R) :=
  let psi_s := table n n (fun i j => cell psi_sh i j - cell psi_sv i j) in
  let psi_c := table n n (fun i j => cell psi_ch i j - cell psi_cv i j) in
  bmat3 n [[diag n (1 - al); diag n al; zero_table n n];
           [psi_s; table n n (fun i j => - cell psi_c i j); table n n (fun i j => cell psi_ch i j - cell psi_sh i j)];
           [table n n (fun i j => cell psi_sh i j - al * cell psi_sv i j); table n n (fun i j => al * cell psi_cv i j); table n n (fun i j => - cell psi_sh i j)]].

Section LinearAlgebra.
Variable inv : list (list R) -> result (list (list R)).
Variable eig : list (list R) -> result (list R * list (list R)).
(** What make_time_independent_arrays leaves behind (649-671). *)
Record carrays := mkCarrays { c_m : list R; c_eigs : list R; c_v : list (list R); c_Igamv : list (list R);
  c_psi_sv : list (list R); c_psi_cv : list (list R); c_bet : list (list R) }.
Definition c_time_independent (W : cproblem) : result carrays :=
  let P := cbase W in let n := neig P in let al := alp W in
  m <- make_m P ;;
  let gam := make_gam P m in
  let psi_sv := psi_vertical P m (cdTv W) (ckv W) in
  psi_sh <- make_psi_sh W m ;;
  let psi_cv := psi_vertical P m (cdTvc W) (ckvc W) in
  let psi_ch := make_psi_ch W m in
  bet <- inv (make_Ibet n al psi_sv psi_sh psi_cv psi_ch) ;;
  let A := dot_mm psi_sv (block n bet 0 0) in
  let C := dot_mm psi_cv (block n bet 1 0) in
  let psi := cut (table n n (fun i j => ((1 - al) * cell A i j + al * cell C i j) * -1)) in
  e <- make_eigs_and_v inv eig gam psi ;; let '(eigs, v, igv) := e in
  Ok (mkCarrays m eigs v igv psi_sv psi_cv bet).

(** bet01 + alp*bet02, bet11 + alp*bet12 (1017-1018, 1083, 1105) *)
Definition drive_block (n : nat) (al : R) (bet : list (list R)) (r : nat) : list (list R) :=
  table n n (fun i j => cell (block n bet r 1) i j + al * cell (block n bet r 2) i j).
(** 1016-1018 *)
Definition make_G (n : nat) (al : R) (X : carrays) : list (list R) :=
  let A := dot_mm (c_psi_sv X) (drive_block n al (c_bet X) 0) in
  let C := dot_mm (c_psi_cv X) (drive_block n al (c_bet X) 1) in
  table n n (fun i j => cell (diag n al) i j - (1 - al) * cell A i j - al * cell C i j).
(** 999-1042; np.identity(n) - G twice *)
Definition c_make_BC (W : cproblem) (X : carrays) (tvals : list R) : result (list (list R)) :=
  let P := cbase W in
  let n := neig P in let nt := length tvals in
  let m := c_m X in let eigs := c_eigs X in let Igamv := c_Igamv X in
  let bot := normalised_bot P in
  let top := top_vs_time P in let tom := top_omega_phase P in let bom := bot_omega_phase P in
  acc <- add_part n nt (-1) (BC_aDfDt (drn P) m eigs tvals Igamv (mv P) top bot tom bom (dT P) (pim P)) (zero_table n nt) ;;
  let G := make_G n (alp W) X in
  let IG := table n n (fun i j => cell (diag n 1) i j - cell G i j) in
  acc <- (if Reqb (cdTv W) 0 then Ok acc else
          add_part n nt (cdTv W) (BC_D_aDf (drn P) m eigs tvals (dot_mm Igamv IG) (ckv W) top bot tom bom (dT P) (pim P)) acc) ;;
  if Reqb (cdTvc W) 0 then Ok acc else
  add_part n nt (cdTvc W) (BC_D_aDf (drn P) m eigs tvals (dot_mm Igamv IG) (ckvc W) top bot tom bom (dT P) (pim P)) acc.
(** 907-972 *)
Definition c_make_E_Igamv_the (W : cproblem) (X : carrays) (tvals : list R) : result (list (list R)) :=
  let P := cbase W in
  let n := neig P in let nt := length tvals in
  let m := c_m X in let eigs := c_eigs X in let Igamv := c_Igamv X in
  let acc := zero_table n nt in
  acc <- match surcharge_vs_depth P, surcharge_vs_time P with
         | Some sz, Some st => add_part n nt 1
             (aDmagDt_bilinear m eigs tvals Igamv (mv P) sz st (surcharge_omega_phase P) (dT P) (pim P)) acc
         | _, _ => Ok acc
         end ;;
  match top_vs_time P, bot_vs_time P with
  | None, None => Ok acc
  | _, _ => add_part n nt 1 (c_make_BC W X tvals) acc
  end.
(** 649-684 *)
Definition c_solve (W : cproblem) (tvals : list R) : result (carrays * list (list R)) :=
  X <- c_time_independent W ;; E <- c_make_E_Igamv_the W X tvals ;; Ok (X, dot_mm (c_v X) E).

(** 1046-1191: three averages (overall, in the soil, in the column); [r] is None, Some 0, Some 1.  The function [f] is
    dim1sin_f at the depths or dim1sin_avgf over the depth ranges. *)
Definition c_report (f : list R -> list R -> list (list R) -> Z -> option (list points) -> option (list points) -> om_arg -> om_arg -> result (list (list R)))
  (W : cproblem) (tvals : list R) (idx : list nat) (r : option nat) : result (list (list R)) :=
  let P := cbase W in let n := neig P in let al := alp W in
  s <- c_solve W tvals ;; let '(X, vE) := s in
  let m := c_m X in let tv := pick idx tvals in
  let top := top_vs_time P in let bot := normalised_bot P in let tom := top_omega_phase P in let bom := bot_omega_phase P in
  match r with
  | None => f m tv (pick_columns idx vE) (drn P) top bot tom bom
  | Some r =>
      out <- f m tv (dot_mm (block n (c_bet X) r 0) (pick_columns idx vE)) (drn P) top bot tom bom ;;
      match top, bot_vs_time P with
      | None, None => Ok out
      | _, _ =>
          a <- foft_Ipsiw_the_BC_D_aDf (drn P) m tv (drive_block n al (c_bet X) r) (ckv W) top bot tom bom ;;
          b <- foft_Ipsiw_the_BC_D_aDf (drn P) m tv (drive_block n al (c_bet X) r) (ckvc W) top bot tom bom ;;
          o <- f m tv (madd (mscale (cdTv W) a) (mscale (cdTvc W) b)) (drn P) None None None None ;;
          Ok (madd out o)
      end
  end.
(** 1046-1116: por, pors, porc *)
Definition c_make_por (W : cproblem) (tvals ppress_z : list R) (idx : list nat) (r : option nat) : result (list (list R)) :=
  c_report (fun m tv A => dim1sin_f m ppress_z tv A) W tvals idx r.
(** 1121-1191: avp, avps, avpc *)
Definition c_make_avp (W : cproblem) (tvals : list R) (z_pairs : list (R * R)) (idx : list nat) (r : option nat) : result (list (list R)) :=
  c_report (fun m tv A => dim1sin_avgf m z_pairs tv A) W tvals idx r.
(** 1193-1233 *)
Definition c_make_set (W : cproblem) (tvals : list R) (z_pairs : list (R * R)) (idx : list nat) : result (list (list R)) :=
  let P := cbase W in
  s <- c_solve W tvals ;; let '(X, vE) := s in
  A <- dim1sin_integrate_af (c_m X) z_pairs (pick idx tvals) (pick_columns idx vE) (drn P) (mv P) (top_vs_time P) (normalised_bot P)
         (top_omega_phase P) (bot_omega_phase P) ;;
  let out := mscale (-1) A in
  out <- match surcharge_vs_time P with
         | None => Ok out
         | Some st =>
             match surcharge_vs_depth P with
             | None => Err AttributeError
             | Some sz => B <- cos_super (Many st) (Many sz) (mv P) (pick idx tvals) (map fst z_pairs) (map snd z_pairs)
                               (om_super (surcharge_omega_phase P)) true ;; Ok (madd out B)
             end
         end ;;
  Ok (mscale (Hh P * mvref P) out).
End LinearAlgebra.
