(** * Vocabulary for the consolidation of soil with stone columns (Speccon1dVRC) *)
From Coq Require Import Reals List Arith ZArith.
From Coquelicot Require Import Coquelicot.
From Verif Require Import Base PiecewiseModel SpecPiecewise SpecPiecewiseApi PolyLineModel SpecPolyLine SpecWrap SpecLoad SpecSpeccon SpecconModel SpecGalerkin ColumnModel.
Import ListNotations.
Open Scope R_scope.

(** Compressibility and loads of the problem, without any flow. *)
Definition frame (P : problem) : problem :=
  mkProblem (neig P) (drn P) (pim P) (dT P) (Hh P) (mvref P) (mv P) None None None None None
    (surcharge_vs_depth P) (surcharge_vs_time P) (surcharge_omega_phase P) None None None
    (top_vs_time P) (top_omega_phase P) (bot_vs_time P) (bot_omega_phase P) None None None None.

(** Vertical flow in soil and column (s_k, c_k), flow from the soil (s_x = kh * et) and the column (c_x) towards their interface, the
    four time factors, and the share of the area that the column takes. *)
Record column := mkColumn { s_k : R -> R; s_bottom : R; s_dv : R; s_kh : R -> R; s_et : R -> R; s_dh : R;
  c_k : R -> R; c_bottom : R; c_dv : R; c_kh : R -> R; c_dh : R; share : R }.
Definition represents_column (T0 : R) (W : cproblem) (ph : physics) (co : column) : Prop :=
  represents T0 (frame (cbase W)) ph /\ well_separated ([ckv W; ckh W; cet W; ckvc W; ckhc W] ++ profiles (frame (cbase W))) /\
  depth_profile 0 1 (ckv W) (s_k co) /\ depth_profile 0 1 (ckh W) (s_kh co) /\ depth_profile 0 1 (cet W) (s_et co) /\
  depth_profile 0 1 (ckvc W) (c_k co) /\ depth_profile 0 1 (ckhc W) (c_kh co) /\
  s_bottom co = vleft (ckv W) 1 /\ c_bottom co = vleft (ckvc W) 1 /\
  s_dv co = cdTv W /\ s_dh co = cdTh W /\ c_dv co = cdTvc W /\ c_dh co = cdThc W /\ share co = 1 / (cn W) ^ 2.

Section Equations.
Variables (P : problem) (ph : physics) (co : column) (T0 : R) (m : list R).
Let phi (i : nat) (z : R) : R := sin (nth i m 0 * z).
Let dphi (i : nat) (z : R) : R := nth i m 0 * cos (nth i m 0 * z).
(** Loss by vertical flow, tested with mode i, of a pressure with the gradient pz. *)
Definition vertical (k : R -> R) (bottom : R) (pz : R -> R) (i : nat) (V : R) : Prop := exists I,
  is_RInt (fun z => k z * pz z * dphi i z) 0 1 I /\ V = I - bottom * pz 1 * phi i 1.
(** Loss by radial flow, tested with mode i, of the pressure p against the pressure q at the interface. *)
Definition radial (x : R -> R) (p q : R -> R) (i : nat) (E : R) : Prop := is_RInt (fun z => x z * (p z - q z) * phi i z) 0 1 E.
(** Soil (pressure ps) and column (pc) lose the same volume, and what flows radially out of the one flows into the other;
    pi is the pressure at the interface. *)
Definition together (ps psz pc pcz pi : R -> R) (i : nat) (loss : R) : Prop := exists Vs Es Vc Ec,
  vertical (s_k co) (s_bottom co) psz i Vs /\ radial (fun z => s_kh co z * s_et co z) ps pi i Es /\
  vertical (c_k co) (c_bottom co) pcz i Vc /\ radial (c_kh co) pc pi i Ec /\
  s_dv co * Vs + s_dh co * Es = loss /\ c_dv co * Vc + c_dh co * Ec = loss /\
  (1 - share co) * (s_dh co * Es) + share co * (c_dh co * Ec) = 0.
(** The average pressure has the coefficients u, the pressures in the soil, in the column and at the interface us, uc and ui. *)
Variables u us uc ui : nat -> R -> R.
Definition column_loss (i : nat) (t r : R) : Prop :=
  together (fun z => pore P ph m us z t) (fun z => pore_z P ph m us z t) (fun z => pore P ph m uc z t) (fun z => pore_z P ph m uc z t)
    (fun z => pore P ph m ui z t) i r.
Definition column_balanced (i : nat) (t r : R) : Prop := exists M rate Q,
  stored P ph m u i t M /\ (forall s, T0 <= s <= t -> column_loss i s (rate s)) /\ is_RInt rate T0 t Q /\ M + Q = r.
(** Exact entry of the outflow matrix: the average pressure is mode j; soil, column and interface respond with ws, wc and wi. *)
Definition column_entry (n i j : nat) (x : R) : Prop := exists ws wc wi : nat -> R,
  (forall l, (l < n)%nat -> (1 - share co) * ws l + share co * wc l = if Nat.eqb j l then 1 else 0) /\
  forall k, (k < n)%nat -> exists y,
    together (fun z => sum n (fun l => ws l * phi l z)) (fun z => sum n (fun l => ws l * dphi l z))
      (fun z => sum n (fun l => wc l * phi l z)) (fun z => sum n (fun l => wc l * dphi l z)) (fun z => sum n (fun l => wi l * phi l z)) k y /\
    (k = i -> dT P * x = y).
Definition column_solution (n : nat) : Prop :=
  (forall z t, pore P ph m u z t = (1 - share co) * pore P ph m us z t + share co * pore P ph m uc z t) /\
  (forall i t, (i < n)%nat -> exists r, column_loss i t r) /\
  exists dG dP : nat -> nat -> R,
  (forall i j, (i < n)%nat -> (j < n)%nat -> (exists x, storage_entry ph m i j x /\ neglected x (dG i j)) /\ (exists x, column_entry n i j x /\ neglected x (dP i j))) /\
  forall i t, (i < n)%nat -> T0 <= t -> before_ends (load_tables P) t -> exists J : nat -> R,
    (forall j, (j < n)%nat -> is_RInt (u j) T0 t (J j)) /\
    column_balanced i t (sum n (fun j => dG i j * u j t) + dT P * sum n (fun j => dP i j * J j)).
End Equations.
(** The boundary loads cause no flow in the column by themselves. *)
Definition no_column_drive (W : cproblem) (co : column) : Prop :=
  (top_vs_time (cbase W) = None /\ bot_vs_time (cbase W) = None) \/ c_dv co = 0 \/
  (exists k, c_bottom co = k /\ forall z, 0 <= z <= 1 -> c_k co z = k).
