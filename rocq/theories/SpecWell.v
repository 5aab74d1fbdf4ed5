(** * Vocabulary for the consolidation equation with resistance in the drain (Speccon1dVRW) *)
From Coq Require Import Reals List Arith ZArith.
From Coquelicot Require Import Coquelicot.
From Verif Require Import Base PiecewiseModel SpecPiecewise SpecPiecewiseApi PolyLineModel SpecPolyLine SpecWrap SpecLoad SpecSpeccon SpecconModel SpecGalerkin WellModel.
Import ListNotations.
Open Scope R_scope.

(** The soil of the problem without any drain (and without vacuum). *)
Definition bare (P : problem) : problem :=
  mkProblem (neig P) (drn P) (pim P) (dT P) (Hh P) (mvref P) (mv P) (kv P) (dTv P) None None None
    (surcharge_vs_depth P) (surcharge_vs_time P) (surcharge_omega_phase P) None None None
    (top_vs_time P) (top_omega_phase P) (bot_vs_time P) (bot_omega_phase P)
    (fixed_ppress P) (fixed_ppress_omega_phase P) (pumping P) (pumping_omega_phase P).

(** The drain: exchange with the soil (kh, et, dTh) and flow inside it (kw, dTw). *)
Record drain := mkDrain { f_dkh : R -> R; f_det : R -> R; f_kw : R -> R; kw_bottom : R; d_dh : R; d_w : R }.
Definition represents_well (T0 : R) (W : wproblem) (ph : physics) (dr : drain) : Prop :=
  represents T0 (bare (soil W)) ph /\ well_separated ([wkh W; wet W; wkw W] ++ profiles (bare (soil W))) /\
  depth_profile 0 1 (wkh W) (f_dkh dr) /\ depth_profile 0 1 (wet W) (f_det dr) /\ depth_profile 0 1 (wkw W) (f_kw dr) /\
  kw_bottom dr = vleft (wkw W) 1 /\ d_dh dr = wdTh W /\ d_w dr = wdTw W.

Section Equations.
(** The pore pressure in the soil has the coefficients a, that in the drain b. *)
Variables (P : problem) (ph : physics) (dr : drain) (T0 : R) (m : list R) (a b : nat -> R -> R).
Let phi (i : nat) (z : R) : R := sin (nth i m 0 * z).
Let dphi (i : nat) (z : R) : R := nth i m 0 * cos (nth i m 0 * z).
(** Flow from the soil into the drain, tested with mode i. *)
Definition exchange (i : nat) (t X : R) : Prop :=
  is_RInt (fun z => f_dkh dr z * f_det dr z * (pore P ph m a z t - pore P ph m b z t) * phi i z) 0 1 X.
(** The drain stores nothing: what flows along it came from the soil. *)
Definition drain_balanced (i : nat) (t : R) : Prop := exists V X,
  is_RInt (fun z => f_kw dr z * pore_z P ph m b z t * dphi i z) 0 1 V /\ exchange i t X /\
  d_w dr * (V - kw_bottom dr * pore_z P ph m b 1 t * phi i 1) = d_dh dr * X.
Definition well_outflow (i : nat) (t r : R) : Prop := exists r0 X, outflow P ph m a i t r0 /\ exchange i t X /\ r = r0 + d_dh dr * X.
Definition well_balanced (i : nat) (t r : R) : Prop := exists M rate Q,
  stored P ph m a i t M /\ (forall s, T0 <= s <= t -> well_outflow i s (rate s)) /\ is_RInt rate T0 t Q /\ M + Q = r.
(** Exact entry of the outflow matrix: mode j alone in the soil, the drain responding with w. *)
Definition well_entry (n i j : nat) (x : R) : Prop := exists x0 w X,
  outflow_entry P ph m i j x0 /\
  (forall k, (k < n)%nat -> exists V Y,
     is_RInt (fun z => f_kw dr z * sum n (fun l => w l * dphi l z) * dphi k z) 0 1 V /\
     is_RInt (fun z => f_dkh dr z * f_det dr z * (phi j z - sum n (fun l => w l * phi l z)) * phi k z) 0 1 Y /\ d_w dr * V = d_dh dr * Y) /\
  is_RInt (fun z => f_dkh dr z * f_det dr z * (phi j z - sum n (fun l => w l * phi l z)) * phi i z) 0 1 X /\
  dT P * x = dT P * x0 + d_dh dr * X.
(** a and b solve the two equations with every mode as test function, up to the neglected matrix entries. *)
Definition well_solution (n : nat) : Prop := 
  (forall i t, (i < n)%nat -> drain_balanced i t) /\
  exists dG dP : nat -> nat -> R,
  (forall i j, (i < n)%nat -> (j < n)%nat -> (exists x, storage_entry ph m i j x /\ neglected x (dG i j)) /\ (exists x, well_entry n i j x /\ neglected x (dP i j))) /\
  forall i t, (i < n)%nat -> T0 <= t -> before_ends (load_tables P) t -> exists J : nat -> R,
    (forall j, (j < n)%nat -> is_RInt (a j) T0 t (J j)) /\
    well_balanced i t (sum n (fun j => dG i j * a j t) + dT P * sum n (fun j => dP i j * J j)).
End Equations.
(** The load does not jump at time t. *)
Definition no_jump (p : points) (t : R) : Prop := forall k, (S k < length p)%nat -> at_ (px p) k = t -> at_ (px p) (S k) <> t.
