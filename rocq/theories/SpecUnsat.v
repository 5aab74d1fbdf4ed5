(** * Vocabulary for the consolidation of unsaturated soil (Speccon1dUnsat) *)
From Coq Require Import Reals List Arith ZArith.
From Coquelicot Require Import Coquelicot.
From Verif Require Import Base PiecewiseModel SpecPiecewise SpecPiecewiseApi PolyLineModel SpecPolyLine SpecWrap SpecLoad SpecSpeccon SpecconModel SpecGalerkin UnsatModel.
Import ListNotations.
Open Scope R_scope.

(** The inputs for the water (m2w, kw, dTw and the water pressure at the top and bottom) and for the air (m2a, Da, dTa, ...),
    each with the surcharge, in the form of the saturated problem. *)
Definition water (U : uproblem) : problem :=
  mkProblem (u_neig U) (u_drn U) (u_im U) (u_dT U) (u_H U) (u_mvref U) (m2w U) (Some (u_kw U)) (Some (dTw U)) None None None
    (u_surcharge_vs_depth U) (u_surcharge_vs_time U) (u_surcharge_omega_phase U) None None None
    (wtop_vs_time U) (wtop_omega_phase U) (wbot_vs_time U) (wbot_omega_phase U) None None None None.
Definition air (U : uproblem) : problem :=
  mkProblem (u_neig U) (u_drn U) (u_im U) (u_dT U) (u_H U) (u_mvref U) (m2a U) (Some (u_Da U)) (Some (dTa U)) None None None
    (u_surcharge_vs_depth U) (u_surcharge_vs_time U) (u_surcharge_omega_phase U) None None None
    (atop_vs_time U) (atop_omega_phase U) (abot_vs_time U) (abot_omega_phase U) None None None None.
(** Compressibilities with respect to the net stress, for water and air; porosity and saturation. *)
Record skeleton := mkSkeleton { f_1kw : R -> R; f_1ka : R -> R; f_n : R -> R; f_S : R -> R }.
(** w, a and sk say what the inputs mean from time T0 on. *)
Definition represents_unsat (T0 : R) (U : uproblem) (w a : physics) (sk : skeleton) : Prop :=
  represents T0 (water U) w /\ represents T0 (air U) a /\ f_surcharge w = f_surcharge a /\
  well_separated ([m1kw U; m1ka U; m2w U; m2a U; u_n U; u_S U] ++ listed (u_surcharge_vs_depth U)) /\
  depth_profile 0 1 (m1kw U) (f_1kw sk) /\ depth_profile 0 1 (m1ka U) (f_1ka sk) /\
  depth_profile 0 1 (u_n U) (f_n sk) /\ depth_profile 0 1 (u_S U) (f_S sk).
(** Before the end of all load tables. *)
Definition u_before (U : uproblem) (t : R) : Prop := before_ends (load_tables (water U)) t /\ before_ends (load_tables (air U)) t.
(** The program takes the boundary loads into account only if not all four of them are given. *)
Definition loads_seen (U : uproblem) : Prop :=
  atop_vs_time U = None \/ abot_vs_time U = None \/ wtop_vs_time U = None \/ wbot_vs_time U = None.

Section Equations.
Variables (U : uproblem) (w a : physics) (sk : skeleton) (T0 : R) (m : list R).
Let phi (i : nat) (z : R) : R := sin (nth i m 0 * z).
(** Coefficients of the water pressure and of the air pressure. *)
Variables cw ca : nat -> R -> R.
(** Pressures, and their changes since the start. *)
Definition water_pressure (z t : R) : R := pore (water U) w m cw z t.
Definition air_pressure (z t : R) : R := pore (air U) a m ca z t.
Definition water_change (z t : R) : R := water_pressure z t - pore0 (water U) w z.
Definition air_change (z t : R) : R := air_pressure z t - pore0 (air U) a z.
Definition stress_change (z t : R) : R := applied (f_surcharge w) z t - applied0 (f_surcharge w) z.
(** Gain of water, and of air (its volume, and its mass by compression: n (1 - S) / ua_), per volume of soil and per mvref. *)
Definition water_gain (z t : R) : R :=
  f_1kw sk z * (stress_change z t - air_change z t) + f_mv w z * (air_change z t - water_change z t).
Definition air_gain (z t : R) : R :=
  f_1ka sk z * (stress_change z t - air_change z t) + f_mv a z * (air_change z t - water_change z t) +
  f_n sk z * (1 - f_S sk z) / (u_ua U * u_mvref U) * air_change z t.
(** Conservation of water and of air, tested with mode i, from T0 to t; r is the defect. *)
Definition water_balanced (i : nat) (t r : R) : Prop := exists M rate Q,
  is_RInt (fun z => water_gain z t * phi i z) 0 1 M /\ (forall s, T0 <= s <= t -> outflow (water U) w m cw i s (rate s)) /\
  is_RInt rate T0 t Q /\ M + Q = r.
Definition air_balanced (i : nat) (t r : R) : Prop := exists M rate Q,
  is_RInt (fun z => air_gain z t * phi i z) 0 1 M /\ (forall s, T0 <= s <= t -> outflow (air U) a m ca i s (rate s)) /\
  is_RInt rate T0 t Q /\ M + Q = r.
(** The exact entries of the storage matrix. *)
Definition stored_by (c : R -> R) (i j : nat) (x : R) : Prop := is_RInt (fun z => c z * phi i z * phi j z) 0 1 x.
Definition unsat_solution (n : nat) : Prop := exists ww wa aw aa : nat -> nat -> R,
  (forall i j, (i < n)%nat -> (j < n)%nat ->
     (exists x, stored_by (f_mv w) i j x /\ neglected x (ww i j)) /\
     (exists x, stored_by (fun z => f_1kw sk z - f_mv w z) i j x /\ neglected x (wa i j)) /\
     (exists x, stored_by (f_mv a) i j x /\ neglected x (aw i j)) /\
     (exists x, stored_by (fun z => f_1ka sk z - f_mv a z - f_n sk z * (1 - f_S sk z) / (u_ua U * u_mvref U)) i j x /\ neglected x (aa i j))) /\
  forall i t, (i < n)%nat -> T0 <= t -> u_before U t ->
    water_balanced i t (sum n (fun j => ww i j * cw j t) + sum n (fun j => wa i j * ca j t)) /\
    air_balanced i t (sum n (fun j => aw i j * cw j t) + sum n (fun j => aa i j * ca j t)).
End Equations.
(** The PolyLine differences m2w - m1kw and m2a - m1ka are exact: the four profiles have no superfluous points (PolyLine's
    subtraction drops those), and the differences no steps below the tolerance. *)
Definition trim (p : points) : Prop := remove_superfluous_from_x_y (/ 100000000) p = p.
Definition subtractable (U : uproblem) : Prop :=
  trim (m1kw U) /\ trim (m1ka U) /\ trim (m2w U) /\ trim (m2a U) /\
  noticeable_steps2 Rminus (m2w U) (m1kw U) /\ noticeable_steps2 Rminus (m2a U) (m1ka U).
