(** * Specification of consolidation of a layer whose properties vary with depth *)
From Coq Require Import Reals List ZArith.
From Coquelicot Require Import Coquelicot.
Import ListNotations.
Local Open Scope R_scope.

(** What is used of the Bessel functions of the first and second kind (J, Y: order, argument): the
    recurrences and derivatives for the orders nu - 1, nu, nu + 1 and the Wronskian. *)
Record bessel_at (B : R -> R -> R) (nu : R) : Prop := mkBessel {
  b_rec : forall x, 0 < x -> B (nu - 1) x + B (nu + 1) x = 2 * nu / x * B nu x;
  b_der : forall x, 0 < x -> is_derive (B nu) x ((B (nu - 1) x - B (nu + 1) x) / 2);
  b_down : forall x, 0 < x -> is_derive (B (nu - 1)) x ((nu - 1) / x * B (nu - 1) x - B nu x);
  b_up : forall x, 0 < x -> is_derive (B (nu + 1)) x (B nu x - (nu + 1) / x * B (nu + 1) x) }.
Definition is_bessel (J Y : R -> R -> R) (nu : R) : Prop :=
  bessel_at J nu /\ bessel_at Y nu /\ forall x, 0 < x -> J (nu + 1) x * Y nu x - J nu x * Y (nu + 1) x = 2 / (PI * x).

(** A layer 0 <= z <= depth with permeability over unit weight of water k(z) and compressibility m(z). *)
Record layer := mkLayer { depth : R; cond : R -> R; comp : R -> R }.
Definition inside (L : layer) (z : R) : Prop := 0 <= z <= depth L.
(** One term: rate of decay, shape, and flow (cond times the slope of the shape). *)
Record mode := mkMode { rate : R; shape : R -> R; flow : R -> R }.
(** d/dz (cond dshape/dz) = - rate comp shape *)
Definition mode_equation (L : layer) (m : mode) : Prop := forall z, inside L z ->
  is_derive (shape m) z (flow m z / cond L z) /\ is_derive (flow m) z (- rate m * comp L z * shape m z).
(** drained at the top; at the bottom drained (0) or closed (1) *)
Definition drained_top (m : mode) : Prop := shape m 0 = 0.
Definition bottom (L : layer) (drn : Z) (m : mode) : Prop :=
  (drn = 0%Z -> shape m (depth L) = 0) /\ (drn = 1%Z -> flow m (depth L) = 0).
(** integral over the depth, weighted with the compressibility *)
Definition weighted (L : layer) (f : R -> R) (v : R) : Prop := is_RInt (fun z => comp L z * f z) 0 (depth L) v.
(** lam is a rate of decay of the layer: some shape, not zero everywhere, meets all conditions. *)
Definition decay_rate (L : layer) (drn : Z) (lam : R) : Prop := exists m, rate m = lam /\
  mode_equation L m /\ drained_top m /\ bottom L drn m /\ exists z, inside L z /\ shape m z <> 0.
(** sum of the terms with amplitudes a *)
Definition combination (a : list R) (ms : list mode) (z : R) : R :=
  fold_right Rplus 0 (map (fun e => fst e * shape (snd e) z) (combine a ms)).
(** the same after a time t *)
Definition decayed (a : list R) (ms : list mode) (z t : R) : R :=
  fold_right Rplus 0 (map (fun e => fst e * shape (snd e) z * exp (- rate (snd e) * t)) (combine a ms)).
(** Consolidation: comp du/dt = d/dz (cond du/dz). *)
Definition consolidates (L : layer) (u : R -> R -> R) : Prop := exists w, forall z t, inside L z -> exists ut wz,
  is_derive (fun x => u x t) z (w z t / cond L z) /\ is_derive (fun x => w x t) z wz /\ is_derive (u z) t ut /\
  comp L z * ut = wz.
(** grid of values *)
Definition grid_of (u : R -> R -> R) (zs ts : list R) (M : list (list R)) : Prop :=
  length M = length zs /\ forall i, (i < length zs)%nat -> length (nth i M []) = length ts /\
    forall j, (j < length ts)%nat -> nth j (nth i M []) 0 = u (nth i zs 0) (nth j ts 0).
