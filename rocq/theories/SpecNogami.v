(** * Specification of consolidation of layered soil with a vertical drain *)
From Coq Require Import Reals List Arith ZArith.
From Coquelicot Require Import Coquelicot.
From Verif Require Import Base SpecPiecewise SpecLoad SpecStein.
Import ListNotations.
Local Open Scope R_scope.

(** What is used of the Bessel functions of the first and second kind of orders 0 and 1: derivatives and Wronskian. *)
Record bessel01 (B : nat -> R -> R) : Prop := mkBessel01 {
  b0_der : forall x, 0 < x -> is_derive (B 0%nat) x (- B 1%nat x);
  b1_der : forall x, 0 < x -> is_derive (B 1%nat) x (B 0%nat x - B 1%nat x / x) }.
Definition are_bessel (J Y : nat -> R -> R) : Prop := bessel01 J /\ bessel01 Y /\
  forall x, 0 < x -> J 1%nat x * Y 0%nat x - J 0%nat x * Y 1%nat x = 2 / (PI * x).

(** Layers around a drain of radius r_in, drawing water from out to the radius r_out; lateral: horizontal
    permeability over unit weight of water. *)
Record ground := mkGround { earth : soil; lateral : list R; r_in : R; r_out : R }.
Definition is_ground (g : ground) : Prop := is_soil (earth g) /\ length (lateral g) = layers (earth g) /\ 0 < r_in g < r_out g /\
  forall i, (i < layers (earth g))%nat -> 0 <= at_ (lateral g) i.
(** A term of the series: amplitude, decay, shape and slope with depth (vert), shape and slope with radius. *)
Record rmode := mkRmode { vert : mode; wavenumber : R; around : R -> R; around_slope : R -> R }.
(** U'' + U'/r = - w^2 U;  kv Z'' = - (decay mv - kh w^2) Z in every layer *)
Definition around_equation (m : rmode) : Prop := forall r, 0 < r ->
  is_derive (around m) r (around_slope m r) /\ is_derive (around_slope m) r (- (wavenumber m)^2 * around m r - around_slope m r / r).
Definition vert_equation (g : ground) (m : rmode) : Prop := forall i z, (i < layers (earth g))%nat ->
  is_derive (shape (vert m) i) z (slope (vert m) i z) /\
  is_derive (slope (vert m) i) z
    (- ((decay (vert m) * at_ (comp (earth g)) i - at_ (lateral g) i * (wavenumber m)^2) / at_ (perm (earth g)) i) * shape (vert m) i z).
(** no pressure in the drain; no flow through the outer boundary *)
Definition drained (g : ground) (m : rmode) : Prop := around m (r_in g) = 0.
Definition closed (g : ground) (m : rmode) : Prop := around_slope m (r_out g) = 0.
(** pressure at depth z (in layer i), radius r, time t after a unit load *)
Definition rresponse (ms : list rmode) (i : nat) (r z t : R) : R :=
  total_over ms (fun m => amp (vert m) * around m r * shape (vert m) i z * exp (- decay (vert m) * t)).
(** mv du/dt = kv d2u/dz2 + kh (d2u/dr2 + (du/dr)/r) *)
Definition rconsolidates (g : ground) (u : nat -> R -> R -> R -> R) : Prop := exists uz ur, forall i r z t, (i < layers (earth g))%nat -> 0 < r ->
  exists ut uzz urr,
    is_derive (fun x => u i r x t) z (uz i r z t) /\ is_derive (fun x => uz i r x t) z uzz /\
    is_derive (fun x => u i x z t) r (ur i r z t) /\ is_derive (fun x => ur i x z t) r urr /\
    is_derive (fun x => u i r z x) t ut /\
    at_ (comp (earth g)) i * ut = at_ (perm (earth g)) i * uzz + at_ (lateral g) i * (urr + ur i r z t / r).
(** v is u at the given radius or, if none is given, the average of u over the ground around the drain *)
Definition observed (g : ground) (rcalc : option R) (u : R -> R) (v : R) : Prop :=
  match rcalc with Some r => v = u r | None => is_RInt (fun r => 2 * r * u r) (r_in g) (r_out g) (v * ((r_out g)^2 - (r_in g)^2)) end.
(** integral of mv r f over the ground *)
Definition over_ground (g : ground) (f : nat -> R -> R -> R) (v : R) : Prop := exists w,
  (forall i z, (i < layers (earth g))%nat -> is_RInt (fun r => r * f i r z) (r_in g) (r_out g) (w i z)) /\
  over_depth (earth g) (weight (earth g)) w v.
Definition rcombination (a : list R) (ms : list rmode) (i : nat) (r z : R) : R :=
  total_over (combine a ms) (fun p => fst p * around (snd p) r * shape (vert (snd p)) i z).
(** What every term of the series satisfies. *)
Record rfound (g : ground) (bctop : Z) (m : rmode) : Prop := mkRfound {
  rf_decays : 0 < decay (vert m); rf_wave : 0 < wavenumber m;
  rf_around : around_equation m; rf_vert : vert_equation g m; rf_drained : drained g m;
  rf_top : at_top bctop (vert m); rf_joined : joined (earth g) (vert m);
  rf_moves : exists i z r, (i < layers (earth g))%nat /\ 0 < r /\ shape (vert m) i z * around m r <> 0 }.
(** The amplitude is that of the best approximation of a uniform unit pressure by this term. *)
Definition rproject (g : ground) (m : rmode) : Prop := exists n d,
  over_ground g (fun i r z => around m r * shape (vert m) i z) n /\
  over_ground g (fun i r z => (around m r * shape (vert m) i z)^2) d /\ 0 < d /\ amp (vert m) = n / d.
(** (w, d) is an eigenvalue: some term, not zero everywhere, meets all conditions. *)
Definition reigen (g : ground) (bctop bcbot : Z) (w d : R) : Prop := exists m,
  wavenumber m = w /\ decay (vert m) = d /\ around_equation m /\ vert_equation g m /\ drained g m /\ closed g m /\
  at_top bctop (vert m) /\ joined (earth g) (vert m) /\ at_bottom (earth g) bcbot (vert m) /\
  exists i z r, (i < layers (earth g))%nat /\ 0 < r /\ shape (vert m) i z * around m r <> 0.
