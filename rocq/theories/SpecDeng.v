(** * Specification of consolidation by a vertical drain whose discharge capacity varies (independent of the code) *)
From Coq Require Import Reals.
From Coquelicot Require Import Coquelicot.
Local Open Scope R_scope.

(** Discharge capacity of the drain at depth z and time t: its area times its permeability kw0 (A1 - A2 z/H) exp(-A3 t) *)
Definition capacity (rw kw0 A1 A2 A3 H z t : R) : R := PI * rw^2 * (kw0 * (A1 - A2 * z / H) * exp (- A3 * t)).

(** The average pressure at depth z decays at the rate 2 ch / (re^2 mu), from ui; the resistance mu at depth z is that of
    the soil around the drain, mu0, and that of the drain between the top and z, through which the water of all the soil below flows. *)
Definition decays (ch re ui : R) (mu u : R -> R) : Prop :=
  u 0 = ui /\ forall t, is_derive u t (- (2 * ch / (re^2 * mu t)) * u t).
Definition drain_resistance (kh H : R) (qw : R -> R) (z mu0 mu : R) : Prop :=
  is_RInt (fun s => 2 * PI * kh * (H - s) / qw s) 0 z (mu - mu0).

(** Average pressure u around the drain and pressure w in the drain, with discharge capacity qw(t):
    the soil consolidates at a rate proportional to u - w; the water it gives flows up in the drain, which is open at the
    top and closed at the bottom. *)
Record soil_and_drain (ch mv gamw rw re H mu0 : R) (qw : R -> R) (u w : R -> R -> R) : Prop := {
  sd_system : forall z t, exists (ut : R) (wz : R -> R) (wzz : R),
    is_derive (u z) t ut /\ ut = - (2 * ch / (re^2 * mu0)) * (u z t - w z t) /\
    (forall y, is_derive (fun x => w x t) y (wz y)) /\ is_derive wz z wzz /\
    qw t / gamw * wzz = PI * (re^2 - rw^2) * mv * ut;
  sd_top : forall t, w 0 t = 0;
  sd_bottom : forall t, is_derive (fun x => w x t) H 0
}.
