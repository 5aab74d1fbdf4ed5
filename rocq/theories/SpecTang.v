(** * Specification of consolidation by vertical and radial flow to a drain with well resistance *)
From Coq Require Import Reals ZArith.
From Coquelicot Require Import Coquelicot.
From Verif Require Import SpecTerzaghi.
Local Open Scope R_scope.

(** Average pressure u around the drain and pressure w in the drain of permeability kw:
    the soil loses water upwards and, in proportion to u - w, to the drain; in the drain that water flows up. *)
Definition drain_system (kv kh kw mv gamw rw re mu : R) (u w : R -> R -> R) : Prop := forall z t,
  exists (uz wz : R -> R) (ut uzz wzz : R),
    is_derive (u z) t ut /\
    (forall y, is_derive (fun x => u x t) y (uz y)) /\ is_derive uz z uzz /\
    (forall y, is_derive (fun x => w x t) y (wz y)) /\ is_derive wz z wzz /\
    mv * ut = kv / gamw * uzz - 2 * kh / (gamw * re^2 * mu) * (u z t - w z t) /\
    PI * rw^2 * (kw / gamw) * wzz = - (PI * (re^2 - rw^2) * (2 * kh / (gamw * re^2 * mu)) * (u z t - w z t)).
(** Drained at the top; at the bottom drained (0) or closed (1). *)
Definition drain_ends (drn : Z) (H : R) (u : R -> R -> R) : Prop :=
  (forall t, u 0 t = 0) /\ (drn = 0%Z -> forall t, u H t = 0) /\ (drn = 1%Z -> forall t, is_derive (fun x => u x t) H 0).
