(** * Specification of one-dimensional consolidation (independent of the code). *)
From Coq Require Import Reals.
From Coquelicot Require Import Coquelicot.
Local Open Scope R_scope.

(** [u z t] is a pore pressure in a layer 0 <= z <= H (z downwards), drained at the top
    and sealed at the bottom, with coefficient of consolidation cv:
    du/dt = cv d2u/dz2, u = 0 at z = 0, du/dz = 0 at z = H. *)
Record consolidates (cv H : R) (u : R -> R -> R) : Prop := {
  co_pde : forall z t, exists (uz : R -> R) (uzz : R),
     (forall y, is_derive (fun y => u y t) y (uz y)) /\
     is_derive uz z uzz /\
     is_derive (fun s => u z s) t (cv * uzz);
  co_top : forall t, u 0 t = 0;
  co_bottom : forall t, is_derive (fun y => u y t) H 0
}.
