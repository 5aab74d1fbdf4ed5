(** * Vocabulary for the spectral integral properties *)
From Coq Require Import Reals List.
From Verif Require Import SpectralModel.
Import ListNotations.
Open Scope R_scope.

(** A stack of layers of positive thickness from z0 down to z1, no gap, no overlap. *)
Inductive stack : R -> R -> list slab -> Prop :=
| stack_nil : forall z, stack z z []
| stack_cons : forall s z1 l, zt s < zb s -> stack (zb s) z1 l -> stack (zt s) z1 (s :: l).

(** The property with the given top/bottom values, linear in every layer, as a function of depth. *)
Definition linear_in (top bot : slab -> R) (slabs : list slab) (a : R -> R) : Prop :=
  forall s z, In s slabs -> zt s < z < zb s ->
    a z = top s + (bot s - top s) * ((z - zt s) / (zb s - zt s)).

(** The property is continuous: the value at the bottom of a layer is the value at the top of the next. *)
Fixpoint joined (slabs : list slab) : Prop :=
  match slabs with
  | s :: ((s' :: _) as r) => ab s = at_ s' /\ joined r
  | _ => True
  end.

(** Matrix / vector entries. *)
Definition entry (A : list (list R)) (i j : nat) : R := nth j (nth i A []) 0.
Definition coord (v : list R) (i : nat) : R := nth i v 0.

(** Eigenvalues: none zero, no two equal up to sign. *)
Definition eigenvalues (m : list R) : Prop :=
  (forall x, In x m -> x <> 0) /\
  (forall i j, (i < length m)%nat -> (j < length m)%nat -> i <> j -> nth i m 0 ^ 2 <> nth j m 0 ^ 2).
