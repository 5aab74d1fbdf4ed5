(** * Independent vocabulary for the piecewise-linear properties (no model code). *)
From Coq Require Import Reals List Arith Lia Lra.
Import ListNotations.
Open Scope R_scope.

(** Value at index i of a list (only used under [i < length]). *)
Definition at_ (x : list R) (i : nat) : R := nth i x 0.

(** x never decreases. *)
Definition nondecr (x : list R) : Prop :=
  forall i, (S i < length x)%nat -> at_ x i <= at_ x (S i).

(** Segment i of the polyline has positive width and v lies between its ends
    (whichever end is larger). *)
Definition in_segment (x : list R) (v : R) (i : nat) : Prop :=
  (S i < length x)%nat /\ at_ x i <> at_ x (S i) /\
  Rmin (at_ x i) (at_ x (S i)) <= v <= Rmax (at_ x i) (at_ x (S i)).

(** The straight line through vertices i and i+1. *)
Definition chord (x y : list R) (i : nat) (v : R) : R :=
  at_ y i + (v - at_ x i) * (at_ y (S i) - at_ y i) / (at_ x (S i) - at_ x i).

(** [pieces] is a chain of intervals leading from a to b without gap or overlap. *)
Inductive chain : R -> R -> list (R * R) -> Prop :=
| chain_nil : forall a, chain a a []
| chain_cons : forall a b c l, a <= b -> chain b c l -> chain a c ((a, b) :: l).

(** Every element of y is within [m, M]. *)
Definition within (m M : R) (y : list R) : Prop := forall e, In e y -> m <= e <= M.

(** Area of the trapezium under vertices l and l+1. *)
Definition trap (x y : list R) (l : nat) : R :=
  (at_ y l + at_ y (S l)) * / 2 * (at_ x (S l) - at_ x l).

(** The intervals described by the four index lists (both, xi only, xj only, between)
    for the end points vi, vj, from left to right. *)
Definition pieces (x : list R) (vi vj : R) (r : list nat * list nat * list nat * list nat)
  : list (R * R) :=
  let '(both, ionly, jonly, between) := r in
  map (fun _ => (vi, vj)) both ++
  map (fun l => (vi, at_ x (S l))) ionly ++
  map (fun l => (at_ x l, at_ x (S l))) between ++
  map (fun l => (at_ x l, vj)) jonly.

(** A run of segment starts followed by its last end vertex. *)
Definition endpt (p : list nat) : list nat := p ++ [S (last p 0%nat)].
