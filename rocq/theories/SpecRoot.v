(** * Vocabulary for the root finding properties *)
From Coq Require Import Reals List Lra.
Import ListNotations.
Open Scope R_scope.

(** A search interval: func does not have the same strict sign at both ends, guess lies in it. *)
Record interval := mkI { left : R; right : R; guess : R }.
Definition changes_sign (f : R -> R) (i : interval) : Prop :=
  left i < right i /\ f (left i) * f (right i) <= 0 /\ left i <= guess i <= right i.

(** Where the search for the next root starts: at the end of the interval if the root is numerically
    there, otherwise a tenth of the way from the root to the end. *)
Definition next_start (atol rtol : R) (i : interval) (r s : R) : Prop :=
  (Rabs (r - right i) <= atol + rtol * Rabs (right i) /\ s = right i) \/
  (atol + rtol * Rabs (right i) < Rabs (r - right i) /\ s = r + (right i - r) * (1/10)).

(** From a up to b the function was looked at in steps w with W w, and never changed sign in a step. *)
Definition stepped_over (f : R -> R) (W : R -> Prop) (a b : R) : Prop :=
  forall z, a <= z < b -> exists u v, a <= u <= z /\ z < v <= b /\ W (v - u) /\ 0 < f u * f v.
(** The roots rs are the solver's answers for successive intervals in which func changes sign, each to
    the right of the previous starting point, with no change of sign seen in between; the intervals
    and the steps in between have widths w with W w. *)
Inductive searched (f solver : R -> R) (atol rtol : R) (W : R -> Prop) : R -> list interval -> list R -> Prop :=
| searched_nil : forall start, searched f solver atol rtol W start [] []
| searched_cons : forall start i s is rs, start < left i -> stepped_over f W start (left i) -> changes_sign f i -> W (right i - left i) ->
    next_start atol rtol i (solver (guess i)) s -> searched f solver atol rtol W s is rs ->
    searched f solver atol rtol W start (i :: is) (solver (guess i) :: rs).

(** Strictly increasing, all above start. *)
Inductive increasing_from : R -> list R -> Prop :=
| inc_nil : forall s, increasing_from s []
| inc_cons : forall s r l, s < r -> increasing_from r l -> increasing_from s (r :: l).

Fixpoint iterate (f : R -> R) (k : nat) (x : R) : R := match k with O => x | S k => f (iterate f k x) end.
(** relative change, taken as the new value when the old one is zero *)
Definition rel_change (old new d : R) : Prop :=
  (old = 0 /\ d = new) \/ (old <> 0 /\ d = (new - old) / old).
