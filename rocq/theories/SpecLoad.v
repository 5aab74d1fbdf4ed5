(** * Vocabulary for the time-dependent load properties *)
From Coq Require Import Reals List.
From Verif Require Import SpecPiecewise.
Import ListNotations.
Open Scope R_scope.

(** f is the piecewise linear load through the points (values at the points themselves, where the
    load may jump, do not matter for integrals). *)
Definition load_is (x y : list R) (f : R -> R) : Prop :=
  forall k v, (S k < length x)%nat -> at_ x k < v < at_ x (S k) -> f v = chord x y k v.
(** f' is its rate of change between the points. *)
Definition load_rate_is (x y : list R) (f' : R -> R) : Prop :=
  forall k v, (S k < length x)%nat -> at_ x k < v < at_ x (S k) ->
    f' v = (at_ y (S k) - at_ y k) / (at_ x (S k) - at_ x k).
(** No point is listed twice (a jump has two points with the same time, different load). *)
Definition no_doubled_points (x y : list R) : Prop :=
  forall i, (S i < length x)%nat -> ~ (at_ x i = at_ x (S i) /\ at_ y i = at_ y (S i)).
(** End of the loading seen at time t: t, but not before the first nor after the last load time. *)
Definition until (x : list R) (t : R) : R := Rmax (at_ x 0) (Rmin t (at_ x (length x - 1))).
(** Sum over the jumps that have occurred by time t of jump * g(time of jump). *)
Definition sum_jumps (x y : list R) (t : R) (g : R -> R) : R :=
  fold_right Rplus 0 (map (fun k =>
    if Req_EM_T (at_ x k) (at_ x (S k)) then
      (if Rle_dec (at_ x k) t then (at_ y (S k) - at_ y k) * g (at_ x k) else 0) else 0) (seq 0 (length x - 1))).
