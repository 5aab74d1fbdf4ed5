(** * Vocabulary: complex matrices, what is expected of numpy.linalg, loads that are gone outside their table *)
From Coq Require Import Reals List Arith.
From Coquelicot Require Import Coquelicot.
From Verif Require Import Base SpecPiecewise SpecLoad SpecGalerkin.
Import ListNotations.
Local Open Scope R_scope.

Definition csum (n : nat) (f : nat -> C) : C := fold_right Cplus (RtoC 0) (map f (seq 0 n)).
Definition ccoef (A : list (list C)) (i j : nat) : C := nth j (nth i A []) (RtoC 0).
Definition csquare (n : nat) (A : list (list C)) : Prop := length A = n /\ forall row, In row A -> length row = n.
(** numpy.linalg.inv of a real and of a complex matrix, when it returns: the inverse from both sides *)
Definition inverts_both (inv : list (list R) -> result (list (list R))) : Prop := forall A N, inv A = Ok N ->
  square (length A) N /\ forall i j, (i < length A)%nat -> (j < length A)%nat ->
    sum (length A) (fun k => coef A i k * coef N k j) = (if Nat.eqb i j then 1 else 0) /\
    sum (length A) (fun k => coef N i k * coef A k j) = (if Nat.eqb i j then 1 else 0).
Definition cinverts (cinv : list (list C) -> result (list (list C))) : Prop := forall A N, cinv A = Ok N ->
  csquare (length A) N /\ forall i j, (i < length A)%nat -> (j < length A)%nat ->
    csum (length A) (fun k => Cmult (ccoef A i k) (ccoef N k j)) = RtoC (if Nat.eqb i j then 1 else 0) /\
    csum (length A) (fun k => Cmult (ccoef N i k) (ccoef A k j)) = RtoC (if Nat.eqb i j then 1 else 0).
(** numpy.linalg.eig of a real matrix: eigenvalues and eigenvectors (columns), in general complex *)
Definition cdiagonalises (eig : list (list R) -> result (list C * list (list C))) : Prop := forall M w V, eig M = Ok (w, V) ->
  csquare (length M) V /\ length w = length M /\ forall i j, (i < length M)%nat -> (j < length M)%nat ->
    csum (length M) (fun k => Cmult (RtoC (coef M i k)) (ccoef V k j)) = Cmult (ccoef V i j) (nth j w (RtoC 0)).
(** the load through the points of a table of times, absent before the first and after the last of them *)
Definition load_within (x y : list R) (f : R -> R) : Prop :=
  load_is x y f /\ forall t, t < at_ x 0 \/ at_ x (length x - 1) < t -> f t = 0.
