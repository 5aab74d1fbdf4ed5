(** * Vocabulary for the quadrature properties *)
From Coq Require Import Reals List.
From Coquelicot Require Import Coquelicot.
Import ListNotations.
Open Scope R_scope.

(** The polynomial with the given coefficients, constant term first. *)
Fixpoint poly (cs : list R) (x : R) : R := match cs with [] => 0 | c :: r => c + x * poly r x end.
(** The same with absolute values: a bound for the polynomial on [-M, M]. *)
Definition poly_size (cs : list R) (M : R) : R := poly (map Rabs cs) M.
(** c_0, c_1, ... of the sequence L + a q^k. *)
Definition geometric (L a q : R) (len : nat) : list R := map (fun k => L + a * q ^ k) (seq 0 len).
(** Aitken / Shanks transform of three consecutive terms. *)
Definition aitken (a b c : R) : R := (c * a - b * b) / (c - 2 * b + a).
