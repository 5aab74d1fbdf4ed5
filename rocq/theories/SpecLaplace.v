(** * Vocabulary for the inversion of Laplace transforms along a contour *)
From Coq Require Import Reals Arith.
From Coquelicot Require Import Coquelicot.
Local Open Scope R_scope.

Fixpoint total_C (n : nat) (f : nat -> C) : C := match n with O => RtoC 0 | S k => Cplus (total_C k f) (f k) end.
(** e^z *)
Definition Cexp (z : C) : C := (exp (Re z) * cos (Im z), exp (Re z) * sin (Im z)).
(** Z' is the derivative of the path Z with respect to its parameter *)
Definition is_path (Z Z' : R -> C) (lo hi : R) : Prop := forall x, lo < x < hi -> x <> 0 ->
  is_derive (fun y => Re (Z y)) x (Re (Z' x)) /\ is_derive (fun y => Im (Z y)) x (Im (Z' x)).
(** middle of part k of n equal parts of the interval from lo to hi *)
Definition middle (lo hi : R) (n k : nat) : R := lo + (hi - lo) * (2 * INR k + 1) / (2 * INR n).
(** midpoint rule for 1/(2 pi i) times the integral of e^(Z t) F(Z) dZ *)
Definition midpoint_bromwich (F : C -> C) (t : R) (Z Z' : R -> C) (n : nat) : C :=
  ((total_C n (fun k => let x := middle (- PI) PI n k in Cexp (Z x * RtoC t) * F (Z x) * Z' x * RtoC (2 * PI / INR n))) / (2 * RtoC PI * Ci))%C.
(** transforms of real functions *)
Definition of_real_function (F : C -> C) : Prop := forall s, F (Cconj s) = Cconj (F s).
(** The contour of Trefethen, Weideman and Schmelzer, for m points and time t, moved to the right by shift. *)
Definition talbot_contour (shift : R) (m : nat) (t x : R) : C :=
  (shift + INR m / t * (5017/10000 * x * (cos (6407/10000 * x) / sin (6407/10000 * x)) - 6122/10000), INR m / t * (2645/10000 * x)).
