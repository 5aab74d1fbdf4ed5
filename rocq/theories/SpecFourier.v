(** * Specification: Fourier integrals *)
From Coq Require Import Reals List.
From Coquelicot Require Import Coquelicot.
Local Open Scope R_scope.

Section Limits.
(** integration over a < |x| < b, b a number or +infinity *)
Variable a : R.
Variable b : Rbar.
Definition right (f : R -> R) (v : R) : Prop :=
  match b with Finite b => is_RInt f a b v | p_infty => is_RInt_gen f (at_point a) (Rbar_locally p_infty) v | m_infty => False end.
Definition left (f : R -> R) (v : R) : Prop :=
  match b with Finite b => is_RInt f (- b) (- a) v | p_infty => is_RInt_gen f (Rbar_locally m_infty) (at_point (- a)) v | m_infty => False end.
Definition both (f : R -> R) (v : R) : Prop := exists u w, left f u /\ right f w /\ v = u + w.
(** f(x) e^(-i s x), or f(x) e^(+i s x) / (2 pi) for the inverse *)
Definition wave (x : R) : C := (cos x, sin x).                                       (* e^(i x) *)
Definition fourier_integrand (inv : bool) (fr fi : R -> R) (s x : R) : C :=
  if inv then (/ RtoC (2 * PI) * ((fr x, fi x) * wave (s * x)))%C else ((fr x, fi x) * wave (- (s * x)))%C.
Definition fourier (inv : bool) (fr fi : R -> R) (s : R) (z : C) : Prop :=
  both (fun x => fst (fourier_integrand inv fr fi s x)) (fst z) /\ both (fun x => snd (fourier_integrand inv fr fi s x)) (snd z).
(** the function can be integrated against cos and sin on both sides *)
Definition integrable (f : R -> R) (s : R) : Prop :=
  (exists v, right (fun x => f x * cos (s * x)) v) /\ (exists v, right (fun x => f x * sin (s * x)) v) /\
  (exists v, left (fun x => f x * cos (s * x)) v) /\ (exists v, left (fun x => f x * sin (s * x)) v).
(** quad returns the integral of f(x) k(w x) over (a, b) *)
Definition exact_quad (q : (R -> R) -> R -> R) (k : R -> R) : Prop := forall f w v, right (fun x => f x * k (w * x)) v -> q f w = v.
End Limits.

(** ** Panels *)
From Verif Require Import Base SpecQuadrature.
(** between consecutive points f is within delta of a polynomial of degree below m, whose size is at most M *)
Definition near_pieces (m : nat) (delta M : R) (f : R -> R) (xs : list R) : Prop :=
  forall p, In p (pairs xs) -> exists cs, (length cs <= m)%nat /\ poly_size cs (Rmax (Rabs (fst p)) (Rabs (snd p))) <= M /\
    forall x, fst p <= x <= snd p -> Rabs (f x - poly cs x) <= delta.
(** 0 and the first m zeros of cos (s x) *)
Definition cos_points (m : nat) (s : R) : list R := (0 :: map (fun k => (2 * INR k + 1) * PI / (2 * s)) (seq 0 m))%list.
