From Coq Require Import Reals List Arith Lia Lra Bool Sorted.
From Coquelicot Require Import Coquelicot.
From Verif Require Import Base PiecewiseModel SpecPiecewise SpecPiecewiseApi PiecewiseProofs PiecewiseProofs2 PiecewiseProofs3 PiecewiseProofs4
  LayersProofs LoadGen SpectralModel SpectralProofs SpectralProofs4 LoadModel.
Import ListNotations.
Open Scope R_scope.
Notation at_ := SpecPiecewise.at_.

(** ** One segment *)
(** Antiderivative of (p + q tau) exp(-(dT lam)(t - tau)). *)
Definition HE (p q dT lam t z : R) : R := ((p + q * z) / (dT * lam) - q / (dT * lam) ^ 2) * exp (- dT * lam * (t - z)).
Lemma RInt_HE p q dT lam t a b : dT * lam <> 0 ->
  is_RInt (fun z => (p + q * z) * exp (- dT * lam * (t - z))) a b (HE p q dT lam t b - HE p q dT lam t a).
Proof.
  intros Hc. apply (RInt_by_antiderivative (HE p q dT lam t)); [|cont].
  intros z. unfold HE. auto_derive; auto. unfold one; cbn.
  assert (dT <> 0) by (intros ->; apply Hc; ring). assert (lam <> 0) by (intros ->; apply Hc; ring).
  unfold Rminus. generalize (exp (- dT * lam * (t + - z))). intros e. field. auto.
Qed.

Section Forms.
Variables (y0 y1 x0 x1 dT lam t : R).
Hypothesis Hc : dT * lam <> 0.
Let HdT : dT <> 0. Proof. intros E; apply Hc; rewrite E; ring. Qed.
Let Hlam : lam <> 0. Proof. intros E; apply Hc; rewrite E; ring. Qed.
Ltac ex := rewrite ?Rminus_eq_0, ?Rmult_0_r, ?exp_0;
  repeat match goal with |- context [exp ?x] => let e := fresh "e" in generalize (exp x); intros e end.
Lemma e_tt : exp (- dT * lam * (t - t)) = 1.
Proof. replace (- dT * lam * (t - t)) with 0 by ring. apply exp_0. Qed.
Lemma const_in_s : Eload_scalar_const_in y0 x0 dT lam t = HE y0 0 dT lam t t - HE y0 0 dT lam t x0.
Proof. unfold Eload_scalar_const_in, HE. rewrite e_tt. ex. field. auto. Qed.
Lemma const_in_v : Eload_vectorized_const_in y0 x0 dT lam t = HE y0 0 dT lam t t - HE y0 0 dT lam t x0.
Proof. exact const_in_s. Qed.
Lemma const_less_s : Eload_scalar_const_less y0 x0 x1 dT lam t = HE y0 0 dT lam t x1 - HE y0 0 dT lam t x0.
Proof. unfold Eload_scalar_const_less, HE. ex. field. auto. Qed.
Lemma const_less_v : Eload_vectorized_const_less y0 x0 x1 dT lam t = HE y0 0 dT lam t x1 - HE y0 0 dT lam t x0.
Proof. exact const_less_s. Qed.
Hypothesis Hx : x0 <> x1.
Let Hx' : - dT * lam * x1 + dT * lam * x0 <> 0.
Proof. replace (- dT * lam * x1 + dT * lam * x0) with ((dT * lam) * (x0 - x1)) by ring. apply Rmult_integral_contrapositive_currified; auto; lra. Qed.
Let q := (y1 - y0) / (x1 - x0).
Let p := y0 - q * x0.
Lemma ramp_in_s : Eload_scalar_ramp_in y0 y1 x0 x1 dT lam t = HE p q dT lam t t - HE p q dT lam t x0.
Proof. unfold Eload_scalar_ramp_in, HE, p, q. rewrite e_tt. ex. field. repeat split; auto; lra. Qed.
Lemma ramp_in_v : Eload_vectorized_ramp_in y0 y1 x0 x1 dT lam t = HE p q dT lam t t - HE p q dT lam t x0.
Proof. unfold Eload_vectorized_ramp_in, HE, p, q. rewrite e_tt. ex. field. repeat split; auto; lra. Qed.
Lemma ramp_less_s : Eload_scalar_ramp_less y0 y1 x0 x1 dT lam t = HE p q dT lam t x1 - HE p q dT lam t x0.
Proof. unfold Eload_scalar_ramp_less, HE, p, q. ex. field. repeat split; auto; lra. Qed.
Lemma ramp_less_v : Eload_vectorized_ramp_less y0 y1 x0 x1 dT lam t = HE p q dT lam t x1 - HE p q dT lam t x0.
Proof. unfold Eload_vectorized_ramp_less, HE, p, q. ex. field. repeat split; auto; lra. Qed.
Lemma Dramp_in_s : EDload_scalar_ramp_in y0 y1 x0 x1 dT lam t = HE q 0 dT lam t t - HE q 0 dT lam t x0.
Proof. unfold EDload_scalar_ramp_in, HE, p, q. rewrite e_tt. ex. field. repeat split; auto; lra. Qed.
Lemma Dramp_in_v : EDload_vectorized_ramp_in y0 y1 x0 x1 dT lam t = HE q 0 dT lam t t - HE q 0 dT lam t x0.
Proof. exact Dramp_in_s. Qed.
Lemma Dramp_less_s : EDload_scalar_ramp_less y0 y1 x0 x1 dT lam t = HE q 0 dT lam t x1 - HE q 0 dT lam t x0.
Proof. unfold EDload_scalar_ramp_less, HE, p, q. ex. field. repeat split; auto; lra. Qed.
Lemma Dramp_less_v : EDload_vectorized_ramp_less y0 y1 x0 x1 dT lam t = HE q 0 dT lam t x1 - HE q 0 dT lam t x0.
Proof. exact Dramp_less_s. Qed.
End Forms.
