(** One load segment: the closed forms of LoadTrigGen are differences of antiderivatives. *)
From Coq Require Import Reals List Arith Lia Lra Bool.
From Coquelicot Require Import Coquelicot.
From Verif Require Import Base LoadTrigGen SpectralProofs SpectralProofs4.
Open Scope R_scope.

Definition HC (p q om ph dT lam t z : R) : R :=
  let a := dT * lam in let c := cos (om * z + ph) in let s := sin (om * z + ph) in
  ((p + q * z) * (a * c + om * s) / (a ^ 2 + om ^ 2) - q * ((a ^ 2 - om ^ 2) * c + 2 * a * om * s) / (a ^ 2 + om ^ 2) ^ 2)
  * exp (- dT * lam * (t - z)).
Definition HS (p q om ph dT lam t z : R) : R :=
  let a := dT * lam in let c := cos (om * z + ph) in let s := sin (om * z + ph) in
  ((p + q * z) * (a * s - om * c) / (a ^ 2 + om ^ 2) - q * ((a ^ 2 - om ^ 2) * s - 2 * a * om * c) / (a ^ 2 + om ^ 2) ^ 2)
  * exp (- dT * lam * (t - z)).
Definition HCD (p q om ph dT lam t z : R) : R := HC q 0 om ph dT lam t z - om * HS p q om ph dT lam t z.

Lemma den_pos a om : a <> 0 -> a ^ 2 + om ^ 2 <> 0.
Proof. intros Ha. pose proof (pow2_ge_0 om). assert (0 < a ^ 2) by (apply pow2_gt_0; auto). lra. Qed.

Lemma RInt_HC p q om ph dT lam t a b : dT * lam <> 0 ->
  is_RInt (fun z => (p + q * z) * cos (om * z + ph) * exp (- dT * lam * (t - z))) a b (HC p q om ph dT lam t b - HC p q om ph dT lam t a).
Proof.
  intros Hc. apply (RInt_by_antiderivative (HC p q om ph dT lam t)); [|cont].
  pose proof (den_pos _ om Hc) as Hd.
  intros z. unfold HC. cbv zeta. auto_derive; auto. unfold one; cbn. unfold Rminus.
  generalize (exp (- dT * lam * (t + - z))) (cos (om * z + ph)) (sin (om * z + ph)). intros e c s.
  field. cbn [pow] in Hd. rewrite !Rmult_1_r in Hd. intros E. apply Hd. rewrite <- E. ring.
Qed.
Lemma RInt_HS p q om ph dT lam t a b : dT * lam <> 0 ->
  is_RInt (fun z => (p + q * z) * sin (om * z + ph) * exp (- dT * lam * (t - z))) a b (HS p q om ph dT lam t b - HS p q om ph dT lam t a).
Proof.
  intros Hc. apply (RInt_by_antiderivative (HS p q om ph dT lam t)); [|cont].
  pose proof (den_pos _ om Hc) as Hd.
  intros z. unfold HS. cbv zeta. auto_derive; auto. unfold one; cbn. unfold Rminus.
  generalize (exp (- dT * lam * (t + - z))) (cos (om * z + ph)) (sin (om * z + ph)). intros e c s.
  field. cbn [pow] in Hd. rewrite !Rmult_1_r in Hd. intros E. apply Hd. rewrite <- E. ring.
Qed.
Lemma RInt_HCD p q om ph dT lam t a b : dT * lam <> 0 ->
  is_RInt (fun z => (q * cos (om * z + ph) - om * (p + q * z) * sin (om * z + ph)) * exp (- dT * lam * (t - z))) a b
    (HCD p q om ph dT lam t b - HCD p q om ph dT lam t a).
Proof.
  intros Hc. unfold HCD.
  replace (HC q 0 om ph dT lam t b - om * HS p q om ph dT lam t b - (HC q 0 om ph dT lam t a - om * HS p q om ph dT lam t a))
    with (minus (HC q 0 om ph dT lam t b - HC q 0 om ph dT lam t a) (scal om (HS p q om ph dT lam t b - HS p q om ph dT lam t a)))
    by (unfold minus, plus, opp, scal, mult; cbn; unfold mult; cbn; ring).
  eapply is_RInt_ext; [|apply (is_RInt_minus (V := R_NormedModule)); [apply (RInt_HC q 0 om ph dT lam t a b Hc)|
     apply (is_RInt_scal (V := R_NormedModule)), (RInt_HS p q om ph dT lam t a b Hc)]].
  intros z _. unfold minus, plus, opp, scal, mult; cbn; unfold mult; cbn. ring.
Qed.

Section Forms.
Variables (y0 y1 x0 x1 om ph dT lam t : R).
Hypothesis Hc : dT * lam <> 0.
Let HdT : dT <> 0. Proof. intros E; apply Hc; rewrite E; ring. Qed.
Let Hlam : lam <> 0. Proof. intros E; apply Hc; rewrite E; ring. Qed.
Lemma e_tt : exp (- dT * lam * (t - t)) = 1.
Proof. replace (- dT * lam * (t - t)) with 0 by ring. apply exp_0. Qed.
Ltac args := repeat match goal with
  | |- context [om * t - om * (t - ?x) + ph] => replace (om * t - om * (t - x) + ph) with (om * x + ph) by ring end.
Ltac ex := rewrite ?e_tt; args;
  repeat match goal with |- context [exp ?x] => let e := fresh "e" in generalize (exp x); intros e
   | |- context [cos ?x] => let e := fresh "c" in generalize (cos x); intros e
   | |- context [sin ?x] => let e := fresh "s" in generalize (sin x); intros e end.
Let Hd : (dT * lam) ^ 2 + om ^ 2 <> 0. Proof. apply den_pos; auto. Qed.
Let Hd1 : dT ^ 2 * lam ^ 2 + om ^ 2 <> 0. Proof. rewrite <- Rpow_mult_distr. auto. Qed.
Ltac side := repeat split; auto; try lra; cbn [pow] in *; rewrite ?Rmult_1_r in *; try (intros E; first [apply Hd1 | apply Hd]; rewrite <- E; ring).
Hypothesis Hx : x0 <> x1.
Let q := (y1 - y0) / (x1 - x0).
Let p := y0 - q * x0.
Let Dinv := - (dT * lam) ^ 3 / ((x1 - x0) * ((dT * lam) ^ 2 + om ^ 2) ^ 2).
Lemma D_eq : / (- dT * lam * x1 + dT * lam * x0 - 2 * om ^ 2 * x1 / (dT * lam) + 2 * om ^ 2 * x0 / (dT * lam) - om ^ 4 * x1 / (dT ^ 3 * lam ^ 3) + om ^ 4 * x0 / (dT ^ 3 * lam ^ 3)) ^ 1 = Dinv.
Proof.
  replace ((- dT * lam * x1 + dT * lam * x0 - 2 * om ^ 2 * x1 / (dT * lam) + 2 * om ^ 2 * x0 / (dT * lam) - om ^ 4 * x1 / (dT ^ 3 * lam ^ 3) + om ^ 4 * x0 / (dT ^ 3 * lam ^ 3)) ^ 1)
   with (/ Dinv). apply Rinv_inv.
  unfold Dinv. field. side.
Qed.
Lemma Ecos_scalar_const_in_eq : Ecos_scalar_const_in y0 y1 x0 x1 om ph dT lam t = HC y0 0 om ph dT lam t t - HC y0 0 om ph dT lam t x0.
Proof. unfold Ecos_scalar_const_in, HCD, HC, HS. cbv zeta. ex. field. side. Qed.
Lemma Ecos_scalar_const_less_eq : Ecos_scalar_const_less y0 y1 x0 x1 om ph dT lam t = HC y0 0 om ph dT lam t x1 - HC y0 0 om ph dT lam t x0.
Proof. unfold Ecos_scalar_const_less, HCD, HC, HS. cbv zeta. ex. field. side. Qed.
Lemma Ecos_scalar_ramp_in_eq : Ecos_scalar_ramp_in y0 y1 x0 x1 om ph dT lam t = HC p q om ph dT lam t t - HC p q om ph dT lam t x0.
Proof. unfold Ecos_scalar_ramp_in, HCD, HC, HS. cbv zeta. rewrite D_eq. ex. unfold Dinv, p, q. field. side. Qed.
Lemma Ecos_scalar_ramp_less_eq : Ecos_scalar_ramp_less y0 y1 x0 x1 om ph dT lam t = HC p q om ph dT lam t x1 - HC p q om ph dT lam t x0.
Proof. unfold Ecos_scalar_ramp_less, HCD, HC, HS. cbv zeta. rewrite D_eq. ex. unfold Dinv, p, q. field. side. Qed.
Lemma Ecos_vectorized_const_in_eq : Ecos_vectorized_const_in y0 y1 x0 x1 om ph dT lam t = HC y0 0 om ph dT lam t t - HC y0 0 om ph dT lam t x0.
Proof. unfold Ecos_vectorized_const_in, HCD, HC, HS. cbv zeta. ex. field. side. Qed.
Lemma Ecos_vectorized_const_less_eq : Ecos_vectorized_const_less y0 y1 x0 x1 om ph dT lam t = HC y0 0 om ph dT lam t x1 - HC y0 0 om ph dT lam t x0.
Proof. unfold Ecos_vectorized_const_less, HCD, HC, HS. cbv zeta. ex. field. side. Qed.
Lemma Ecos_vectorized_ramp_in_eq : Ecos_vectorized_ramp_in y0 y1 x0 x1 om ph dT lam t = HC p q om ph dT lam t t - HC p q om ph dT lam t x0.
Proof. unfold Ecos_vectorized_ramp_in, HCD, HC, HS. cbv zeta. rewrite D_eq. ex. unfold Dinv, p, q. field. side. Qed.
Lemma Ecos_vectorized_ramp_less_eq : Ecos_vectorized_ramp_less y0 y1 x0 x1 om ph dT lam t = HC p q om ph dT lam t x1 - HC p q om ph dT lam t x0.
Proof. unfold Ecos_vectorized_ramp_less, HCD, HC, HS. cbv zeta. rewrite D_eq. ex. unfold Dinv, p, q. field. side. Qed.
Lemma Esin_scalar_const_in_eq : Esin_scalar_const_in y0 y1 x0 x1 om ph dT lam t = HS y0 0 om ph dT lam t t - HS y0 0 om ph dT lam t x0.
Proof. unfold Esin_scalar_const_in, HCD, HC, HS. cbv zeta. ex. field. side. Qed.
Lemma Esin_scalar_const_less_eq : Esin_scalar_const_less y0 y1 x0 x1 om ph dT lam t = HS y0 0 om ph dT lam t x1 - HS y0 0 om ph dT lam t x0.
Proof. unfold Esin_scalar_const_less, HCD, HC, HS. cbv zeta. ex. field. side. Qed.
Lemma Esin_scalar_ramp_in_eq : Esin_scalar_ramp_in y0 y1 x0 x1 om ph dT lam t = HS p q om ph dT lam t t - HS p q om ph dT lam t x0.
Proof. unfold Esin_scalar_ramp_in, HCD, HC, HS. cbv zeta. rewrite D_eq. ex. unfold Dinv, p, q. field. side. Qed.
Lemma Esin_scalar_ramp_less_eq : Esin_scalar_ramp_less y0 y1 x0 x1 om ph dT lam t = HS p q om ph dT lam t x1 - HS p q om ph dT lam t x0.
Proof. unfold Esin_scalar_ramp_less, HCD, HC, HS. cbv zeta. rewrite D_eq. ex. unfold Dinv, p, q. field. side. Qed.
Lemma Esin_vectorized_const_in_eq : Esin_vectorized_const_in y0 y1 x0 x1 om ph dT lam t = HS y0 0 om ph dT lam t t - HS y0 0 om ph dT lam t x0.
Proof. unfold Esin_vectorized_const_in, HCD, HC, HS. cbv zeta. ex. field. side. Qed.
Lemma Esin_vectorized_const_less_eq : Esin_vectorized_const_less y0 y1 x0 x1 om ph dT lam t = HS y0 0 om ph dT lam t x1 - HS y0 0 om ph dT lam t x0.
Proof. unfold Esin_vectorized_const_less, HCD, HC, HS. cbv zeta. ex. field. side. Qed.
Lemma Esin_vectorized_ramp_in_eq : Esin_vectorized_ramp_in y0 y1 x0 x1 om ph dT lam t = HS p q om ph dT lam t t - HS p q om ph dT lam t x0.
Proof. unfold Esin_vectorized_ramp_in, HCD, HC, HS. cbv zeta. rewrite D_eq. ex. unfold Dinv, p, q. field. side. Qed.
Lemma Esin_vectorized_ramp_less_eq : Esin_vectorized_ramp_less y0 y1 x0 x1 om ph dT lam t = HS p q om ph dT lam t x1 - HS p q om ph dT lam t x0.
Proof. unfold Esin_vectorized_ramp_less, HCD, HC, HS. cbv zeta. rewrite D_eq. ex. unfold Dinv, p, q. field. side. Qed.
Lemma EDcos_scalar_const_in_eq : EDcos_scalar_const_in y0 y1 x0 x1 om ph dT lam t = HCD y0 0 om ph dT lam t t - HCD y0 0 om ph dT lam t x0.
Proof. unfold EDcos_scalar_const_in, HCD, HC, HS. cbv zeta. ex. field. side. Qed.
Lemma EDcos_scalar_const_less_eq : EDcos_scalar_const_less y0 y1 x0 x1 om ph dT lam t = HCD y0 0 om ph dT lam t x1 - HCD y0 0 om ph dT lam t x0.
Proof. unfold EDcos_scalar_const_less, HCD, HC, HS. cbv zeta. ex. field. side. Qed.
Lemma EDcos_scalar_ramp_in_eq : EDcos_scalar_ramp_in y0 y1 x0 x1 om ph dT lam t = HCD p q om ph dT lam t t - HCD p q om ph dT lam t x0.
Proof. unfold EDcos_scalar_ramp_in, HCD, HC, HS. cbv zeta. rewrite D_eq. ex. unfold Dinv, p, q. field. side. Qed.
Lemma EDcos_scalar_ramp_less_eq : EDcos_scalar_ramp_less y0 y1 x0 x1 om ph dT lam t = HCD p q om ph dT lam t x1 - HCD p q om ph dT lam t x0.
Proof. unfold EDcos_scalar_ramp_less, HCD, HC, HS. cbv zeta. rewrite D_eq. ex. unfold Dinv, p, q. field. side. Qed.
Lemma EDcos_vectorized_const_in_eq : EDcos_vectorized_const_in y0 y1 x0 x1 om ph dT lam t = HCD y0 0 om ph dT lam t t - HCD y0 0 om ph dT lam t x0.
Proof. unfold EDcos_vectorized_const_in, HCD, HC, HS. cbv zeta. ex. field. side. Qed.
Lemma EDcos_vectorized_const_less_eq : EDcos_vectorized_const_less y0 y1 x0 x1 om ph dT lam t = HCD y0 0 om ph dT lam t x1 - HCD y0 0 om ph dT lam t x0.
Proof. unfold EDcos_vectorized_const_less, HCD, HC, HS. cbv zeta. ex. field. side. Qed.
Lemma EDcos_vectorized_ramp_in_eq : EDcos_vectorized_ramp_in y0 y1 x0 x1 om ph dT lam t = HCD p q om ph dT lam t t - HCD p q om ph dT lam t x0.
Proof. unfold EDcos_vectorized_ramp_in, HCD, HC, HS. cbv zeta. rewrite D_eq. ex. unfold Dinv, p, q. field. side. Qed.
Lemma EDcos_vectorized_ramp_less_eq : EDcos_vectorized_ramp_less y0 y1 x0 x1 om ph dT lam t = HCD p q om ph dT lam t x1 - HCD p q om ph dT lam t x0.
Proof. unfold EDcos_vectorized_ramp_less, HCD, HC, HS. cbv zeta. rewrite D_eq. ex. unfold Dinv, p, q. field. side. Qed.
End Forms.
