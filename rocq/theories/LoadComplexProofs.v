(** One load segment: the closed forms of LoadComplexGen are differences of antiderivatives. *)
From Coq Require Import Reals List Arith Lia Lra Bool.
From Coquelicot Require Import Coquelicot.
From Verif Require Import Base BeamModel LoadComplexGen SpecComplex ComplexCalc SpectralProofs.
Local Open Scope R_scope.

(** decay from z to t: exp(-dT lam (t - z)) *)
Definition dec (dT : R) (lam : C) (t z : R) : C := cexp (Cmult (Cmult (RtoC (- dT)) lam) (RtoC (t - z))).
Definition KS (p q om ph dT : R) (lam : C) (t z : R) : C :=
  let a := Cmult (RtoC dT) lam in let c := RtoC (cos (om * z + ph)) in let s := RtoC (sin (om * z + ph)) in
  let D := Cplus (Cmult a a) (RtoC (om * om)) in
  Cmult (RtoC (p + q * z) * (a * s - RtoC om * c) / D - RtoC q * ((a * a - RtoC (om * om)) * s - RtoC 2 * a * RtoC om * c) / (D * D))%C (dec dT lam t z).
Definition KL (p q dT : R) (lam : C) (t z : R) : C :=
  let a := Cmult (RtoC dT) lam in Cmult (RtoC (p + q * z) / a - RtoC q / (a * a))%C (dec dT lam t z).

Ltac pushC := repeat (rewrite RtoC_mult || rewrite RtoC_plus || rewrite RtoC_minus || rewrite RtoC_opp).
Lemma dec_derive dT lam t z : is_Cderive (dec dT lam t) z (Cmult (Cmult (RtoC dT) lam) (dec dT lam t z)).
Proof.
  apply (Cderive_ext (fun s => cexp (Cmult (Cmult (RtoC dT) lam) (RtoC (s - t))))).
  - intros s. unfold dec. f_equal. apply C_eq; cbn; ring.
  - replace (dec dT lam t z) with (cexp (Cmult (Cmult (RtoC dT) lam) (RtoC (z - t)))) by (unfold dec; f_equal; apply C_eq; cbn; ring).
    apply Cderive_exp.
Qed.
Lemma dec_same dT lam t : dec dT lam t t = RtoC 1.
Proof. unfold dec. replace (t - t) with 0 by ring. rewrite Cmult_0_r. apply cexp_0. Qed.
Lemma dec_cont dT lam t (g : R -> R) : (forall z, ex_derive g z) ->
  (forall z, continuous (fun s => fst (Cmult (RtoC (g s)) (dec dT lam t s))) z) /\ (forall z, continuous (fun s => snd (Cmult (RtoC (g s)) (dec dT lam t s))) z).
Proof.
  intros Hg. assert (HC : forall z, exists d, is_Cderive (fun s => Cmult (RtoC (g s)) (dec dT lam t s)) z d).
  { intros z. destruct (Hg z) as [d Hd]. eexists. apply Cderive_mult; [apply Cderive_R; exact Hd|apply dec_derive]. }
  split; intros z; destruct (HC z) as [d [A B]]; apply (ex_derive_continuous (V := R_NormedModule)); eexists; eauto.
Qed.
Lemma CInt_KS p q om ph dT lam t a b : Cplus (Cmult (Cmult (RtoC dT) lam) (Cmult (RtoC dT) lam)) (RtoC (om * om)) <> RtoC 0 ->
  is_CInt (fun z => Cmult (RtoC ((p + q * z) * sin (om * z + ph))) (dec dT lam t z)) a b (Cminus (KS p q om ph dT lam t b) (KS p q om ph dT lam t a)).
Proof.
  intros HD. destruct (dec_cont dT lam t (fun z => (p + q * z) * sin (om * z + ph))) as [C1 C2]; [intros z; auto_derive; auto|].
  apply (CInt_by_antiderivative (KS p q om ph dT lam t)); auto.
  intros z. unfold KS. cbv zeta. set (al := Cmult (RtoC dT) lam) in *. set (D := Cplus (Cmult al al) (RtoC (om * om))) in *.
  eapply (eq_rect _ (fun d => is_Cderive _ z d)).
  { apply Cderive_mult; [|apply dec_derive].
    apply Cderive_minus; unfold Cdiv; apply Cderive_mult; [|apply Cderive_const| |apply Cderive_const].
    - apply Cderive_mult; [apply Cderive_R; auto_derive; [auto|reflexivity]|].
      apply Cderive_minus; (apply Cderive_mult; [apply Cderive_const|apply Cderive_R; auto_derive; [auto|reflexivity]]).
    - apply Cderive_mult; [apply Cderive_const|].
      apply Cderive_minus; (apply Cderive_mult; [apply Cderive_const|apply Cderive_R; auto_derive; [auto|reflexivity]]). }
  fold al. cbv beta. generalize (dec dT lam t z). intros e.
  generalize (cos (om * z + ph)) (sin (om * z + ph)). intros c s. unfold one; cbn.
  unfold D in *. clear D C1 C2. clearbody al. rewrite ?RtoC_mult in HD. pushC.
  replace (RtoC 2) with (Cplus (RtoC 1) (RtoC 1)) by (apply C_eq; cbn; ring).
  field. exact HD.
Qed.
Lemma CInt_KL p q dT lam t a b : Cmult (RtoC dT) lam <> RtoC 0 ->
  is_CInt (fun z => Cmult (RtoC (p + q * z)) (dec dT lam t z)) a b (Cminus (KL p q dT lam t b) (KL p q dT lam t a)).
Proof.
  intros HD. destruct (dec_cont dT lam t (fun z => p + q * z)) as [C1 C2]; [intros z; auto_derive; auto|].
  apply (CInt_by_antiderivative (KL p q dT lam t)); auto.
  intros z. unfold KL. cbv zeta. set (al := Cmult (RtoC dT) lam) in *.
  eapply (eq_rect _ (fun d => is_Cderive _ z d)).
  { apply Cderive_mult; [|apply dec_derive].
    apply Cderive_minus; [|apply Cderive_const]. unfold Cdiv; apply Cderive_mult; [|apply Cderive_const].
    apply Cderive_R; auto_derive; [auto|reflexivity]. }
  fold al. cbv beta. generalize (dec dT lam t z). intros e. unfold one; cbn.
  clear C1 C2. clearbody al. pushC.
  field. exact HD.
Qed.

Section Forms.
Variables (y0 y1 x0 x1 om ph dT t : R) (lam : C).
Hypothesis Hc : Cmult (RtoC dT) lam <> RtoC 0.
Let a := Cmult (RtoC dT) lam.
Let HdT : RtoC dT <> RtoC 0. Proof. intros E; apply Hc; rewrite E; ring. Qed.
Let Hlam : lam <> RtoC 0. Proof. intros E; apply Hc; rewrite E; ring. Qed.
Hypothesis Hx : x0 <> x1.
Let Hx' : Cminus (RtoC x1) (RtoC x0) <> RtoC 0.
Proof. rewrite <- RtoC_minus. intros E. apply Hx. injection E. lra. Qed.
Let q := (y1 - y0) / (x1 - x0).
Let p := y0 - q * x0.
Let Hq : RtoC q = Cdiv (Cminus (RtoC y1) (RtoC y0)) (Cminus (RtoC x1) (RtoC x0)).
Proof. unfold q. rewrite RtoC_div by lra. rewrite !RtoC_minus. reflexivity. Qed.
Lemma norm_e u z : cexp (Cmult (Cmult (RtoC (- dT)) lam) (RtoC (u - z))) = dec dT lam u z.
Proof. reflexivity. Qed.
Ltac args := repeat match goal with
  | |- context [om * t - om * (t - ?x) + ph] => replace (om * t - om * (t - x) + ph) with (om * x + ph) by ring end.
Ltac ex := rewrite ?norm_e, ?dec_same; args;
  repeat match goal with |- context [dec ?a ?b ?c ?d] => let e := fresh "e" in generalize (dec a b c d); intros e
   | |- context [cos ?x] => let e := fresh "c" in generalize (cos x); intros e
   | |- context [sin ?x] => let e := fresh "s" in generalize (sin x); intros e end.
Ltac push := unfold p; pushC; rewrite ?Hq.
Lemma Cinv_opp u : u <> RtoC 0 -> (/ (- u))%C = (- / u)%C.
Proof. intros H. field. split; auto. intros E. apply H. replace u with (- (- u))%C by ring. rewrite E. apply C_eq; cbn; ring. Qed.
Lemma inv_den : (/ (RtoC (- dT) * lam * RtoC x1 + RtoC dT * lam * RtoC x0))%C = (- / (a * (RtoC x1 - RtoC x0)))%C.
Proof. rewrite <- Cinv_opp by (apply Cmult_neq_0; auto). f_equal. rewrite RtoC_opp. unfold a. ring. Qed.
Ltac fin := unfold a in *; repeat (match goal with |- _ /\ _ => split end); auto; try (intros E; apply Hx'; rewrite <- E; ring).
Lemma CElin_scalar_const_in_eq : CElin_scalar_const_in y0 y1 x0 x1 om ph dT t lam = Cminus (KL y0 0 dT lam t t) (KL y0 0 dT lam t x0).
Proof. unfold CElin_scalar_const_in, KL. cbv zeta. ex. push. unfold a. field. fin. Qed.
Lemma CElin_scalar_const_less_eq : CElin_scalar_const_less y0 y1 x0 x1 om ph dT t lam = Cminus (KL y0 0 dT lam t x1) (KL y0 0 dT lam t x0).
Proof. unfold CElin_scalar_const_less, KL. cbv zeta. ex. push. unfold a. field. fin. Qed.
Lemma CElin_scalar_ramp_in_eq : CElin_scalar_ramp_in y0 y1 x0 x1 om ph dT t lam = Cminus (KL p q dT lam t t) (KL p q dT lam t x0).
Proof. unfold CElin_scalar_ramp_in, KL. cbv zeta. rewrite inv_den. ex. push. unfold a. field. fin. Qed.
Lemma CElin_scalar_ramp_less_eq : CElin_scalar_ramp_less y0 y1 x0 x1 om ph dT t lam = Cminus (KL p q dT lam t x1) (KL p q dT lam t x0).
Proof. unfold CElin_scalar_ramp_less, KL. cbv zeta. rewrite inv_den. ex. push. unfold a. field. fin. Qed.
Lemma CElin_vectorized_const_in_eq : CElin_vectorized_const_in y0 y1 x0 x1 om ph dT t lam = Cminus (KL y0 0 dT lam t t) (KL y0 0 dT lam t x0).
Proof. unfold CElin_vectorized_const_in, KL. cbv zeta. ex. push. unfold a. field. fin. Qed.
Lemma CElin_vectorized_const_less_eq : CElin_vectorized_const_less y0 y1 x0 x1 om ph dT t lam = Cminus (KL y0 0 dT lam t x1) (KL y0 0 dT lam t x0).
Proof. unfold CElin_vectorized_const_less, KL. cbv zeta. ex. push. unfold a. field. fin. Qed.
Lemma CElin_vectorized_ramp_in_eq : CElin_vectorized_ramp_in y0 y1 x0 x1 om ph dT t lam = Cminus (KL p q dT lam t t) (KL p q dT lam t x0).
Proof. unfold CElin_vectorized_ramp_in, KL. cbv zeta. rewrite inv_den. ex. push. unfold a. field. fin. Qed.
Lemma CElin_vectorized_ramp_less_eq : CElin_vectorized_ramp_less y0 y1 x0 x1 om ph dT t lam = Cminus (KL p q dT lam t x1) (KL p q dT lam t x0).
Proof. unfold CElin_vectorized_ramp_less, KL. cbv zeta. rewrite inv_den. ex. push. unfold a. field. fin. Qed.

Hypothesis HD : Cplus (Cmult (Cmult (RtoC dT) lam) (Cmult (RtoC dT) lam)) (RtoC (om * om)) <> RtoC 0.
Let HD' : (RtoC dT * lam * (RtoC dT * lam) + RtoC om * RtoC om)%C <> RtoC 0. Proof. rewrite <- RtoC_mult. exact HD. Qed.
Let Dinv := (- ((RtoC dT * lam) * (RtoC dT * lam) * (RtoC dT * lam)) / ((RtoC x1 - RtoC x0) * ((RtoC dT * lam * (RtoC dT * lam) + RtoC om * RtoC om) * (RtoC dT * lam * (RtoC dT * lam) + RtoC om * RtoC om))))%C.
Lemma R2 : RtoC 2 = Cplus (RtoC 1) (RtoC 1). Proof. apply C_eq; cbn; ring. Qed.
Ltac fin2 := repeat (match goal with |- _ /\ _ => split end); auto; try (intros E; first [apply Hx' | apply HD']; rewrite <- E; ring).
Lemma Cinv_nz z : z <> RtoC 0 -> Cinv z <> RtoC 0.
Proof. intros Hz E. pose proof (Cinv_r z Hz) as H. rewrite E, Cmult_0_r in H. injection H. lra. Qed.
Lemma Cinv_inv z : z <> RtoC 0 -> Cinv (Cinv z) = z.
Proof. intros Hz. pose proof (Cinv_nz z Hz) as H. replace (/ / z)%C with (z * / z * / / z)%C by (rewrite (Cinv_r z Hz); ring). rewrite <- Cmult_assoc, Cinv_r by auto. ring. Qed.
Lemma den_eq : (/ (RtoC (- dT) * lam * RtoC x1 + RtoC dT * lam * RtoC x0 - RtoC (2 * om ^ 2 * x1) / (RtoC dT * lam) + RtoC (2 * om ^ 2 * x0) / (RtoC dT * lam) -
   RtoC (om ^ 4 * x1) / (RtoC (dT ^ 3) * cpow lam 3) + RtoC (om ^ 4 * x0) / (RtoC (dT ^ 3) * cpow lam 3)))%C = Dinv.
Proof.
  set (u := ((RtoC x1 - RtoC x0) * ((RtoC dT * lam * (RtoC dT * lam) + RtoC om * RtoC om) * (RtoC dT * lam * (RtoC dT * lam) + RtoC om * RtoC om)))%C).
  set (v := ((RtoC dT * lam) * (RtoC dT * lam) * (RtoC dT * lam))%C).
  assert (Hu : u <> RtoC 0) by (unfold u; repeat apply Cmult_neq_0; auto).
  assert (Hv : v <> RtoC 0) by (unfold v; repeat apply Cmult_neq_0; auto).
  match goal with |- (/ ?X)%C = _ => assert (EX : X = (- (u * / v))%C) end.
  { unfold u, v. cbn [pow cpow]. pushC. rewrite !R2. field. fin2. }
  rewrite EX, Cinv_opp by (apply Cmult_neq_0; auto; apply Cinv_nz; auto). unfold Dinv.
  assert (Hq1 : (u * / v * (v * / u))%C = RtoC 1).
  { replace (u * / v * (v * / u))%C with ((u * / u) * (v * / v))%C by ring. rewrite !Cinv_r by auto. ring. }
  replace (/ (u * / v))%C with (/ (u * / v) * (u * / v * (v * / u)))%C by (rewrite Hq1; ring).
  replace (/ (u * / v) * (u * / v * (v * / u)))%C with ((u * / v) * / (u * / v) * (v * / u))%C by ring.
  rewrite Cinv_r by (apply Cmult_neq_0; auto; apply Cinv_nz; auto). fold u v. unfold Cdiv. ring.
Qed.
Lemma CEsin_scalar_const_in_eq : CEsin_scalar_const_in y0 y1 x0 x1 om ph dT t lam = Cminus (KS y0 0 om ph dT lam t t) (KS y0 0 om ph dT lam t x0).
Proof. unfold CEsin_scalar_const_in, KS. cbv zeta. ex. cbn [pow cpow]. push. rewrite ?R2. field. fin2. Qed.
Lemma CEsin_scalar_const_less_eq : CEsin_scalar_const_less y0 y1 x0 x1 om ph dT t lam = Cminus (KS y0 0 om ph dT lam t x1) (KS y0 0 om ph dT lam t x0).
Proof. unfold CEsin_scalar_const_less, KS. cbv zeta. ex. cbn [pow cpow]. push. rewrite ?R2. field. fin2. Qed.
Lemma CEsin_scalar_ramp_in_eq : CEsin_scalar_ramp_in y0 y1 x0 x1 om ph dT t lam = Cminus (KS p q om ph dT lam t t) (KS p q om ph dT lam t x0).
Proof. unfold CEsin_scalar_ramp_in, KS. cbv zeta. rewrite den_eq. ex. cbn [pow cpow]. push. rewrite ?R2. unfold Dinv. field. fin2. Qed.
Lemma CEsin_scalar_ramp_less_eq : CEsin_scalar_ramp_less y0 y1 x0 x1 om ph dT t lam = Cminus (KS p q om ph dT lam t x1) (KS p q om ph dT lam t x0).
Proof. unfold CEsin_scalar_ramp_less, KS. cbv zeta. rewrite den_eq. ex. cbn [pow cpow]. push. rewrite ?R2. unfold Dinv. field. fin2. Qed.
Lemma CEsin_vectorized_const_in_eq : CEsin_vectorized_const_in y0 y1 x0 x1 om ph dT t lam = Cminus (KS y0 0 om ph dT lam t t) (KS y0 0 om ph dT lam t x0).
Proof. unfold CEsin_vectorized_const_in, KS. cbv zeta. ex. cbn [pow cpow]. push. rewrite ?R2. field. fin2. Qed.
Lemma CEsin_vectorized_const_less_eq : CEsin_vectorized_const_less y0 y1 x0 x1 om ph dT t lam = Cminus (KS y0 0 om ph dT lam t x1) (KS y0 0 om ph dT lam t x0).
Proof. unfold CEsin_vectorized_const_less, KS. cbv zeta. ex. cbn [pow cpow]. push. rewrite ?R2. field. fin2. Qed.
Lemma CEsin_vectorized_ramp_in_eq : CEsin_vectorized_ramp_in y0 y1 x0 x1 om ph dT t lam = Cminus (KS p q om ph dT lam t t) (KS p q om ph dT lam t x0).
Proof. unfold CEsin_vectorized_ramp_in, KS. cbv zeta. rewrite den_eq. ex. cbn [pow cpow]. push. rewrite ?R2. unfold Dinv. field. fin2. Qed.
Lemma CEsin_vectorized_ramp_less_eq : CEsin_vectorized_ramp_less y0 y1 x0 x1 om ph dT t lam = Cminus (KS p q om ph dT lam t x1) (KS p q om ph dT lam t x0).
Proof. unfold CEsin_vectorized_ramp_less, KS. cbv zeta. rewrite den_eq. ex. cbn [pow cpow]. push. rewrite ?R2. unfold Dinv. field. fin2. Qed.
End Forms.
