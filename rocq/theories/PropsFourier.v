(** * C142: FourierTransform *)
From Coq Require Import Reals List Arith ZArith Bool Lia Lra.
From Coquelicot Require Import Coquelicot.
From Verif Require Import Base FourierModel SpecFourier FourierProofs.
Import ListNotations.
Local Open Scope R_scope.

Lemma wave_neg x : wave (- x) = (cos x, - sin x).
Proof. unfold wave. rewrite cos_neg, sin_neg. reflexivity. Qed.
Section S.
Variable a : R.
Variable b : Rbar.
Notation right := (right a b). Notation left := (left a b). Notation both := (both a b).
Notation fourier := (fourier a b). Notation integrable := (integrable a b).

Definition kc (inv : bool) : R := if inv then / (2 * PI) else 1.
Definition ks (inv : bool) : R := if inv then -1 else 1.
Lemma fourier_parts inv fr fi s ur wr ui wi :
  both (fun x => fr x * cos (s * x)) ur -> both (fun x => fr x * sin (s * x)) wr -> both (fun x => fi x * cos (s * x)) ui -> both (fun x => fi x * sin (s * x)) wi ->
  fourier inv fr fi s (kc inv * ur + kc inv * ks inv * wi, kc inv * ui - kc inv * ks inv * wr).
Proof.
  intros H1 H2 H3 H4. assert (P : 2 * PI <> 0) by (generalize PI_RGT_0; lra). split; cbn [fst snd].
  - apply (both_ext a b (fun x => kc inv * (fr x * cos (s * x)) + (kc inv * ks inv) * (fi x * sin (s * x)))).
    + intros x. unfold fourier_integrand, kc, ks. rewrite wave_neg. unfold wave. destruct inv.
      * unfold Cinv, Cmult, RtoC. cbn [fst snd]. field. lra.
      * unfold Cmult. cbn [fst snd]. ring.
    + apply both_plus; apply both_scal; auto.
  - replace (kc inv * ui - kc inv * ks inv * wr) with (kc inv * ui + (- (kc inv * ks inv)) * wr) by ring.
    apply (both_ext a b (fun x => kc inv * (fi x * cos (s * x)) + (- (kc inv * ks inv)) * (fr x * sin (s * x)))).
    + intros x. unfold fourier_integrand, kc, ks. rewrite wave_neg. unfold wave. destruct inv.
      * unfold Cinv, Cmult, RtoC. cbn [fst snd]. field. lra.
      * unfold Cmult. cbn [fst snd]. ring.
    + apply both_plus; apply both_scal; auto.
Qed.
Lemma fourier_unique inv fr fi s z1 z2 : fourier inv fr fi s z1 -> fourier inv fr fi s z2 -> z1 = z2.
Proof. intros [A1 A2] [B1 B2]. rewrite (surjective_pairing z1), (surjective_pairing z2). f_equal; [apply (both_unique a b _ _ _ A1 B1)|apply (both_unique a b _ _ _ A2 B2)]. Qed.

Variables qc qs : (R -> R) -> R -> R.
Hypothesis QC : exact_quad a b qc cos.
Hypothesis QS : exact_quad a b qs sin.
Lemma right_zero : b <> m_infty -> (exists f v, right f v) -> right (fun _ => 0) 0.
Proof. intros _ (f & v & D). apply (right_scal a b 0) in D. rewrite Rmult_0_l in D. apply (right_ext a b (fun x => 0 * f x)); auto. intros; ring. Qed.
Lemma not_minus f v : right f v -> b <> m_infty.
Proof. unfold SpecFourier.right. destruct b; [discriminate|discriminate|tauto]. Qed.
Lemma both_zero f v : right f v -> both (fun _ => 0) 0.
Proof.
  intros D. assert (Z : right (fun _ => 0) 0) by (apply right_zero; [apply (not_minus f v D)|exists f, v; exact D]).
  exists 0, 0. split; [apply left_mirror; exact Z|]. split; [exact Z|ring].
Qed.
(** the four numbers the general branch computes *)
Lemma both_cos f s : integrable f s -> both (fun x => f x * cos (s * x)) (qc (fun x => f (- x)) s + qc f s).
Proof.
  intros ((v1 & H1) & _ & (v3 & H3) & _). exists v3, v1. split; [exact H3|]. split; [exact H1|]. f_equal; [|apply QC; exact H1].
  apply QC. apply left_mirror in H3. apply (right_ext a b (fun x => f (- x) * cos (s * - x))); [|exact H3]. intros x. rewrite <- (cos_neg (s * x)). do 2 f_equal. ring.
Qed.
Lemma both_sin f s : integrable f s -> both (fun x => f x * sin (s * x)) (qs (fun x => - f (- x)) s + qs f s).
Proof.
  intros (_ & (v2 & H2) & _ & (v4 & H4)). exists v4, v2. split; [exact H4|]. split; [exact H2|]. f_equal; [|apply QS; exact H2].
  apply QS. apply left_mirror in H4. apply (right_ext a b (fun x => f (- x) * sin (s * - x))); [|exact H4]. intros x. replace (s * - x) with (- (s * x)) by ring. rewrite sin_neg. ring.
Qed.
Lemma even_cos f s : (forall x, f (- x) = f x) -> integrable f s -> both (fun x => f x * cos (s * x)) (2 * qc f s).
Proof.
  intros E I. destruct I as ((v1 & H1) & _). rewrite (QC _ _ _ H1). exists v1, v1. split; [|split; [exact H1|ring]]. apply left_mirror.
  apply (right_ext a b (fun x => f x * cos (s * x))); auto. intros x. rewrite E, <- (cos_neg (s * x)). do 2 f_equal. ring.
Qed.
Lemma even_sin f s : (forall x, f (- x) = f x) -> integrable f s -> both (fun x => f x * sin (s * x)) 0.
Proof.
  intros E (_ & (v1 & H1) & _). exists (-1 * v1), v1. split; [|split; [exact H1|ring]]. apply left_mirror.
  apply (right_ext a b (fun x => -1 * (f x * sin (s * x)))); [|apply right_scal; exact H1]. intros x. rewrite E. replace (s * - x) with (- (s * x)) by ring. rewrite sin_neg. ring.
Qed.
Lemma odd_sin f s : (forall x, f (- x) = - f x) -> integrable f s -> both (fun x => f x * sin (s * x)) (2 * qs f s).
Proof.
  intros E (_ & (v1 & H1) & _). rewrite (QS _ _ _ H1). exists v1, v1. split; [|split; [exact H1|ring]]. apply left_mirror.
  apply (right_ext a b (fun x => f x * sin (s * x))); auto. intros x. rewrite E. replace (s * - x) with (- (s * x)) by ring. rewrite sin_neg. ring.
Qed.
Lemma odd_cos f s : (forall x, f (- x) = - f x) -> integrable f s -> both (fun x => f x * cos (s * x)) 0.
Proof.
  intros E ((v1 & H1) & _). exists (-1 * v1), v1. split; [|split; [exact H1|ring]]. apply left_mirror.
  apply (right_ext a b (fun x => -1 * (f x * cos (s * x)))); [|apply right_scal; exact H1]. intros x. rewrite E. replace (s * - x) with (- (s * x)) by ring. rewrite cos_neg. ring.
Qed.
Lemma both_null k f s : integrable f s -> both (fun x => 0 * k (s * x)) 0.
Proof. intros ((v & D) & _). apply (both_ext a b (fun _ => 0)); [intros; ring|]. apply (both_zero _ _ D). Qed.

(** *** A function declared real, with parity flags that are true of it, gets its Fourier integral, forward and inverse *)
Theorem C142_real (T : transform) (f : R -> R) (s : R) :
  t_func T = FReal f -> t_is_real T = true ->
  (t_re_even T = true -> forall x, f (- x) = f x) -> (t_re_odd T = true -> forall x, f (- x) = - f x) -> integrable f s ->
  exists z, call qc qs T s = Ok z /\ fourier (t_inv T) f (fun _ => 0) s z.
Proof.
  intros HF HR HE HO I. unfold call. rewrite HR, HF. assert (N1 := both_null cos f s I). assert (N2 := both_null sin f s I). destruct (t_re_even T) eqn:E1; [|destruct (t_re_odd T) eqn:E2].
  - cbn [cosine_transform bind]. eexists. split; [reflexivity|]. replace (fR (2 * inv_const T * qc f s)) with (kc (t_inv T) * (2 * qc f s) + kc (t_inv T) * ks (t_inv T) * 0, kc (t_inv T) * 0 - kc (t_inv T) * ks (t_inv T) * 0) by (unfold fR, inv_const, kc; apply f_equal2; ring).
    apply fourier_parts; auto; [apply even_cos|apply even_sin]; auto.
  - cbn [sine_transform bind]. eexists. split; [reflexivity|]. replace (- fI (2 * inv_const T * inv_sign T * qs f s))%C with (kc (t_inv T) * 0 + kc (t_inv T) * ks (t_inv T) * 0, kc (t_inv T) * 0 - kc (t_inv T) * ks (t_inv T) * (2 * qs f s)) by (unfold fI, Copp, inv_const, inv_sign, kc, ks; cbn [fst snd]; apply f_equal2; ring).
    apply fourier_parts; auto; [apply odd_cos|apply odd_sin]; auto.
  - cbn [func_mirror_for_even_weight func_mirror_for_odd_weight cosine_transform sine_transform bind]. eexists. split; [reflexivity|].
    match goal with |- SpecFourier.fourier _ _ _ _ _ _ ?z => replace z with (kc (t_inv T) * (qc (fun x => f (- x)) s + qc f s) + kc (t_inv T) * ks (t_inv T) * 0, kc (t_inv T) * 0 - kc (t_inv T) * ks (t_inv T) * (qs (fun x => - f (- x)) s + qs f s)) end.
    2: { unfold Cminus; unfold fR, fI, Cplus, Copp, inv_const, inv_sign, kc, ks; cbn [fst snd]; apply f_equal2; ring. }
    apply fourier_parts; auto; [apply both_cos|apply both_sin]; auto.
Qed.
(** *** declared imaginary, with a parity flag that is true of it *)
Theorem C142_imag (T : transform) (f : R -> R) (s : R) :
  t_func T = FReal f -> t_is_real T = false -> t_is_imag T = true ->
  (t_im_even T = true -> forall x, f (- x) = f x) -> (t_im_odd T = true -> forall x, f (- x) = - f x) -> t_im_even T = true \/ t_im_odd T = true -> integrable f s ->
  exists z, call qc qs T s = Ok z /\ fourier (t_inv T) (fun _ => 0) f s z.
Proof.
  intros HF HR HI HE HO OR I. unfold call. rewrite HR, HI, HF. assert (N1 := both_null cos f s I). assert (N2 := both_null sin f s I). destruct (t_im_even T) eqn:E1; [|destruct (t_im_odd T) eqn:E2].
  - cbn [cosine_transform bind]. eexists. split; [reflexivity|]. replace (fI (2 * inv_const T * qc f s)) with (kc (t_inv T) * 0 + kc (t_inv T) * ks (t_inv T) * 0, kc (t_inv T) * (2 * qc f s) - kc (t_inv T) * ks (t_inv T) * 0) by (unfold fI, inv_const, kc; apply f_equal2; ring).
    apply fourier_parts; auto; [apply even_cos|apply even_sin]; auto.
  - cbn [sine_transform bind]. eexists. split; [reflexivity|]. replace (fR (2 * inv_const T * inv_sign T * qs f s))%C with (kc (t_inv T) * 0 + kc (t_inv T) * ks (t_inv T) * (2 * qs f s), kc (t_inv T) * 0 - kc (t_inv T) * ks (t_inv T) * 0) by (unfold fR, inv_const, inv_sign, kc, ks; cbn [fst snd]; apply f_equal2; ring).
    apply fourier_parts; auto; [apply odd_cos|apply odd_sin]; auto.
  - exfalso. destruct OR; discriminate.
Qed.
(** *** a complex function (nothing declared about its imaginary part, nor odd real part) *)
Theorem C142_complex (T : transform) (fr fi : R -> R) (s : R) :
  t_func T = FComplex fr fi -> t_is_real T = false -> t_is_imag T = false -> t_im_even T = false -> t_re_odd T = false ->
  (t_re_even T = true -> forall x, fr (- x) = fr x) -> integrable fr s -> integrable fi s ->
  exists z, call qc qs T s = Ok z /\ fourier (t_inv T) fr fi s z.
Proof.
  intros HF HR HI HIE HRO HE I1 I2. unfold call. rewrite HR, HI, HF, HIE, HRO. destruct (t_re_even T) eqn:E1.
  - cbn [func_mirror_for_even_weight func_mirror_for_odd_weight real_func imag_func cosine_transform sine_transform bind fst snd]. eexists. split; [reflexivity|].
    match goal with |- SpecFourier.fourier _ _ _ _ _ _ ?z => replace z with (kc (t_inv T) * (2 * qc fr s) + kc (t_inv T) * ks (t_inv T) * (qs (fun x => - fi (- x)) s + qs fi s), kc (t_inv T) * (qc (fun x => fi (- x)) s + qc fi s) - kc (t_inv T) * ks (t_inv T) * 0) end.
    2: { unfold Cminus; unfold fR, fI, Cplus, Copp, inv_const, inv_sign, kc, ks; cbn [fst snd]; apply f_equal2; ring. }
    apply fourier_parts; [apply even_cos|apply even_sin|apply both_cos|apply both_sin]; auto.
  - cbn [func_mirror_for_even_weight func_mirror_for_odd_weight real_func imag_func cosine_transform sine_transform bind fst snd]. eexists. split; [reflexivity|].
    match goal with |- SpecFourier.fourier _ _ _ _ _ _ ?z => replace z with (kc (t_inv T) * (qc (fun x => fr (- x)) s + qc fr s) + kc (t_inv T) * ks (t_inv T) * (qs (fun x => - fi (- x)) s + qs fi s), kc (t_inv T) * (qc (fun x => fi (- x)) s + qc fi s) - kc (t_inv T) * ks (t_inv T) * (qs (fun x => - fr (- x)) s + qs fr s)) end.
    2: { unfold Cminus; unfold fR, fI, Cplus, Copp, inv_const, inv_sign, kc, ks; cbn [fst snd]; apply f_equal2; ring. }
    apply fourier_parts; [apply both_cos|apply both_sin|apply both_cos|apply both_sin]; auto.
Qed.
(** *** Defect: declared imaginary without a parity flag, the real part of the result has the wrong sign *)
Theorem C142_imag_refuted (T : transform) (f : R -> R) (s : R) :
  t_func T = FReal f -> t_is_real T = false -> t_is_imag T = true -> t_im_even T = false -> t_im_odd T = false -> integrable f s ->
  exists z, call qc qs T s = Ok z /\ fourier (t_inv T) (fun _ => 0) f s (- fst z, snd z).
Proof.
  intros HF HR HI HE HO I. unfold call. rewrite HR, HI, HF, HE, HO. assert (N1 := both_null cos f s I). assert (N2 := both_null sin f s I).
  cbn [func_mirror_for_even_weight func_mirror_for_odd_weight cosine_transform sine_transform bind]. eexists. split; [reflexivity|].
  match goal with |- SpecFourier.fourier _ _ _ _ _ _ ?z => replace z with (kc (t_inv T) * 0 + kc (t_inv T) * ks (t_inv T) * (qs (fun x => - f (- x)) s + qs f s), kc (t_inv T) * (qc (fun x => f (- x)) s + qc f s) - kc (t_inv T) * ks (t_inv T) * 0) end.
  2: { unfold Cminus; unfold fR, fI, Cplus, Copp, inv_const, inv_sign, kc, ks; cbn [fst snd]; apply f_equal2; ring. }
  apply fourier_parts; auto; [apply both_cos|apply both_sin]; auto.
Qed.
End S.
(** *** Defect: a complex function with imag_part_even or real_part_odd set always raises TypeError *)
Theorem C142_parity_refuted qc qs (T : transform) (fr fi : R -> R) (s : R) :
  t_func T = FComplex fr fi -> t_is_real T = false -> t_is_imag T = false -> t_im_even T = true \/ t_re_odd T = true ->
  call qc qs T s = Err TypeError.
Proof.
  intros HF HR HI OR. unfold call. rewrite HR, HI, HF.
  destruct (t_re_even T), (t_re_odd T), (t_im_even T); try (destruct OR; discriminate); reflexivity.
Qed.
(** With a = 0 and a finite b this is the integral over (-b, b) *)
Theorem C142_whole (b : R) inv fr fi s z : fourier 0 b inv fr fi s z ->
  is_RInt (fun x => fst (fourier_integrand inv fr fi s x)) (- b) b (fst z) /\ is_RInt (fun x => snd (fourier_integrand inv fr fi s x)) (- b) b (snd z).
Proof.
  intros [(u & w & A & B & E) (u' & w' & A' & B' & E')]. unfold left, right in *. rewrite Ropp_0 in *. rewrite E, E'. split; apply (is_RInt_Chasles (V := R_NormedModule) _ _ 0); auto.
Qed.
(** ** The hypotheses are met, and the sign defect shows: f x = x on (-1, 1) *)
Lemma rint_ex (f : R -> R) a b : (forall x, continuous f x) -> is_RInt f a b (RInt f a b).
Proof. intros H. apply (RInt_correct (V := R_CompleteNormedModule)). apply (ex_RInt_continuous (V := R_CompleteNormedModule)). intros; apply H. Qed.
Definition exact (k : R -> R) (b : R) (f : R -> R) (w : R) : R := RInt (fun x => f x * k (w * x)) 0 b.
Lemma exact_ok k (b : R) : exact_quad 0 b (exact k b) k.
Proof. intros f w v D. unfold exact. apply is_RInt_unique. exact D. Qed.
Lemma kcont (k f : R -> R) (s x : R) : (forall x, continuous k x) -> (forall x, continuous f x) -> continuous (fun x => f x * k (s * x)) x.
Proof.
  intros Hk Hf. apply (continuous_mult (K := R_AbsRing) f); auto. apply (continuous_comp (fun x => s * x) k); auto.
  apply (continuous_mult (K := R_AbsRing) (fun _ => s) (fun x => x)); [apply continuous_const|apply continuous_id].
Qed.
Lemma continuous_integrable (f : R -> R) (b s : R) : (forall x, continuous f x) -> integrable 0 b f s.
Proof.
  intros H. unfold integrable, right, left. repeat (match goal with |- _ /\ _ => split end); eexists; apply rint_ex; intros; apply kcont; auto; intros; first [apply continuous_cos|apply continuous_sin].
Qed.
Example C142_witness :
  exists z, call (exact cos 2) (exact sin 2) (mkT (FComplex (fun x => x * x) (fun x => x + 1)) true false false true false false false) 3 = Ok z /\
            fourier 0 2 true (fun x => x * x) (fun x => x + 1) 3 z.
Proof.
  apply (C142_complex 0 2 (exact cos 2) (exact sin 2) (exact_ok cos 2) (exact_ok sin 2) (mkT (FComplex (fun x => x * x) (fun x => x + 1)) true false false true false false false) (fun x => x * x) (fun x => x + 1) 3); auto; cbn.
  - intros _ x. ring.
  - apply continuous_integrable. intros x. apply (continuous_mult (K := R_AbsRing) (fun x => x) (fun x => x)); apply continuous_id.
  - apply continuous_integrable. intros x. apply (continuous_plus (V := R_NormedModule) (fun x => x) (fun _ => 1)); [apply continuous_id|apply continuous_const].
Qed.
Theorem C142_sign_refuted : exists (T : transform) (f : R -> R) (s : R) (z : C),
  t_func T = FReal f /\ t_is_imag T = true /\ integrable 0 PI f s /\ call (exact cos PI) (exact sin PI) T s = Ok z /\
  fourier 0 PI (t_inv T) (fun _ => 0) f s (- fst z, snd z) /\ ~ fourier 0 PI (t_inv T) (fun _ => 0) f s z.
Proof.
  set (T := mkT (FReal (fun x => x)) false false true false false false false).
  assert (I : integrable 0 PI (fun x => x) 1) by (apply continuous_integrable; intros; apply continuous_id).
  destruct (C142_imag_refuted 0 PI (exact cos PI) (exact sin PI) (exact_ok cos PI) (exact_ok sin PI) T (fun x => x) 1) as (z & E & F); auto.
  exists T, (fun x => x), 1, z. split; [reflexivity|]. split; [reflexivity|]. split; [exact I|]. split; [exact E|]. split; [exact F|]. intros F'.
  assert (U := fourier_unique _ _ _ _ _ _ _ _ F F'). apply (f_equal fst) in U. cbn [fst] in U.
  assert (X : exact sin PI (fun x => x) 1 = PI).
  { unfold exact. rewrite (RInt_ext (V := R_CompleteNormedModule) _ (fun x => x * sin x)) by (intros; rewrite Rmult_1_l; reflexivity). apply is_RInt_unique.
    assert (D : is_RInt (fun x => x * sin x) 0 PI (minus ((fun x => sin x - x * cos x) PI) ((fun x => sin x - x * cos x) 0))).
    { apply (is_RInt_derive (V := R_CompleteNormedModule) (fun x => sin x - x * cos x)).
      - intros x _. auto_derive; auto. ring.
      - intros x _. apply (continuous_mult (K := R_AbsRing) (fun x => x) sin); [apply continuous_id|apply continuous_sin]. }
    assert (Z : minus ((fun x => sin x - x * cos x) PI) ((fun x => sin x - x * cos x) 0) = PI) by (unfold minus, plus, opp; cbn; rewrite sin_PI, cos_PI, sin_0; ring).
    apply (eq_ind _ (fun v => is_RInt (fun x => x * sin x) 0 PI v) D). exact Z. }
  assert (Y : exact sin PI (fun x => - - x) 1 = PI).
  { transitivity (exact sin PI (fun x => x) 1); [|exact X]. unfold exact. apply (RInt_ext (V := R_CompleteNormedModule)). intros; rewrite Ropp_involutive; reflexivity. }
  unfold call, T in E. cbn -[exact inv_const inv_sign] in E. injection E as E. rewrite X, Y in E. subst z. unfold inv_const, inv_sign in U. cbn in U. generalize PI_RGT_0. lra.
Qed.
