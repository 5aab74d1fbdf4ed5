(** * The time courses satisfy the modal equations *)
From Coq Require Import Reals List Arith Lia Lra Bool.
From Coquelicot Require Import Coquelicot.
From Verif Require Import Base PiecewiseModel SpectralModel SpecSpectral LoadModel SpecPiecewise SpecLoad
  PiecewiseProofs LoadProofs2 PropsLoad PolyLineModel SpecPolyLine SpecSpeccon SpecconModel TimeProofs TimeProofs2.
Import ListNotations.
Open Scope R_scope.
Local Notation at_ := SpecPiecewise.at_.

Lemma modulation_cont om t : continuous (modulation om) t.
Proof.
  destruct om as [[o ph]|]; unfold modulation; [|apply continuous_const].
  apply (ex_derive_continuous (fun t => cos (o * t + ph))). auto_derive. auto.
Qed.
Lemma chord_cont x y k t : continuous (chord x y k) t.
Proof. apply (ex_derive_continuous (chord x y k)). unfold chord. auto_derive. auto. Qed.

Section Course.
Variables (p : points) (om : option (R * R)) (F : R -> R) (dT lam T0 : R).
Hypothesis HP : proper_load p.
Hypothesis HF : load_course p om F.
Hypothesis Hmu : dT * lam <> 0.
Hypothesis HS : starts T0 p.
Local Notation x := (px p).
Local Notation x0 := (at_ (px p) 0).
Local Notation e := (course_E p om dT lam).
Local Notation d := (course_ED p om dT lam).
Lemma mild_from_x0 t : x0 <= t -> before_end p t ->
  exists L, is_RInt F x0 t L /\ is_RInt e x0 t ((L - e t) / (dT * lam)).
Proof.
  intros H0 He. destruct (find_segment p HP t H0 He) as (k & Hk & Ht). pose proof HP as (Hn & Hl & _). pose proof HF as (HF1 & _).
  apply (good_all (dT * lam) x (fun k t => chord x (py p) k t * modulation om t) F e Hmu Hn) with k.
  - rewrite px_len; lia.
  - intros j s Hj. apply (continuous_mult (K := R_AbsRing)); [apply chord_cont|apply modulation_cont].
  - intros j s Hj Hs. rewrite px_len in Hj. apply HF1; auto. lra.
  - intros s. apply course_conv; auto.
  - rewrite px_len; auto.
  - lra.
Qed.
Lemma start_le : T0 <= x0. Proof. destruct HS as [E|[E _]]; lra. Qed.
Lemma start_zero t : T0 < x0 -> t < x0 -> F t = 0.
Proof. intros H Ht. destruct HS as [E|[_ E]]; [lra|]. rewrite (proj2 HF t Ht), E. ring. Qed.
Lemma e_zero t : t <= x0 -> e t = 0.
Proof. apply (e_before (dT * lam) x F e). intros s. apply course_conv; auto. Qed.
Lemma zero_RInt (f : R -> R) a b : a <= b -> (forall s, a < s < b -> f s = 0) -> is_RInt f a b 0.
Proof.
  intros H Z. eapply is_RInt_ext; [|eapply (eq_ind _ (fun l => is_RInt (fun _ => 0) a b l)); [apply (is_RInt_const (V := R_NormedModule))|]].
  - intros s. rewrite Rmin_left, Rmax_right by auto. intros Hs. symmetry. apply Z; auto.
  - unfold scal; cbn; unfold mult; cbn. match goal with |- ?u = ?v => change (@eq R u v) end. ring.
Qed.
Lemma before_le a b : a <= b -> before_end p b -> before_end p a. Proof. unfold before_end. lra. Qed.
Lemma mild_E t : T0 <= t -> before_end p t -> exists L I, is_RInt F T0 t L /\ is_RInt e T0 t I /\ e t + dT * lam * I = L.
Proof.
  intros Ht He. pose proof start_le as HS0.
  destruct (Rlt_dec t x0) as [Lt|Ge].
  - exists 0, 0. split; [|split].
    + apply zero_RInt; auto. intros s Hs. apply start_zero; lra.
    + apply zero_RInt; auto. intros s Hs. apply e_zero; lra.
    + rewrite e_zero by lra. ring.
  - destruct (mild_from_x0 t ltac:(lra) He) as (L & H1 & H2).
    assert (Z1 : is_RInt F T0 x0 0) by (apply zero_RInt; auto; intros s Hs; apply start_zero; lra).
    assert (Z2 : is_RInt e T0 x0 0) by (apply zero_RInt; auto; intros s Hs; apply e_zero; lra).
    pose proof (is_RInt_Chasles F T0 x0 t _ _ Z1 H1) as C1. pose proof (is_RInt_Chasles e T0 x0 t _ _ Z2 H2) as C2.
    exists L, ((L - e t) / (dT * lam)). split; [|split].
    + eapply (eq_ind _ (fun l => is_RInt F T0 t l)); [exact C1|]. unfold plus; cbn. match goal with |- ?u = ?v => change (@eq R u v) end. ring.
    + eapply (eq_ind _ (fun l => is_RInt e T0 t l)); [exact C2|]. unfold plus; cbn. match goal with |- ?u = ?v => change (@eq R u v) end. ring.
    + field. apply Rmult_neq_0_reg in Hmu. tauto.
Qed.
Lemma initial_zero : T0 < x0 -> initial p om = 0.
Proof. intros H. destruct HS as [E|[_ E]]; [lra|]. unfold initial. rewrite E. ring. Qed.
Lemma mild_ED t : T0 <= t -> before_end p t -> exists I, is_RInt d T0 t I /\ d t + dT * lam * I = F t - initial p om.
Proof.
  intros Ht He. pose proof start_le as HS0. set (mu := dT * lam) in *.
  destruct (Rlt_dec t x0) as [Lt|Ge].
  - exists 0. split; [apply zero_RInt; auto; intros s Hs; apply course_ED_before; auto; lra|].
    rewrite course_ED_before by auto. rewrite start_zero, initial_zero by lra. ring.
  - destruct (mild_from_x0 t ltac:(lra) He) as (L & H1 & H2).
    assert (Z2 : is_RInt d T0 x0 0) by (apply zero_RInt; auto; intros s Hs; apply course_ED_before; auto; lra).
    assert (X : is_RInt (fun s => exp (- (mu * (s - x0)))) x0 t ((1 - exp (- (mu * (t - x0)))) / mu)).
    { eapply (eq_ind _ (fun l => is_RInt _ x0 t l)).
      - apply (is_RInt_derive (fun s => - exp (- (mu * (s - x0))) / mu)).
        + intros s _. auto_derive; [auto|]. unfold one; cbn. replace (s + - x0) with (s - x0) by ring. field. auto.
        + intros s _. apply (ex_derive_continuous (fun s => exp (- (mu * (s - x0))))). auto_derive. auto.
      - unfold minus, plus, opp; cbn. match goal with |- ?u = ?v => change (@eq R u v) end.
        replace (mu * (x0 - x0)) with 0 by ring. rewrite Ropp_0, exp_0. field. auto. }
    assert (Y : is_RInt d x0 t (L - initial p om * ((1 - exp (- (mu * (t - x0)))) / mu) - mu * ((L - e t) / mu))).
    { eapply is_RInt_ext; [|apply (is_RInt_minus (V := R_NormedModule)); [apply (is_RInt_minus (V := R_NormedModule)); [exact H1|
        apply (is_RInt_scal (V := R_NormedModule)); exact X]|apply (is_RInt_scal (V := R_NormedModule)); exact H2]].
      intros s. rewrite Rmin_left, Rmax_right by lra. intros Hs. unfold minus, plus, opp, scal; cbn; unfold mult; cbn.
      match goal with |- ?u = ?v => change (@eq R u v) end.
      pose proof (course_parts p om F dT lam HP HF Hmu s ltac:(lra) (before_le s t ltac:(lra) He)) as PP. fold mu in PP. lra. }
    pose proof (is_RInt_Chasles d T0 x0 t _ _ Z2 Y) as C.
    exists (L - initial p om * ((1 - exp (- (mu * (t - x0)))) / mu) - mu * ((L - e t) / mu)). split.
    + eapply (eq_ind _ (fun l => is_RInt d T0 t l)); [exact C|]. unfold plus; cbn. match goal with |- ?u = ?v => change (@eq R u v) end. ring.
    + pose proof (course_parts p om F dT lam HP HF Hmu t ltac:(lra) He) as PP. fold mu in PP.
      replace (d t) with (F t - initial p om * exp (- (mu * (t - x0))) - mu * e t) by lra. field. auto.
Qed.
End Course.
