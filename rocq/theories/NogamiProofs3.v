(** * Proofs about the layered soil with a drain: the shape with radius *)
From Coq Require Import Reals List Arith ZArith Bool Lia Lra.
From Coquelicot Require Import Coquelicot.
From Verif Require Import Base SpecStein SteinModel NogamiModel SpecNogami TerzaghiProofs NogamiProofs NogamiProofs2.
Import ListNotations.
Local Open Scope R_scope.

(** u'' + u'/r = - w^2 u *)
Definition radial_eq (w : R) (u v : R -> R) : Prop := forall r, 0 < r -> is_derive u r (v r) /\ is_derive v r (- w^2 * u r - v r / r).
Lemma wronskian_const w u v f g a b : radial_eq w u v -> radial_eq w f g -> 0 < a -> 0 < b -> a * (u a * g a - v a * f a) = b * (u b * g b - v b * f b).
Proof.
  intros E1 E2 Ha Hb. set (h := fun r => r * (u r * g r - v r * f r)). change (h a = h b).
  assert (D : forall r, 0 < r -> is_derive h r 0).
  { intros r Hr. destruct (E1 r Hr) as [D1 D2]. destruct (E2 r Hr) as [D3 D4].
    assert (X1 : ex_derive u r) by (eexists; eauto). assert (X2 : ex_derive v r) by (eexists; eauto). assert (X3 : ex_derive f r) by (eexists; eauto). assert (X4 : ex_derive g r) by (eexists; eauto).
    unfold h. auto_derive; [auto|]. change (fun x => u x) with u. change (fun x => v x) with v. change (fun x => f x) with f. change (fun x => g x) with g.
    rewrite (is_derive_unique _ _ _ D1), (is_derive_unique _ _ _ D2), (is_derive_unique _ _ _ D3), (is_derive_unique _ _ _ D4). match goal with |- ?u = ?v => change (@eq R u v) end. field. lra. }
  destruct (MVT_gen h a b (fun _ => 0)) as (x & _ & M); [intros x Hx; apply D; unfold Rmin in Hx; destruct (Rle_dec a b); lra|intros x Hx; apply continuity_pt_filterlim; apply (ex_derive_continuous (V := R_NormedModule) h x); eexists; apply D; unfold Rmin in Hx; destruct (Rle_dec a b); lra|lra].
Qed.

Section Radial.
Variables J Y : nat -> R -> R.
Hypothesis HB : are_bessel J Y.
Variable d : drain.
Notation r0 := (d_r0 d). Notation r1 := (d_r1 d).
Hypothesis Hr : 0 < r0 < r1.
Variable s : R.
Hypothesis Hsv : 0 < s.
Notation w := (s / r0).
Lemma w_pos : 0 < w. Proof. apply Rdiv_lt_0_compat; lra. Qed.
Definition U (r : R) : R := un_normalised J Y d r s 0.
Definition V (r : R) : R := un_normalised J Y d r s 1.
Lemma arg_pos r : 0 < r -> 0 < r / r0 * s.
Proof. intros H. apply Rmult_lt_0_compat; [apply Rdiv_lt_0_compat; lra|auto]. Qed.
Lemma base_eq B : bessel01 B -> radial_eq w (fun r => B 0%nat (r / r0 * s)) (fun r => - w * B 1%nat (r / r0 * s)).
Proof.
  intros [D0 D1] r H. pose proof (arg_pos r H) as A. specialize (D0 _ A). specialize (D1 _ A).
  assert (X0 : ex_derive (B 0%nat) (r / r0 * s)) by (eexists; eauto). assert (X1 : ex_derive (B 1%nat) (r / r0 * s)) by (eexists; eauto).
  split; auto_derive; auto; change (fun x => B 0%nat x) with (B 0%nat); change (fun x => B 1%nat x) with (B 1%nat); unfold Rdiv in *; rewrite ?(is_derive_unique _ _ _ D0), ?(is_derive_unique _ _ _ D1); match goal with |- ?u = ?v => change (@eq R u v) end; field; lra.
Qed.
Lemma U_eq : radial_eq w U (fun r => - w * V r).
Proof.
  intros r H. destruct HB as (BJ & BY & _). destruct (base_eq J BJ r H) as [A1 A2]. destruct (base_eq Y BY r H) as [B1 B2].
  unfold U, V, un_normalised. split.
  - replace (- w * (J 1%nat (r / r0 * s) * Y 0%nat s - J 0%nat s * Y 1%nat (r / r0 * s))) with (Y 0%nat s * (- w * J 1%nat (r / r0 * s)) - J 0%nat s * (- w * Y 1%nat (r / r0 * s))) by ring.
    apply (is_derive_ext (fun r => Y 0%nat s * J 0%nat (r / r0 * s) - J 0%nat s * Y 0%nat (r / r0 * s))); [intros; match goal with |- ?u = ?v => change (@eq R u v) end; ring|].
    apply (is_derive_minus (V := R_NormedModule)); apply is_derive_scal; auto.
  - apply (is_derive_ext (fun r => Y 0%nat s * (- w * J 1%nat (r / r0 * s)) - J 0%nat s * (- w * Y 1%nat (r / r0 * s)))); [intros; match goal with |- ?u = ?v => change (@eq R u v) end; ring|].
    replace (- w^2 * (J 0%nat (r / r0 * s) * Y 0%nat s - J 0%nat s * Y 0%nat (r / r0 * s)) - - w * (J 1%nat (r / r0 * s) * Y 0%nat s - J 0%nat s * Y 1%nat (r / r0 * s)) / r) with
      (Y 0%nat s * (- w^2 * J 0%nat (r / r0 * s) - - w * J 1%nat (r / r0 * s) / r) - J 0%nat s * (- w^2 * Y 0%nat (r / r0 * s) - - w * Y 1%nat (r / r0 * s) / r)) by (field; lra).
    apply (is_derive_minus (V := R_NormedModule)); apply is_derive_scal; auto.
Qed.
Lemma V_d r : 0 < r -> is_derive V r (w * U r - V r / r).
Proof.
  intros H. destruct (U_eq r H) as [_ D]. pose proof w_pos as W.
  apply (is_derive_ext (fun r => - / w * (- w * V r))); [intros; match goal with |- ?u = ?v => change (@eq R u v) end; field; lra|].
  replace (w * U r - V r / r) with (- / w * (- w^2 * U r - - w * V r / r)) by (field; lra). apply is_derive_scal. exact D.
Qed.
Lemma U_in : U r0 = 0.
Proof. unfold U, un_normalised. replace (r0 / r0 * s) with s by (field; lra). ring. Qed.
Lemma V_in : V r0 = 2 / (PI * s).
Proof. unfold V, un_normalised. replace (r0 / r0 * s) with s by (field; lra). destruct HB as (_ & _ & Wr). rewrite <- Wr by auto. ring. Qed.
Lemma V_in_pos : 0 < V r0.
Proof. rewrite V_in. pose proof PI_RGT_0. apply Rdiv_lt_0_compat; [lra|apply Rmult_lt_0_compat; auto]. Qed.
Lemma U_cont r : 0 < r -> continuous U r.
Proof. intros H. apply (ex_derive_continuous (V := R_NormedModule) _ _ (ex_intro _ _ (proj1 (U_eq r H)))). Qed.
Lemma rU_cont r : 0 < r -> continuous (fun r => r * U r) r.
Proof. intros H. apply (continuous_mult (K := R_AbsRing) (fun r => r) U); [apply continuous_id|apply U_cont; auto]. Qed.
Lemma rU2_cont r : 0 < r -> continuous (fun r => r * (U r)^2) r.
Proof. intros H. apply (continuous_ext (fun r => r * U r * U r)); [intros; cbn; match goal with |- ?u = ?v => change (@eq R u v) end; ring|]. apply (continuous_mult (K := R_AbsRing) (fun r => r * U r) U); [apply rU_cont|apply U_cont]; auto. Qed.
Lemma U_int : is_RInt (fun r => r * U r) r0 r1 ((r1 * V r1 - r0 * V r0) / w).
Proof.
  pose proof w_pos as W. set (G := fun r => r * V r / w). eapply rint_val; [apply (is_RInt_derive G)|].
  - intros r H. rewrite Rmin_left, Rmax_right in H by lra. assert (H0 : 0 < r) by lra. pose proof (V_d r H0) as D. assert (X : ex_derive V r) by (eexists; eauto).
    unfold G. auto_derive; [auto|]. change (fun x => V x) with V. rewrite (is_derive_unique _ _ _ D). match goal with |- ?u = ?v => change (@eq R u v) end. field. repeat split; lra.
  - intros r H. rewrite Rmin_left, Rmax_right in H by lra. apply rU_cont. lra.
  - unfold G, minus, plus, opp. cbn. match goal with |- ?u = ?v => change (@eq R u v) end. field. lra.
Qed.
Lemma U2_int : is_RInt (fun r => r * (U r)^2) r0 r1 (r1^2 / 2 * ((U r1)^2 + (V r1)^2) - r0^2 / 2 * ((U r0)^2 + (V r0)^2)).
Proof.
  pose proof w_pos as W. set (G := fun r => r^2 / 2 * ((U r)^2 + (V r)^2)). eapply rint_val; [apply (is_RInt_derive G)|].
  - intros r H. rewrite Rmin_left, Rmax_right in H by lra. assert (H0 : 0 < r) by lra. pose proof (V_d r H0) as D. pose proof (proj1 (U_eq r H0)) as D1. assert (X : ex_derive V r) by (eexists; eauto). assert (X1 : ex_derive U r) by (eexists; eauto).
    unfold G. auto_derive; [auto|]. change (fun x => V x) with V. change (fun x => U x) with U. rewrite (is_derive_unique _ _ _ D), (is_derive_unique _ _ _ D1). match goal with |- ?u = ?v => change (@eq R u v) end. field. repeat split; lra.
  - intros r H. rewrite Rmin_left, Rmax_right in H by lra. apply rU2_cont. lra.
  - reflexivity.
Qed.
Lemma U2_pos (v : R) : is_RInt (fun r => r * (U r)^2) r0 r1 v -> 0 < v.
Proof.
  intros HI. destruct (Rle_lt_or_eq_dec 0 v) as [|E]; auto.
  { apply (is_RInt_ge_0 (fun r => r * (U r)^2) r0 r1); [lra|exact HI|]. intros x H. apply Rmult_le_pos; [lra|apply pow2_ge_0]. }
  exfalso. rewrite <- E in HI.
  assert (Z : forall x, r0 < x < r1 -> U x = 0).
  { intros x H. pose proof (zero_int (fun r => r * (U r)^2) r0 r1 (fun x Hx => rU2_cont x ltac:(lra)) (fun x Hx => Rmult_le_pos x ((U x)^2) ltac:(lra) (pow2_ge_0 _)) HI x H) as Q. cbv beta in Q.
    apply Rmult_integral in Q. destruct Q as [Q|Q]; [lra|]. destruct (Req_dec (U x) 0) as [|X]; auto. exfalso. exact (pow_nonzero _ 2 X Q). }
  set (x := (r0 + r1) / 2). assert (H : r0 < x < r1) by (unfold x; lra). pose proof w_pos as W.
  assert (Vx : V x = 0).
  { destruct (U_eq x ltac:(lra)) as [D1 _]. assert (D0 : is_derive U x 0).
    { apply (is_derive_ext_loc (fun _ => 0)); [|apply (is_derive_const (V := R_NormedModule))].
      assert (P0 : 0 < (r1 - r0) / 2) by lra. exists (mkposreal _ P0). intros y Hy. unfold ball in Hy. cbn in Hy. unfold AbsRing_ball, abs, minus, plus, opp in Hy. cbn in Hy. apply Rabs_def2 in Hy. symmetry. apply Z. unfold x in *. lra. }
    pose proof (is_derive_unique _ _ _ D1) as Q1. pose proof (is_derive_unique _ _ _ D0) as Q2. assert (Q : - w * V x = 0) by congruence. apply Rmult_integral in Q. destruct Q; [lra|auto]. }
  destruct HB as (BJ & BY & Wr).
  (* the Wronskian with J and Y *)
  pose proof (wronskian_const w _ _ _ _ _ _ U_eq (base_eq J BJ) (proj1 Hr) (Rlt_trans _ _ _ (proj1 Hr) (proj1 H))) as Q1. cbv beta in Q1.
  pose proof (wronskian_const w _ _ _ _ _ _ U_eq (base_eq Y BY) (proj1 Hr) (Rlt_trans _ _ _ (proj1 Hr) (proj1 H))) as Q2. cbv beta in Q2.
  rewrite (Z x H), Vx, U_in in Q1, Q2. replace (r0 / r0 * s) with s in Q1, Q2 by (field; lra). pose proof V_in_pos as VP.
  assert (NZ : r0 * (w * V r0) <> 0) by (apply Rgt_not_eq; apply Rmult_lt_0_compat; [lra|apply Rmult_lt_0_compat; auto]).
  assert (J0 : J 0%nat s = 0). { assert (QQ : r0 * (w * V r0) * J 0%nat s = 0) by lra. apply Rmult_integral in QQ. destruct QQ; [contradiction|auto]. }
  assert (Y0 : Y 0%nat s = 0). { assert (QQ : r0 * (w * V r0) * Y 0%nat s = 0) by lra. apply Rmult_integral in QQ. destruct QQ; [contradiction|auto]. }
  pose proof (Wr s Hsv) as Q. rewrite J0, Y0 in Q. pose proof PI_RGT_0 as PP. assert (0 < 2 / (PI * s)) by (apply Rdiv_lt_0_compat; [lra|apply Rmult_lt_0_compat; auto]). lra.
Qed.
(** every other shape that is zero at r0 is a multiple *)
Lemma U_only u v : radial_eq w u v -> u r0 = 0 -> forall r, 0 < r -> u r = - v r0 / (w * V r0) * U r /\ v r = - v r0 / (w * V r0) * (- w * V r).
Proof.
  intros E Z r H. destruct HB as (BJ & BY & Wr). pose proof w_pos as W. pose proof V_in_pos as VP. set (c := - v r0 / (w * V r0)).
  set (f := fun r => u r - c * U r). set (g := fun r => v r - c * (- w * V r)).
  assert (Ef : radial_eq w f g).
  { intros x Hx. destruct (E x Hx) as [D1 D2]. destruct (U_eq x Hx) as [D3 D4]. unfold f, g. split.
    - apply (is_derive_minus (V := R_NormedModule)); [auto|apply is_derive_scal; auto].
    - replace (- w^2 * (u x - c * U x) - (v x - c * (- w * V x)) / x) with (- w^2 * u x - v x / x - c * (- w^2 * U x - - w * V x / x)) by (field; lra).
      apply (is_derive_minus (V := R_NormedModule)); [auto|apply is_derive_scal; auto]. }
  assert (F0 : f r0 = 0) by (unfold f; rewrite Z, U_in; ring).
  assert (G0 : g r0 = 0) by (unfold g, c; field; lra).
  pose proof (wronskian_const w _ _ _ _ _ _ Ef (base_eq J BJ) (proj1 Hr) H) as Q1. pose proof (wronskian_const w _ _ _ _ _ _ Ef (base_eq Y BY) (proj1 Hr) H) as Q2. cbv beta in Q1, Q2.
  rewrite F0, G0 in Q1, Q2. set (x := r / r0 * s) in *. pose proof (Wr x (arg_pos r H)) as Q. pose proof (arg_pos r H) as XP. fold x in XP. pose proof PI_RGT_0 as PP.
  assert (KP : 0 < 2 / (PI * x)) by (apply Rdiv_lt_0_compat; [lra|apply Rmult_lt_0_compat; auto]).
  assert (A1 : f r * (- w * J 1%nat x) - g r * J 0%nat x = 0). { apply (Rmult_eq_reg_l r); [|lra]. lra. }
  assert (A2 : f r * (- w * Y 1%nat x) - g r * Y 0%nat x = 0). { apply (Rmult_eq_reg_l r); [|lra]. lra. }
  assert (Ff : f r = 0).
  { assert (QQ : f r * (w * (2 / (PI * x))) = 0). { rewrite <- Q. transitivity (- (f r * (- w * J 1%nat x) - g r * J 0%nat x) * Y 0%nat x + (f r * (- w * Y 1%nat x) - g r * Y 0%nat x) * J 0%nat x); [ring|]. rewrite A1, A2. ring. }
    apply Rmult_integral in QQ. destruct QQ as [|QQ]; auto. exfalso. assert (0 < w * (2 / (PI * x))) by (apply Rmult_lt_0_compat; auto). lra. }
  assert (Gg : g r = 0).
  { assert (QQ : g r * (2 / (PI * x)) = 0). { rewrite <- Q. transitivity ((f r * (- w * J 1%nat x) - g r * J 0%nat x) * Y 1%nat x - (f r * (- w * Y 1%nat x) - g r * Y 0%nat x) * J 1%nat x); [ring|]. rewrite A1, A2. ring. }
    apply Rmult_integral in QQ. destruct QQ as [|QQ]; auto. exfalso. lra. }
  unfold f in Ff. unfold g in Gg. lra.
Qed.
(** with an exact zero of the radial characteristic *)
Hypothesis Hroot : radial_characteristic J Y d s = 0.
Lemma V_out : V r1 = 0. Proof. exact Hroot. Qed.
Definition Un : R := - r0^2 / s * V r0.
Definition Ud : R := r0^2 / 2 * (r1^2 / r0^2 * (U r1)^2 - (V r0)^2).
Lemma Un_ok : is_RInt (fun r => r * U r) r0 r1 Un.
Proof. eapply rint_val; [apply U_int|]. rewrite V_out. unfold Un. match goal with |- ?u = ?v => change (@eq R u v) end. field. lra. Qed.
Lemma Ud_ok : is_RInt (fun r => r * (U r)^2) r0 r1 Ud.
Proof. eapply rint_val; [apply U2_int|]. rewrite V_out, U_in. unfold Ud. match goal with |- ?u = ?v => change (@eq R u v) end. field. lra. Qed.
Lemma Ud_pos : 0 < Ud. Proof. apply U2_pos. apply Ud_ok. Qed.
Lemma U_average : is_RInt (fun r => 2 * r * U r) r0 r1 (un_normalised_average J Y d s * (r1^2 - r0^2)).
Proof.
  apply (is_RInt_ext (fun r => scal 2 (r * U r))); [intros; unfold scal; cbn; unfold mult; cbn; match goal with |- ?u = ?v => change (@eq R u v) end; ring|].
  eapply rint_val; [apply (is_RInt_scal (V := R_NormedModule)); apply Un_ok|]. unfold un_normalised_average, Un, scal. cbn -[un_normalised]. unfold mult. cbn -[un_normalised pow]. fold (V r0).
  assert (r1 * r1 - r0 * r0 <> 0) by (apply Rgt_not_eq; assert (0 < (r1 - r0) * (r1 + r0)) by (apply Rmult_lt_0_compat; lra); lra).
  change (un_normalised J Y d r0 s 1) with (V r0). match goal with |- ?u = ?v => change (@eq R u v) end. field. repeat split; lra.
Qed.
End Radial.
(** different zeros give orthogonal shapes *)
Lemma U_orthogonal J Y d s s' : are_bessel J Y -> 0 < d_r0 d < d_r1 d -> 0 < s -> 0 < s' -> s <> s' ->
  radial_characteristic J Y d s = 0 -> radial_characteristic J Y d s' = 0 -> is_RInt (fun r => r * (U J Y d s r * U J Y d s' r)) (d_r0 d) (d_r1 d) 0.
Proof.
  intros HB Hr H1 H2 Hne Z1 Z2. pose proof (w_pos d Hr s H1) as W1. pose proof (w_pos d Hr s' H2) as W2. set (w := s / d_r0 d) in *. set (w' := s' / d_r0 d) in *.
  assert (Dw : w'^2 - w^2 <> 0).
  { intros E. assert (Q : (w' - w) * (w' + w) = 0) by lra. apply Rmult_integral in Q. destruct Q as [Q|Q]; [|lra]. apply Hne. unfold w, w' in Q. apply (Rmult_eq_reg_r (/ d_r0 d)); [unfold Rdiv in Q; lra|apply Rinv_neq_0_compat; lra]. }
  set (u := U J Y d s) in *. set (u' := U J Y d s') in *. set (v := fun r => - w * V J Y d s r). set (v' := fun r => - w' * V J Y d s' r). assert (Vo : v (d_r1 d) = 0) by (unfold v; rewrite (V_out J Y d s Z1); ring). assert (Vo' : v' (d_r1 d) = 0) by (unfold v'; rewrite (V_out J Y d s' Z2); ring).
  pose proof (U_eq J Y HB d Hr s H1) as E1. pose proof (U_eq J Y HB d Hr s' H2) as E2. change (radial_eq w u v) in E1. change (radial_eq w' u' v') in E2. clearbody v v'.
  set (G := fun r => r * (v r * u' r - u r * v' r) / (w'^2 - w^2)).
  assert (C : forall r, 0 < r -> continuous (fun r => r * (u r * u' r)) r).
  { intros r Hp. apply (continuous_mult (K := R_AbsRing) (fun r => r) (fun r => u r * u' r)); [apply continuous_id|]. apply (continuous_mult (K := R_AbsRing) u u'); apply U_cont; auto. }
  eapply rint_val; [apply (is_RInt_derive G)|].
  - intros r H. rewrite Rmin_left, Rmax_right in H by lra. assert (Hp : 0 < r) by lra. destruct (E1 r Hp) as [D1 D2]. destruct (E2 r Hp) as [D3 D4].
    assert (X1 : ex_derive u r) by (eexists; eauto). assert (X2 : ex_derive v r) by (eexists; eauto). assert (X3 : ex_derive u' r) by (eexists; eauto). assert (X4 : ex_derive v' r) by (eexists; eauto).
    unfold G. auto_derive; [auto|]. change (fun x => u x) with u. change (fun x => v x) with v. change (fun x => u' x) with u'. change (fun x => v' x) with v'.
    rewrite (is_derive_unique _ _ _ D1), (is_derive_unique _ _ _ D2), (is_derive_unique _ _ _ D3), (is_derive_unique _ _ _ D4). match goal with |- ?u = ?v => change (@eq R u v) end. field. repeat split; auto; first [apply Rgt_not_eq; lra|lra].
  - intros r H. rewrite Rmin_left, Rmax_right in H by lra. apply C. lra.
  - unfold G, minus, plus, opp. cbn -[pow]. rewrite Vo, Vo'. assert (A1 : u (d_r0 d) = 0) by (apply U_in; auto). assert (A2 : u' (d_r0 d) = 0) by (apply U_in; auto). rewrite A1, A2. match goal with |- ?u = ?v => change (@eq R u v) end. field. auto.
Qed.
