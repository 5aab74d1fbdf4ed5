(** * Proofs about the layered soil with a drain: complex arithmetic, one layer *)
From Coq Require Import Reals List Arith ZArith Bool Lia Lra.
From Coquelicot Require Import Coquelicot.
From Verif Require Import Base SteinModel NogamiModel TerzaghiProofs.
Import ListNotations.
Local Open Scope R_scope.

(** real forms *)
Definition cc (a x : R) : R := if Rltb a 0 then cosh (sqrt (- a) * x) else cos (sqrt a * x).
Definition ss (a x : R) : R := if Rltb a 0 then sinh (sqrt (- a) * x) / sqrt (- a) else sin (sqrt a * x) / sqrt a.

Ltac rcase a Ha := let H := fresh in assert (H : a < 0 \/ 0 < a) by lra; destruct H as [?Hneg|?Hpos];
  [rewrite (proj2 (Rltb_true a 0)) by lra|rewrite (proj2 (Rltb_false a 0)) by lra].
Lemma sq_neg a : a < 0 -> 0 < sqrt (- a) /\ sqrt (- a) * sqrt (- a) = - a.
Proof. intros H. split; [apply sqrt_lt_R0; lra|apply sqrt_sqrt; lra]. Qed.
Lemma sq_pos a : 0 < a -> 0 < sqrt a /\ sqrt a * sqrt a = a.
Proof. intros H. split; [apply sqrt_lt_R0; lra|apply sqrt_sqrt; lra]. Qed.
Lemma cc_d a x : a <> 0 -> is_derive (cc a) x (- a * ss a x).
Proof.
  intros Ha. unfold cc, ss. rcase a Ha.
  - destruct (sq_neg a Hneg) as [k1 k2]. set (k := sqrt (- a)) in *. unfold cosh, sinh. auto_derive; auto. rewrite <- k2. match goal with |- ?u = ?v => change (@eq R u v) end. field. lra.
  - destruct (sq_pos a Hpos) as [k1 k2]. set (k := sqrt a) in *. auto_derive; auto. rewrite <- k2. match goal with |- ?u = ?v => change (@eq R u v) end. field. lra.
Qed.
Lemma ss_d a x : a <> 0 -> is_derive (ss a) x (cc a x).
Proof.
  intros Ha. unfold cc, ss. rcase a Ha.
  - destruct (sq_neg a Hneg) as [k1 k2]. set (k := sqrt (- a)) in *. unfold cosh, sinh. auto_derive; [lra|]. match goal with |- ?u = ?v => change (@eq R u v) end. field. lra.
  - destruct (sq_pos a Hpos) as [k1 k2]. set (k := sqrt a) in *. auto_derive; [lra|]. match goal with |- ?u = ?v => change (@eq R u v) end. field. lra.
Qed.
Lemma cc_0 a : cc a 0 = 1.
Proof. unfold cc. rewrite !Rmult_0_r, cosh_0, cos_0. destruct (Rltb a 0); auto. Qed.
Lemma ss_0 a : ss a 0 = 0.
Proof. unfold ss. rewrite !Rmult_0_r, sinh_0, sin_0. destruct (Rltb a 0); unfold Rdiv; ring. Qed.
Lemma cc_ss a x : a <> 0 -> (cc a x)^2 + a * (ss a x)^2 = 1.
Proof.
  intros Ha. unfold cc, ss. rcase a Ha.
  - destruct (sq_neg a Hneg) as [k1 k2]. set (k := sqrt (- a)) in *. replace a with (- (k * k)) by lra.
    replace (cosh (k * x) ^ 2 + - (k * k) * (sinh (k * x) / k)^2) with ((cosh (k * x))^2 - (sinh (k * x))^2) by (field; lra).
    unfold cosh, sinh. assert (E : exp (k * x) * exp (- (k * x)) = 1) by (rewrite <- exp_plus, Rplus_opp_r; apply exp_0).
    set (u := exp (k * x)) in *. set (v := exp (- (k * x))) in *. transitivity (u * v); [field|auto].
  - destruct (sq_pos a Hpos) as [k1 k2]. set (k := sqrt a) in *. rewrite <- k2.
    replace (cos (k * x) ^ 2 + k * k * (sin (k * x) / k)^2) with ((cos (k * x))^2 + (sin (k * x))^2) by (field; lra).
    pose proof (sin2_cos2 (k * x)) as Q. unfold Rsqr in Q. cbn [pow]. lra.
Qed.

(** complex forms *)
Lemma csqrt_sq a : (csqrt a * csqrt a)%C = RtoC a.
Proof.
  unfold csqrt. destruct (Rltb a 0) eqn:E.
  - apply Rltb_true in E. destruct (sq_neg a E) as [_ k]. apply injective_projections; cbn; [|ring]. rewrite Rmult_0_l. lra.
  - apply Rltb_false in E. assert (k : sqrt a * sqrt a = a) by (apply sqrt_sqrt; lra). apply injective_projections; cbn; [|ring]. rewrite Rmult_0_l. lra.
Qed.
Lemma csqrt_nz a : a <> 0 -> csqrt a <> RtoC 0.
Proof. intros H E. pose proof (csqrt_sq a) as Q. rewrite E in Q. apply (f_equal fst) in Q. cbn in Q. lra. Qed.
Lemma csqrt_mod a : a <> 0 -> Reqb (Cmod (csqrt a)) 0 = false.
Proof. intros H. apply Reqb_false. intros E. apply Cmod_eq_0 in E. exact (csqrt_nz a H E). Qed.
Lemma csqrt_mod0 : Reqb (Cmod (csqrt 0)) 0 = true.
Proof. apply Reqb_true. unfold csqrt. rewrite (proj2 (Rltb_false 0 0)) by lra. rewrite sqrt_0. apply Cmod_0. Qed.
Lemma ccos_csqrt a (x : R) : a <> 0 -> ccos (csqrt a * x)%C = RtoC (cc a x).
Proof.
  intros Ha. unfold csqrt, cc, ccos. rcase a Ha; apply injective_projections; cbn.
  - rewrite !Rmult_0_l, !Rmult_0_r, Rminus_0_r, cos_0, Rplus_0_l. ring.
  - rewrite !Rmult_0_l, !Rmult_0_r, Rminus_0_r, sin_0. ring.
  - rewrite !Rmult_0_l, !Rmult_0_r, Rminus_0_r, Rplus_0_l, cosh_0. ring.
  - rewrite !Rmult_0_l, !Rmult_0_r, Rminus_0_r, Rplus_0_l, sinh_0. ring.
Qed.
Lemma csin_csqrt a (x : R) : a <> 0 -> csin (csqrt a * x)%C = (csqrt a * RtoC (ss a x))%C.
Proof.
  intros Ha. unfold csqrt, ss, csin. rcase a Ha; apply injective_projections; cbn.
  - rewrite !Rmult_0_l, !Rmult_0_r, Rminus_0_r, sin_0. ring.
  - rewrite !Rmult_0_l, !Rmult_0_r, Rminus_0_r, cos_0, Rplus_0_l. destruct (sq_neg a Hneg) as [k _]. field. lra.
  - rewrite !Rmult_0_l, !Rmult_0_r, Rminus_0_r, Rplus_0_l, cosh_0. destruct (sq_pos a Hpos) as [k _]. field. lra.
  - rewrite !Rmult_0_l, !Rmult_0_r, Rminus_0_r, Rplus_0_l, sinh_0. ring.
Qed.
Lemma csin_div a (x : R) : a <> 0 -> (csin (csqrt a * x) / csqrt a)%C = RtoC (ss a x).
Proof. intros Ha. rewrite csin_csqrt by auto. field. apply csqrt_nz; auto. Qed.
Lemma transfer_real a h p q : a <> 0 -> transfer (csqrt a) h (RtoC p, RtoC q) = (RtoC (cc a h * p + ss a h * q), RtoC (- a * ss a h * p + cc a h * q)).
Proof.
  intros Ha. unfold transfer. rewrite csqrt_mod by auto. cbn [fst snd]. rewrite csin_div, ccos_csqrt, csin_csqrt by auto. f_equal.
  - rewrite <- !RtoC_mult, <- RtoC_plus. reflexivity.
  - replace (- csqrt a * (csqrt a * RtoC (ss a h)) * RtoC p)%C with (- (csqrt a * csqrt a) * RtoC (ss a h) * RtoC p)%C by ring. rewrite csqrt_sq, <- RtoC_opp, <- !RtoC_mult, <- RtoC_plus. reflexivity.
Qed.
Lemma csq_csqrt a : csq (csqrt a) = RtoC a. Proof. apply csqrt_sq. Qed.
Lemma RtoC_nz a : a <> 0 -> RtoC a <> RtoC 0.
Proof. intros H E. apply H. apply (f_equal fst) in E. exact E. Qed.
Definition A_int (a h p q : R) : R := p * ss a h + q * (1 - cc a h) / a.
Definition B_int (a h p q : R) : R :=
  h * p^2 / 2 + p^2 * ss a h * cc a h / 2 + h * q^2 / (2 * a) + p * q * (1 - (cc a h)^2) / a - q^2 * ss a h * cc a h / (2 * a).
Lemma Amn_real a h p q : a <> 0 -> Amn h (csqrt a) p q = RtoC (A_int a h p q).
Proof.
  intros Ha. unfold Amn, A_int. rewrite csqrt_mod by auto. rewrite ccos_csqrt, csin_csqrt, csq_csqrt by auto.
  replace (RtoC p * (csqrt a * RtoC (ss a h)) / csqrt a)%C with (RtoC p * RtoC (ss a h))%C by (field; apply csqrt_nz; auto).
  unfold Rdiv. rewrite RtoC_plus, !RtoC_mult, RtoC_minus, RtoC_inv by auto. pose proof (RtoC_nz a Ha). field. auto.
Qed.
Lemma Bmn_real a h p q : a <> 0 -> Bmn h (csqrt a) p q = RtoC (B_int a h p q).
Proof.
  intros Ha. unfold Bmn, B_int. rewrite csqrt_mod by auto. cbv zeta. rewrite ccos_csqrt, csin_csqrt, csq_csqrt by auto.
  pose proof (cc_ss a h Ha) as I. pose proof (csqrt_sq a) as S. pose proof (csqrt_nz a Ha) as N. pose proof (RtoC_nz a Ha) as N2.
  set (b := csqrt a) in *. set (c := cc a h) in *. set (s := ss a h) in *.
  assert (T2 : RtoC 2 <> RtoC 0) by (apply RtoC_nz; lra).
  replace (csq (b * RtoC s))%C with (RtoC (a * s^2)) by (unfold csq; replace (a * s^2) with (a * (s * s)) by ring; rewrite !RtoC_mult, <- S; ring).
  replace (csq (RtoC c)) with (RtoC (c^2)) by (unfold csq; rewrite <- RtoC_mult; f_equal; ring).
  replace (RtoC (p^2) * (b * RtoC s) * RtoC c / (RtoC 2 * b))%C with (RtoC (p^2 * s * c / 2)).
  2:{ unfold Rdiv. rewrite !RtoC_mult, RtoC_inv by lra. field. auto. }
  replace (RtoC (q^2) * (b * RtoC s) * RtoC c / (RtoC 2 * (RtoC a * b)))%C with (RtoC (q^2 * s * c / (2 * a))).
  2:{ unfold Rdiv. rewrite !RtoC_mult, RtoC_inv by (apply Rmult_integral_contrapositive; lra). rewrite RtoC_mult. field. auto. }
  assert (D : forall x y, y <> 0 -> (RtoC x / RtoC y)%C = RtoC (x / y)) by (intros; unfold Cdiv, Rdiv; rewrite RtoC_mult, RtoC_inv by auto; reflexivity).
  assert (A2 : 2 * a <> 0) by (apply Rmult_integral_contrapositive; lra).
  rewrite <- !RtoC_mult. rewrite !D by (auto; lra). rewrite <- ?RtoC_plus, <- ?RtoC_minus, <- ?RtoC_plus, <- ?RtoC_minus, <- ?RtoC_plus, <- ?RtoC_minus. f_equal.
  replace (h * p^2 / 2) with (h * p^2 * (c^2 + a * s^2) / 2) by (rewrite I; field).
  replace (h * q^2 / (2 * a)) with (h * q^2 * (c^2 + a * s^2) / (2 * a)) by (rewrite I; field; auto). field. auto.
Qed.
Definition wv (a p q x : R) : R := cc a x * p + ss a x * q.
Definition wd (a p q x : R) : R := - a * ss a x * p + cc a x * q.
Lemma wv_d a p q d z : a <> 0 -> is_derive (fun z => wv a p q (z - d)) z (wd a p q (z - d)).
Proof.
  intros Ha. unfold wv, wd. pose proof (cc_d a (z - d) Ha) as D1. pose proof (ss_d a (z - d) Ha) as D2.
  assert (X1 : ex_derive (cc a) (z - d)) by (eexists; eauto). assert (X2 : ex_derive (ss a) (z - d)) by (eexists; eauto).
  auto_derive; [auto|]. change (fun x => cc a x) with (cc a). change (fun x => ss a x) with (ss a). unfold Rminus in *. rewrite (is_derive_unique _ _ _ D1), (is_derive_unique _ _ _ D2). ring.
Qed.
Lemma wd_d a p q d z : a <> 0 -> is_derive (fun z => wd a p q (z - d)) z (- a * wv a p q (z - d)).
Proof.
  intros Ha. unfold wv, wd. pose proof (cc_d a (z - d) Ha) as D1. pose proof (ss_d a (z - d) Ha) as D2.
  assert (X1 : ex_derive (cc a) (z - d)) by (eexists; eauto). assert (X2 : ex_derive (ss a) (z - d)) by (eexists; eauto).
  auto_derive; [auto|]. change (fun x => cc a x) with (cc a). change (fun x => ss a x) with (ss a). unfold Rminus in *. rewrite (is_derive_unique _ _ _ D1), (is_derive_unique _ _ _ D2). ring.
Qed.
Lemma wv_0 a p q : wv a p q 0 = p. Proof. unfold wv. rewrite cc_0, ss_0. ring. Qed.
Lemma wd_0 a p q : wd a p q 0 = q. Proof. unfold wd. rewrite cc_0, ss_0. ring. Qed.
Lemma wv_cont a p q d z : a <> 0 -> continuous (fun z => wv a p q (z - d)) z.
Proof. intros Ha. apply (ex_derive_continuous (V := R_NormedModule) _ _ (ex_intro _ _ (wv_d a p q d z Ha))). Qed.
Lemma A_int_ok a h p q d : a <> 0 -> is_RInt (fun z => wv a p q (z - d)) d (d + h) (A_int a h p q).
Proof.
  intros Ha. set (G := fun z => A_int a (z - d) p q).
  eapply rint_val; [apply (is_RInt_derive G)|].
  - intros z _. unfold G, A_int, wv. pose proof (cc_d a (z - d) Ha) as D1. pose proof (ss_d a (z - d) Ha) as D2.
    assert (X1 : ex_derive (cc a) (z - d)) by (eexists; eauto). assert (X2 : ex_derive (ss a) (z - d)) by (eexists; eauto).
    auto_derive; [auto|]. change (fun x => cc a x) with (cc a). change (fun x => ss a x) with (ss a). unfold Rminus in *. rewrite (is_derive_unique _ _ _ D1), (is_derive_unique _ _ _ D2). field. auto.
  - intros z _. apply wv_cont. auto.
  - unfold minus, plus, opp. cbn. unfold G. replace (d + h - d) with h by ring. rewrite Rminus_diag_eq by auto. unfold A_int at 2. rewrite cc_0, ss_0. match goal with |- ?u = ?v => change (@eq R u v) end. field. auto.
Qed.
Lemma B_int_ok a h p q d : a <> 0 -> is_RInt (fun z => (wv a p q (z - d))^2) d (d + h) (B_int a h p q).
Proof.
  intros Ha. set (G := fun z => B_int a (z - d) p q).
  eapply rint_val; [apply (is_RInt_derive G)|].
  - intros z _. unfold G, B_int, wv. pose proof (cc_d a (z - d) Ha) as D1. pose proof (ss_d a (z - d) Ha) as D2. pose proof (cc_ss a (z - d) Ha) as I.
    assert (X1 : ex_derive (cc a) (z - d)) by (eexists; eauto). assert (X2 : ex_derive (ss a) (z - d)) by (eexists; eauto).
    assert (A2 : 2 * a <> 0) by (apply Rmult_integral_contrapositive; lra).
    auto_derive; [repeat split; auto|]. change (fun x => cc a x) with (cc a). change (fun x => ss a x) with (ss a). unfold Rminus in *. rewrite (is_derive_unique _ _ _ D1), (is_derive_unique _ _ _ D2).
    set (c := cc a (z + - d)) in *. set (s := ss a (z + - d)) in *. match goal with |- ?u = ?v => change (@eq R u v) end.
    apply Rminus_diag_uniq. transitivity ((p^2 / 2 + q^2 / (2 * a)) * (1 - (c^2 + a * s^2))); [field; auto|rewrite I; ring].
  - intros z _. apply (continuous_ext (fun z => wv a p q (z - d) * wv a p q (z - d))); [intros; cbn; ring|]. apply (continuous_mult (K := R_AbsRing)); apply wv_cont; auto.
  - unfold minus, plus, opp. cbn. unfold G. replace (d + h - d) with h by ring. rewrite Rminus_diag_eq by auto. unfold B_int at 2. rewrite cc_0, ss_0. match goal with |- ?u = ?v => change (@eq R u v) end. field. auto.
Qed.
