(** * Terzaghi series: Bessel's inequality, sum of 1/(2k+1)^2, truncation error *)
From Coq Require Import Reals List Arith Lia Lra.
From Coquelicot Require Import Coquelicot.
From Verif Require Import TerzaghiModel SpecTerzaghi TerzaghiProofs.
Import ListNotations.
Local Open Scope R_scope.

Lemma ssum_mult f g n m : ssum f n * ssum g m = ssum (fun j => ssum (fun k => f j * g k) m) n.
Proof.
  induction n as [|n IH]; cbn [ssum]; [ring|].
  rewrite Rmult_plus_distr_r, IH. f_equal. rewrite ssum_scal. reflexivity.
Qed.
Lemma ssum_delta (a : nat -> R) j n : (j < n)%nat ->
  ssum (fun k => if Nat.eq_dec j k then a k else 0) n = a j.
Proof.
  intros H. induction n as [|n IH]; [lia|]. cbn [ssum].
  destruct (Nat.eq_dec j n) as [->|N].
  - rewrite ssum_0'; [ring|]. intros k Hk. destruct (Nat.eq_dec n k); [lia|auto].
  - rewrite IH by lia. ring.
Qed.

(** Mean square misfit of the initial condition. *)
Lemma tz_misfit H kv mv gamw ui nt : H <> 0 ->
  is_RInt (fun z => (tz_u H kv mv gamw ui nt z 0 - ui)^2) 0 H
    (ui^2 * H * tz_doc H kv mv gamw nt 0).
Proof.
  intros HH.
  set (c := fun k => 2 / Mk k).
  set (S := fun z => ssum (fun k => c k * sin (Mk k * (z / H))) nt).
  assert (ES : forall z, tz_u H kv mv gamw ui nt z 0 = ui * S z).
  { intros z. unfold tz_u, S, c. f_equal. apply ssum_ext. intros k _.
    replace (- Mk k ^ 2 * (tz_dTv H kv mv gamw * 0)) with 0 by ring. rewrite exp_0. ring. }
  assert (ED : tz_doc H kv mv gamw nt 0 = 1 - ssum (fun k => 2 / Mk k ^2) nt).
  { unfold tz_doc. f_equal. apply ssum_ext. intros k _.
    replace (- Mk k ^ 2 * (tz_dTv H kv mv gamw * 0)) with 0 by ring. rewrite exp_0. ring. }
  assert (I1 : is_RInt S 0 H (H * ssum (fun k => 2 / Mk k ^2) nt)).
  { rewrite <- ssum_scal. unfold S. apply (ssum_RInt (fun k z => c k * sin (Mk k * (z / H)))).
    intros k _. pose proof (Mk_pos k) as P.
    set (F := fun z => - 2 * H / Mk k ^2 * cos (Mk k * (z / H))).
    replace (H * (2 / Mk k ^ 2)) with (minus (F H) (F 0)).
    - apply (is_RInt_derive F (fun z => c k * sin (Mk k * (z / H)))).
      + intros z _. unfold F, c. auto_derive; auto. cbn [pow]. unfold Rdiv. field. lra.
      + intros z _. apply (ex_derive_continuous (fun z => c k * sin (Mk k * (z / H)))). auto_derive; auto.
    - unfold F, minus, plus, opp; cbn -[pow].
      replace (Mk k * (H / H)) with (Mk k) by (field; auto).
      replace (Mk k * (0 / H)) with 0 by (unfold Rdiv; ring).
      rewrite cos_Mk, cos_0. field. lra. }
  assert (I2 : is_RInt (fun z => S z * S z) 0 H (H * ssum (fun k => 2 / Mk k ^2) nt)).
  { apply (is_RInt_ext (fun z => ssum (fun j => ssum (fun k =>
        (c j * sin (Mk j * (z / H))) * (c k * sin (Mk k * (z / H)))) nt) nt)).
    { intros z _. unfold S. rewrite ssum_mult. reflexivity. }
    rewrite <- ssum_scal.
    apply (ssum_RInt (fun j z => ssum (fun k =>
        (c j * sin (Mk j * (z / H))) * (c k * sin (Mk k * (z / H)))) nt)).
    intros j Hj.
    eapply rint_val.
    - apply (ssum_RInt (fun k z => (c j * sin (Mk j * (z / H))) * (c k * sin (Mk k * (z / H))))
         (fun k => c j * c k * (if Nat.eq_dec j k then H / 2 else 0))).
      intros k Hk.
      apply (is_RInt_ext (fun z => scal (V := R_NormedModule) (c j * c k) (sin (Mk j * (z / H)) * sin (Mk k * (z / H))))).
      { intros z _. unfold scal; cbn; unfold mult; cbn. ring. }
      apply (is_RInt_scal (V := R_NormedModule) (fun z => sin (Mk j * (z / H)) * sin (Mk k * (z / H)))).
      apply sin_orth; auto.
    - rewrite (ssum_ext _ (fun k => if Nat.eq_dec j k then c j * c k * (H / 2) else 0)).
      + rewrite ssum_delta by auto. unfold c. pose proof (Mk_pos j). field. lra.
      + intros k _. destruct (Nat.eq_dec j k); ring. }
  apply (is_RInt_ext (fun z => plus (scal (V := R_NormedModule) (ui^2) (S z * S z))
     (plus (scal (V := R_NormedModule) (-2 * ui^2) (S z)) (ui^2)))).
  { intros z _. rewrite ES. unfold scal, plus; cbn -[pow]; unfold mult; cbn -[pow]. ring. }
  eapply rint_val.
  - apply (is_RInt_plus (V := R_NormedModule) (fun z => scal (V := R_NormedModule) (ui^2) (S z * S z))
      (fun z => plus (scal (V := R_NormedModule) (-2 * ui^2) (S z)) (ui^2))).
    + apply (is_RInt_scal (V := R_NormedModule) (fun z => S z * S z)). exact I2.
    + apply (is_RInt_plus (V := R_NormedModule) (fun z => scal (V := R_NormedModule) (-2 * ui^2) (S z)) (fun _ => ui^2)).
      * apply (is_RInt_scal (V := R_NormedModule) S). exact I1.
      * apply (is_RInt_const (V := R_NormedModule)).
  - rewrite ED. unfold scal, plus; cbn -[pow]; unfold mult; cbn -[pow]. ring.
Qed.

Lemma tz_doc0_nonneg H kv mv gamw nt : 0 < H -> 0 <= tz_doc H kv mv gamw nt 0.
Proof.
  intros HH. pose proof (tz_misfit H kv mv gamw 1 nt ltac:(lra)) as I.
  assert (Q : 0 <= 1^2 * H * tz_doc H kv mv gamw nt 0).
  { eapply is_RInt_ge_0; [| exact I |]; [lra|]. intros z _. apply pow2_ge_0. }
  apply Rmult_le_reg_l with H; auto. lra.
Qed.

(** ** Sum of the inverse squares (Matsuoka's proof) *)
Section Basel.
Definition ccI (m : nat) : R := RInt (fun x => cos x ^ m) 0 (PI / 2).
Definition ccJ (m : nat) : R := RInt (fun x => x^2 * cos x ^ m) 0 (PI / 2).
Lemma ccI_int m : is_RInt (fun x => cos x ^ m) 0 (PI / 2) (ccI m).
Proof.
  unfold ccI. apply (RInt_correct (V := R_CompleteNormedModule)). apply (ex_RInt_continuous (V := R_CompleteNormedModule)). intros x _.
  apply (ex_derive_continuous (fun x => cos x ^ m)). auto_derive; auto.
Qed.
Lemma ccJ_int m : is_RInt (fun x => x^2 * cos x ^ m) 0 (PI / 2) (ccJ m).
Proof.
  unfold ccJ. apply (RInt_correct (V := R_CompleteNormedModule)). apply (ex_RInt_continuous (V := R_CompleteNormedModule)). intros x _.
  apply (ex_derive_continuous (fun x => x^2 * cos x ^ m)). auto_derive; auto.
Qed.
Lemma sin2 x : sin x * sin x = 1 - cos x * cos x.
Proof. pose proof (sin2_cos2 x) as H. unfold Rsqr in H. lra. Qed.
Lemma rint_unique (f : R -> R) a b (u v : R) : is_RInt f a b u -> is_RInt f a b v -> u = v.
Proof.
  intros H1 H2.
  rewrite <- (is_RInt_unique (V := R_CompleteNormedModule) f a b u H1).
  apply (is_RInt_unique (V := R_CompleteNormedModule) f a b v H2).
Qed.

Lemma ccI_rec m : (INR m + 2) * ccI (S (S m)) = (INR m + 1) * ccI m.
Proof.
  assert (Z : is_RInt (fun x => (INR m + 2) * cos x ^ (S (S m)) - (INR m + 1) * cos x ^ m) 0 (PI / 2) 0).
  { set (F := fun x => sin x * cos x ^ (S m)).
    eapply rint_val.
    - apply (is_RInt_derive F).
      + intros x _. unfold F. auto_derive; auto. change (match m with 0%nat => 1 | S _ => INR m + 1 end) with (INR (S m)). rewrite S_INR. cbn [pow].
        replace (1 * cos x * (cos x * cos x ^ m) + sin x * (1 * - sin x * ((INR m + 1) * cos x ^ m)))
          with (cos x * cos x * cos x ^ m - (INR m + 1) * (sin x * sin x) * cos x ^ m) by ring.
        rewrite sin2. ring.
      + intros x _. apply (ex_derive_continuous
          (fun x => (INR m + 2) * cos x ^ (S (S m)) - (INR m + 1) * cos x ^ m)). auto_derive; auto.
    - unfold F, minus, plus, opp; cbn -[pow]. rewrite cos_PI2, sin_0. rewrite pow_ne_zero by lia. ring. }
  assert (Z2 : is_RInt (fun x => (INR m + 2) * cos x ^ (S (S m)) - (INR m + 1) * cos x ^ m) 0 (PI / 2)
     ((INR m + 2) * ccI (S (S m)) - (INR m + 1) * ccI m)).
  { apply (is_RInt_minus (V := R_NormedModule) (fun x => (INR m + 2) * cos x ^ (S (S m)))
      (fun x => (INR m + 1) * cos x ^ m)).
    - apply (is_RInt_scal (V := R_NormedModule) (fun x => cos x ^ (S (S m)))). apply ccI_int.
    - apply (is_RInt_scal (V := R_NormedModule) (fun x => cos x ^ m)). apply ccI_int. }
  pose proof (rint_unique _ _ _ _ _ Z Z2). lra.
Qed.

(** with N = (m+2)/2:  I_N + 2 N^2 J_N = N (2N-1) J_(N-1) *)
Lemma ccJ_rec m : 2 * ccI (S (S m)) + (INR m + 2)^2 * ccJ (S (S m)) = (INR m + 2) * (INR m + 1) * ccJ m.
Proof.
  set (f := fun x => 2 * cos x ^ (S (S m)) + (INR m + 2)^2 * (x^2 * cos x ^ (S (S m)))
         - (INR m + 2) * (INR m + 1) * (x^2 * cos x ^ m)).
  assert (Z : is_RInt f 0 (PI / 2) 0).
  { set (F := fun x => 2 * (x * cos x ^ (S (S m))) + (INR m + 2) * (x^2 * sin x * cos x ^ (S m))).
    eapply rint_val.
    - apply (is_RInt_derive F).
      + intros x _. unfold F, f. auto_derive; auto. change (match m with 0%nat => 1 | S _ => INR m + 1 end) with (INR (S m)). rewrite S_INR. cbn [pow].
        set (p := cos x ^ m). set (s := sin x). set (c := cos x).
        assert (E : s * s = 1 - c * c) by apply sin2.
        transitivity (2 * (c * c * p) + 2 * x * (INR m + 1 + 1) * (- s) * (c * p)
           + (INR m + 2) * (2 * x * s * (c * p) + x * x * (c * (c * p)) - x * x * (s * s) * (INR m + 1) * p));
          [ring|rewrite E; ring].
      + intros x _. apply (ex_derive_continuous f). unfold f. auto_derive; auto.
    - unfold F, minus, plus, opp; cbn -[pow]. rewrite cos_PI2, sin_0. rewrite !pow_ne_zero by lia. ring. }
  assert (Z2 : is_RInt f 0 (PI / 2)
     (2 * ccI (S (S m)) + (INR m + 2)^2 * ccJ (S (S m)) - (INR m + 2) * (INR m + 1) * ccJ m)).
  { apply (is_RInt_minus (V := R_NormedModule) (fun x => 2 * cos x ^ (S (S m)) + (INR m + 2)^2 * (x^2 * cos x ^ (S (S m))))
      (fun x => (INR m + 2) * (INR m + 1) * (x^2 * cos x ^ m))).
    - apply (is_RInt_plus (V := R_NormedModule) (fun x => 2 * cos x ^ (S (S m)))
        (fun x => (INR m + 2)^2 * (x^2 * cos x ^ (S (S m))))).
      + apply (is_RInt_scal (V := R_NormedModule) (fun x => cos x ^ (S (S m)))). apply ccI_int.
      + apply (is_RInt_scal (V := R_NormedModule) (fun x => x^2 * cos x ^ (S (S m)))). apply ccJ_int.
    - apply (is_RInt_scal (V := R_NormedModule) (fun x => x^2 * cos x ^ m)). apply ccJ_int. }
  pose proof (rint_unique _ _ _ _ _ Z Z2). lra.
Qed.

Lemma ccI_0 : ccI 0 = PI / 2.
Proof.
  apply (rint_unique (fun x => cos x ^ 0) 0 (PI / 2)); [apply ccI_int|].
  eapply rint_val; [apply (is_RInt_const (V := R_NormedModule) 0 (PI/2) 1)|].
  unfold scal; cbn; unfold mult; cbn. ring.
Qed.
Lemma ccJ_0 : ccJ 0 = PI^3 / 24.
Proof.
  apply (rint_unique (fun x => x^2 * cos x ^ 0) 0 (PI / 2)); [apply ccJ_int|].
  eapply rint_val.
  - apply (is_RInt_derive (fun x => x^3 / 3)).
    + intros x _. auto_derive; auto. cbn. field.
    + intros x _. apply (ex_derive_continuous (fun x => x^2 * cos x ^ 0)). auto_derive; auto.
  - unfold minus, plus, opp; cbn -[pow]. field.
Qed.
Lemma ccI_pos n : 0 < ccI (2 * n).
Proof.
  induction n as [|n IH].
  - change (2 * 0)%nat with 0%nat. rewrite ccI_0. pose proof PI_RGT_0. lra.
  - replace (2 * S n)%nat with (S (S (2 * n))) by lia. pose proof (ccI_rec (2 * n)) as E.
    pose proof (pos_INR (2 * n)).
    assert (0 < (INR (2 * n) + 1) * ccI (2 * n)) by (apply Rmult_lt_0_compat; lra).
    rewrite <- E in H0. apply Rmult_lt_reg_l with (INR (2 * n) + 2); [lra|]. rewrite Rmult_0_r. exact H0.
Qed.

Lemma x_cos_sin x : 0 <= x <= PI / 2 -> x * cos x <= sin x.
Proof.
  intros Hx. destruct (Req_dec x 0) as [->|N]; [rewrite sin_0; lra|].
  destruct (MVT_gen (fun y => sin y - y * cos y) 0 x (fun y => y * sin y)) as [c [Hc E]].
  - intros y _. auto_derive; auto. ring.
  - intros y _. apply continuity_pt_filterlim. apply (ex_derive_continuous (fun y => sin y - y * cos y)).
    auto_derive; auto.
  - rewrite Rmin_left, Rmax_right in Hc by lra. cbv beta in E. rewrite sin_0 in E.
    assert (0 <= sin c) by (apply sin_ge_0; pose proof PI_RGT_0; lra).
    assert (0 <= c * sin c * (x - 0)) by (repeat apply Rmult_le_pos; lra). lra.
Qed.

Lemma ccJ_bound n : 0 <= ccJ (2 * S n) <= ccI (2 * n) - ccI (2 * S n).
Proof.
  pose proof PI_RGT_0. replace (2 * S n)%nat with (S (S (2 * n))) by lia. split.
  - eapply is_RInt_ge_0; [| apply (ccJ_int (S (S (2 * n)))) |]; [lra|]. intros x Hx. cbv beta.
    apply Rmult_le_pos; [apply pow2_ge_0|]. apply pow_le, cos_ge_0; lra.
  - eapply is_RInt_le; [| apply ccJ_int | apply (is_RInt_minus (V := R_NormedModule)
       (fun x => cos x ^ (2 * n)) (fun x => cos x ^ (S (S (2 * n))))); apply ccI_int |]; [lra|].
    intros x Hx. unfold minus, plus, opp; cbn -[pow Nat.mul].
    assert (C : 0 <= cos x) by (apply cos_ge_0; lra).
    assert (P : 0 <= cos x ^ (2 * n)) by (apply pow_le; auto).
    pose proof (x_cos_sin x ltac:(lra)) as Q.
    assert (0 <= x * cos x) by (apply Rmult_le_pos; lra).
    assert (Q2 : (x * cos x)^2 <= 1 - cos x ^2).
    { pose proof (sin2 x) as Q3. assert (0 <= sin x) by lra.
      apply Rle_trans with (sin x * sin x); [|lra]. cbn. nra. }
    replace (x^2 * cos x ^ (S (S (2 * n)))) with ((x * cos x)^2 * cos x ^ (2 * n)) by (cbn [pow]; ring).
    replace (cos x ^ (2 * n) + - cos x ^ (S (S (2 * n)))) with ((1 - cos x ^2) * cos x ^ (2 * n)) by (cbn [pow]; ring).
    apply Rmult_le_compat_r; auto.
Qed.

Lemma basel_step n : / (INR n + 1)^2 =
  2 * (ccJ (2 * n) / ccI (2 * n) - ccJ (2 * S n) / ccI (2 * S n)).
Proof.
  pose proof (ccI_pos n) as P0. pose proof (ccI_pos (S n)) as P1.
  replace (2 * S n)%nat with (S (S (2 * n))) in * by lia.
  pose proof (ccI_rec (2 * n)) as E1. pose proof (ccJ_rec (2 * n)) as E2.
  rewrite mult_INR in E1, E2. cbn [INR] in E1, E2. pose proof (pos_INR n) as PN.
  set (N := INR n) in *. set (I0 := ccI (2 * n)) in *. set (I1 := ccI (S (S (2 * n)))) in *.
  set (J0 := ccJ (2 * n)) in *. set (J1 := ccJ (S (S (2 * n)))) in *. clearbody N I0 I1 J0 J1.
  assert (EI : I0 = (2 * N + 2) / (2 * N + 1) * I1).
  { apply Rmult_eq_reg_l with (2 * N + 1); [|lra].
    replace ((2 * N + 1) * ((2 * N + 2) / (2 * N + 1) * I1)) with ((2 * N + 2) * I1) by (field; lra). lra. }
  assert (EJ : J0 = (2 * I1 + (2 * N + 2)^2 * J1) / ((2 * N + 2) * (2 * N + 1))).
  { apply Rmult_eq_reg_l with ((2 * N + 2) * (2 * N + 1)); [|apply Rmult_integral_contrapositive; lra].
    replace ((2 * N + 2) * (2 * N + 1) * ((2 * I1 + (2 * N + 2)^2 * J1) / ((2 * N + 2) * (2 * N + 1))))
      with (2 * I1 + (2 * N + 2)^2 * J1) by (field; lra). cbn [pow] in *. lra. }
  rewrite EI, EJ. field. lra.
Qed.

Lemma basel_sum n : ssum (fun k => / (INR k + 1)^2) n = PI^2 / 6 - 2 * (ccJ (2 * n) / ccI (2 * n)).
Proof.
  induction n as [|n IH]; cbn [ssum].
  - change (2 * 0)%nat with 0%nat. rewrite ccI_0, ccJ_0. pose proof PI_RGT_0. field. lra.
  - rewrite IH, basel_step. ring.
Qed.

Lemma basel_error n : 0 <= PI^2 / 6 - ssum (fun k => / (INR k + 1)^2) (S n) <= 2 / (2 * INR n + 1).
Proof.
  rewrite basel_sum.
  replace (PI ^ 2 / 6 - (PI ^ 2 / 6 - 2 * (ccJ (2 * S n) / ccI (2 * S n)))) with
    (2 * (ccJ (2 * S n) / ccI (2 * S n))) by ring.
  pose proof (ccI_pos (S n)) as P. pose proof (ccJ_bound n) as [B1 B2].
  pose proof (ccI_rec (2 * n)) as E. replace (S (S (2 * n))) with (2 * S n)%nat in E by lia.
  rewrite mult_INR in E. cbn [INR] in E. pose proof (pos_INR n).
  set (I1 := ccI (2 * S n)) in *. set (J1 := ccJ (2 * S n)) in *. set (N := INR n) in *.
  assert (EI : ccI (2 * n) = (2 * N + 2) / (2 * N + 1) * I1).
  { apply Rmult_eq_reg_l with (2 * N + 1); [|lra].
    replace ((2 * N + 1) * ((2 * N + 2) / (2 * N + 1) * I1)) with ((2 * N + 2) * I1) by (field; lra). lra. }
  rewrite EI in B2. clearbody I1 J1 N.
  assert (J1 <= I1 * (1 / (2 * N + 1))).
  { replace (I1 * (1 / (2 * N + 1))) with ((2 * N + 2) / (2 * N + 1) * I1 - I1) by (field; lra). auto. }
  assert (J1 / I1 <= 1 / (2 * N + 1)).
  { apply Rmult_le_reg_r with I1; auto. unfold Rdiv at 1. rewrite Rmult_assoc, Rinv_l by lra. lra. }
  assert (0 <= J1 / I1) by (apply Rle_mult_inv_pos; lra).
  replace (2 / (2 * N + 1)) with (2 * (1 / (2 * N + 1))) by (field; lra). lra.
Qed.
End Basel.

(** Odd squares *)
Lemma odd_even n : ssum (fun k => / (2 * INR k + 1)^2) n =
  ssum (fun k => / (INR k + 1)^2) (2 * n) - / 4 * ssum (fun k => / (INR k + 1)^2) n.
Proof.
  induction n as [|n IH]; [cbn; ring|].
  replace (2 * S n)%nat with (S (S (2 * n))) by lia. cbn [ssum].
  rewrite IH. rewrite S_INR, mult_INR. cbn [INR]. pose proof (pos_INR n). field. lra.
Qed.
Lemma odd_error n : PI^2 / 8 - ssum (fun k => / (2 * INR k + 1)^2) (S n) <= 2 / (INR n + 1).
Proof.
  rewrite odd_even. replace (2 * S n)%nat with (S (2 * n + 1)) by lia.
  pose proof (basel_error (2 * n + 1)) as [_ A]. pose proof (basel_error n) as [B _].
  rewrite plus_INR, mult_INR in A. cbn [INR] in A. pose proof (pos_INR n).
  replace (2 * ((1 + 1) * INR n + 1)) with (2 * (2 * INR n + 1)) in A by ring.
  assert (2 / (2 * (2 * INR n + 1) + 1) <= 2 / (INR n + 1)).
  { unfold Rdiv. apply Rmult_le_compat_l; [lra|]. apply Rinv_le_contravar; lra. }
  lra.
Qed.

Lemma archi_le x b C : 0 <= C -> (forall n, x <= C / (INR n + 1) + b) -> x <= b.
Proof.
  intros HC H. apply Rnot_lt_le. intros L.
  destruct (Rle_lt_or_eq_dec 0 C HC) as [HC'|E].
  2:{ specialize (H 0%nat). subst C. unfold Rdiv in H. rewrite Rmult_0_l in H. lra. }
  destruct (archimed_cor1 ((x - b) / C)) as [N [HN HN0]]; [apply Rdiv_lt_0_compat; lra|].
  specialize (H N). assert (P : 0 < INR N) by (apply lt_0_INR; auto).
  assert (C / (INR N + 1) < x - b); [|lra].
  apply Rle_lt_trans with (C * / INR N).
  - unfold Rdiv. apply Rmult_le_compat_l; [lra|]. apply Rinv_le_contravar; lra.
  - replace (x - b) with (C * ((x - b) / C)) by (field; lra). apply Rmult_lt_compat_l; auto.
Qed.

Lemma ssum_split f n m : ssum f (n + m) = ssum f n + ssum (fun k => f (n + k)%nat) m.
Proof.
  induction m as [|m IH]; cbn [ssum]; [rewrite Nat.add_0_r; ring|].
  replace (n + S m)%nat with (S (n + m)) by lia. cbn [ssum]. rewrite IH. ring.
Qed.

Lemma tail_bound n m : (1 <= n)%nat ->
  ssum (fun k => 2 / Mk (n + k) ^2) m <= 2 / PI^2 * (/ INR n - / INR (n + m)).
Proof.
  intros Hn. pose proof PI_RGT_0 as PP. induction m as [|m IH]; cbn [ssum].
  - rewrite Nat.add_0_r. lra.
  - assert (P : 0 < INR (n + m)) by (apply lt_0_INR; lia).
    replace (n + S m)%nat with (S (n + m)) by lia. rewrite S_INR.
    assert (Q : 2 / Mk (n + m) ^ 2 <= 2 / PI^2 * (/ INR (n + m) - / (INR (n + m) + 1))).
    { set (x := INR (n + m)) in *. unfold Mk. fold x. clearbody x.
      replace (2 / ((2 * x + 1) / 2 * PI)^2) with (2 / PI^2 * (4 / (2 * x + 1)^2)) by (field; lra).
      apply Rmult_le_compat_l; [apply Rlt_le, Rdiv_lt_0_compat; [lra|apply pow_lt; auto]|].
      replace (/ x - / (x + 1)) with (/ (x * (x + 1))) by (field; lra).
      unfold Rdiv. replace (/ (x * (x + 1))) with (4 * / (4 * (x * (x + 1)))) by (field; lra).
      apply Rmult_le_compat_l; [lra|]. apply Rinv_le_contravar; nra. }
    lra.
Qed.

Lemma sum_full_error n : 1 - ssum (fun k => 2 / Mk k ^2) (S n) <= 8 / PI^2 * (2 / (INR n + 1)).
Proof.
  pose proof PI_RGT_0 as PP.
  rewrite (ssum_ext _ (fun k => 8 / PI^2 * / (2 * INR k + 1)^2)).
  2:{ intros k _. unfold Mk. pose proof (pos_INR k). field. lra. }
  rewrite ssum_scal.
  replace (1 - 8 / PI ^ 2 * ssum (fun k => / (2 * INR k + 1) ^ 2) (S n)) with
    (8 / PI^2 * (PI^2 / 8 - ssum (fun k => / (2 * INR k + 1) ^ 2) (S n))) by (field; lra).
  apply Rmult_le_compat_l; [|apply odd_error].
  apply Rlt_le, Rdiv_lt_0_compat; [lra|apply pow_lt; auto].
Qed.

Lemma sum_tail n : (1 <= n)%nat -> 1 - ssum (fun k => 2 / Mk k ^2) n <= 2 / (PI^2 * INR n).
Proof.
  intros Hn. pose proof PI_RGT_0 as PP.
  assert (P : 0 < INR n) by (apply lt_0_INR; lia).
  assert (P2 : 0 < 2 / PI^2) by (apply Rdiv_lt_0_compat; [lra|apply pow_lt; auto]).
  apply (archi_le _ _ (8 / PI^2 * 2)); [lra|]. intros m.
  pose proof (sum_full_error (n + m)) as E. pose proof (tail_bound n (S m) Hn) as T.
  replace (S (n + m)) with (n + S m)%nat in E by lia.
  rewrite ssum_split in E.
  assert (0 < / INR (n + S m)) by (apply Rinv_0_lt_compat, lt_0_INR; lia).
  assert (T2 : ssum (fun k => 2 / Mk (n + k) ^2) (S m) <= 2 / (PI^2 * INR n)).
  { eapply Rle_trans; [exact T|]. replace (2 / (PI^2 * INR n)) with (2 / PI^2 * / INR n) by (field; lra).
    apply Rmult_le_compat_l; lra. }
  assert (E2 : 8 / PI ^ 2 * (2 / (INR (n + m) + 1)) <= 8 / PI ^ 2 * 2 / (INR m + 1)).
  { unfold Rdiv at 2 3. rewrite <- Rmult_assoc. apply Rmult_le_compat_l; [lra|].
    pose proof (pos_INR m). apply Rinv_le_contravar; [lra|]. rewrite plus_INR. lra. }
  lra.
Qed.
