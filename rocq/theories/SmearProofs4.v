(** * Piecewise constant and piecewise linear smear zones. *)
From Coq Require Import Reals List Lra Lia Bool.
From Coquelicot Require Import Coquelicot.
From Verif Require Import Base SmearModel SpecSmear SmearProofs SmearProofs2.
Import ListNotations.
Local Open Scope R_scope.

Definition sumf (f : nat -> R) (a k : nat) : R := fold_left (fun acc i => acc + f i) (seq a k) 0.

Lemma sumf_S f a k : sumf f a (S k) = sumf f a k + f (a + k)%nat.
Proof. unfold sumf. rewrite seq_S, fold_left_app. reflexivity. Qed.
Lemma sumf_0 f a : sumf f a 0 = 0. Proof. reflexivity. Qed.
Lemma sumf_ext f g a k : (forall i, (a <= i < a + k)%nat -> f i = g i) -> sumf f a k = sumf g a k.
Proof.
  induction k; intros H; auto. rewrite !sumf_S, IHk, H; auto; try lia. intros; apply H; lia.
Qed.
Lemma sumf_shift f k : sumf f 1 k = sumf (fun i => f (S i)) 0 k.
Proof. induction k; auto. rewrite !sumf_S, IHk. reflexivity. Qed.

Lemma chain n bs kp F (x d o m : nat -> R) N :
  n <> 0 ->
  (forall j, (j < N)%nat -> x j <= x (S j)) ->
  (forall j, (0 < j < N)%nat -> In (x j) bs) ->
  (forall j, (j < N)%nat -> good n bs kp F (x j) (x (S j)) (m j)) ->
  (forall j, (j < N)%nat -> n^2 * o j = (x (S j) ^2 - n^2) * d j + m j) ->
  (N > 0)%nat ->
  x 0%nat <= x N /\ good n bs kp F (x 0%nat) (x N) (sumf m 0 N) /\
  n^2 * sumf (fun j => o j + sumf d 0 j * (x (S j) ^2 - x j ^2) / n^2) 0 N
   = (x N ^2 - n^2) * sumf d 0 N + sumf m 0 N.
Proof.
  intros Hn0 Hx Hb Hg Ho. induction N as [|N IH]; [lia|]. intros _.
  destruct N as [|N].
  - split; [apply Hx; lia|]. split.
    + rewrite sumf_S, sumf_0. rewrite Rplus_0_l. apply Hg; lia.
    + rewrite !sumf_S. cbn [Nat.add]. rewrite !sumf_0, !Rplus_0_l.
      rewrite Rmult_plus_distr_l, Ho by lia. field. auto.
  - destruct IH as [I1 [I2 I3]]; try lia; try (intros; apply Hx; lia);
      try (intros; apply Hb; lia); try (intros; apply Hg; lia); try (intros; apply Ho; lia).
    assert (X : x (S N) <= x (S (S N))) by (apply Hx; lia).
    split; [lra|]. split.
    + rewrite sumf_S. apply good_glue with (x (S N)); [lra| |auto|apply Hg; lia].
      left. apply Hb; lia.
    + rewrite (sumf_S _ 0 (S N)), Rmult_plus_distr_l, I3. cbn [Nat.add].
      rewrite Rmult_plus_distr_l, Ho by lia. rewrite (sumf_S d 0 (S N)), (sumf_S m 0 (S N)).
      cbn [Nat.add]. field. auto.
Qed.

(** ** Ordered arrays *)
Lemma diff_lt s : any_diff_nonpos s = false ->
  forall i, (S i < length s)%nat -> ix s i < ix s (S i).
Proof.
  unfold any_diff_nonpos, diff, ix. induction s as [|a [|b t] IH]; intros H i Hi; cbn in Hi; try lia.
  cbn [pairs map existsb] in H. apply orb_false_iff in H. destruct H as [H1 H2].
  destruct i as [|i].
  - cbn. apply Rleb_false in H1. cbn in H1. lra.
  - change (nth i (b :: t) 0 < nth (S i) (b :: t) 0). apply IH; auto. cbn. lia.
Qed.

Lemma diff_le s : any_diff_neg s = false ->
  forall i, (S i < length s)%nat -> ix s i <= ix s (S i).
Proof.
  unfold any_diff_neg, diff, ix. induction s as [|a [|b t] IH]; intros H i Hi; cbn in Hi; try lia.
  cbn [pairs map existsb] in H. apply orb_false_iff in H. destruct H as [H1 H2].
  destruct i as [|i].
  - cbn. apply Rltb_false in H1. cbn in H1. lra.
  - change (nth i (b :: t) 0 <= nth (S i) (b :: t) 0). apply IH; auto. cbn. lia.
Qed.

Lemma diff_lt_of s : (forall i, (S i < length s)%nat -> ix s i < ix s (S i)) ->
  any_diff_nonpos s = false.
Proof.
  unfold any_diff_nonpos, diff, ix. induction s as [|a [|b t] IH]; intros H; auto.
  cbn [pairs map existsb]. apply orb_false_iff. split.
  - apply Rleb_false. cbn. specialize (H 0%nat ltac:(cbn; lia)). cbn in H. lra.
  - apply IH. intros i Hi. apply (H (S i)). cbn in *; lia.
Qed.
Lemma diff_le_of s : (forall i, (S i < length s)%nat -> ix s i <= ix s (S i)) ->
  any_diff_neg s = false.
Proof.
  unfold any_diff_neg, diff, ix. induction s as [|a [|b t] IH]; intros H; auto.
  cbn [pairs map existsb]. apply orb_false_iff. split.
  - apply Rltb_false. cbn. specialize (H 0%nat ltac:(cbn; lia)). cbn in H. lra.
  - apply IH. intros i Hi. apply (H (S i)). cbn in *; lia.
Qed.

Lemma mono_lt (s : list R) : (forall i, (S i < length s)%nat -> ix s i < ix s (S i)) ->
  forall i j, (i < j < length s)%nat -> ix s i < ix s j.
Proof.
  intros H i j. induction j as [|j IH]; intros Hj; [lia|].
  destruct (Nat.eq_dec i j) as [->|]; [apply H; lia|].
  eapply Rlt_trans; [apply IH; lia|apply H; lia].
Qed.
Lemma mono_le (s : list R) : (forall i, (S i < length s)%nat -> ix s i <= ix s (S i)) ->
  forall i j, (i <= j < length s)%nat -> ix s i <= ix s j.
Proof.
  intros H i j. induction j as [|j IH]; intros Hj; [replace i with 0%nat by lia; lra|].
  destruct (Nat.eq_dec i (S j)) as [->|]; [lra|].
  eapply Rle_trans; [apply IH; lia|apply H; lia].
Qed.

Lemma searchsorted_is s x : forall i, (i <= length s)%nat ->
  (forall j, (j < i)%nat -> ix s j < x) -> (forall j, (i <= j < length s)%nat -> x <= ix s j) ->
  searchsorted s x = i.
Proof.
  unfold searchsorted, ix. induction s as [|a t IH]; intros i Hi H1 H2.
  - cbn in *. lia.
  - cbn [filter]. destruct i as [|i].
    + rewrite Rltb_f by (apply (H2 0%nat); cbn; lia).
      rewrite (IH 0%nat); auto; try lia.
      intros j Hj. apply (H2 (S j)). cbn; lia.
    + rewrite Rltb_t by (apply (H1 0%nat); lia). cbn [length]. f_equal.
      apply IH; [cbn in Hi; lia| |].
      * intros j Hj. apply (H1 (S j)). lia.
      * intros j Hj. apply (H2 (S j)). cbn; lia.
Qed.

Lemma any_false f l : any f l = false -> forall i, (i < length l)%nat -> f (ix l i) = false.
Proof.
  unfold any, ix. intros H i Hi. destruct (f (nth i l 0)) eqn:E; auto.
  assert (existsb f l = true); [|congruence].
  apply existsb_exists. exists (nth i l 0). split; auto. apply nth_In; auto.
Qed.
Lemma any_false_of f l : (forall i, (i < length l)%nat -> f (ix l i) = false) -> any f l = false.
Proof.
  intros H. unfold any. destruct (existsb f l) eqn:E; auto.
  apply existsb_exists in E. destruct E as [v [Hv E]].
  apply (In_nth _ _ 0) in Hv. destruct Hv as [i [Hi <-]]. unfold ix in H. rewrite H in E; auto.
Qed.

(** ** Piecewise constant *)
(** The arrays the code works on after validation. *)
Record pwc_ok (s kap : list R) : Prop := {
  pc_len : length s = length kap;
  pc_ne : (0 < length s)%nat;
  pc_s : forall i, (i < length s)%nat -> 1 < ix s i;
  pc_k : forall i, (i < length s)%nat -> 0 < ix kap i;
  pc_inc : forall i, (S i < length s)%nat -> ix s i < ix s (S i)
}.

Lemma removelast_ix (s : list R) i : (i < length s)%nat ->
  ix (1 :: removelast s) i = ix (1 :: s) i.
Proof.
  unfold ix. destruct i as [|i]; auto. cbn [nth]. revert i.
  induction s as [|a t IH]; intros i Hi; cbn in Hi; [lia|].
  destruct t as [|b t]; [cbn in Hi; lia|].
  change (removelast (a :: b :: t)) with (a :: removelast (b :: t)).
  destruct i; auto. cbn [nth]. apply IH. cbn in *; lia.
Qed.

Section PWC.
Variables (s kap : list R).
Hypothesis OK : pwc_ok s kap.
Let N := length s.
Let n := ix s (length s - 1).
Let X := fun j => ix (1 :: s) j.
Let Fp := fun x => u_pwc_raw s kap 0 x.
Let dd := fun j => ix kap j * (phi_c n (X (S j)) - phi_c n (X j)).
Let mm := fun j => ix kap j * L_c n (X (S j)) - ix kap j * L_c n (X j).
Let oo := fun i => ix kap i * (X (S i) ^2 / n^2 * ln (X (S i) / X i)
        - / 2 * (X (S i) ^2 / n^2 - X i ^2 / n^2)
        - / 4 * (X (S i) ^2 - X i ^2)^2 / n^4).

Lemma pwc_n : 1 < n.
Proof. destruct OK. apply pc_s0. lia. Qed.

Lemma pwc_Xn : X N = n.
Proof.
  destruct OK. unfold X, ix, N, n, ix.
  destruct (length s) as [|k] eqn:E; [lia|]. cbn [nth].
  replace (S k - 1)%nat with k by lia. reflexivity.
Qed.

Lemma pwc_Xlt j : (j < N)%nat -> X j < X (S j).
Proof.
  intros Hj. destruct OK. unfold X. destruct j as [|j].
  - change (1 < ix s 0). apply pc_s0. lia.
  - change (ix s j < ix s (S j)). apply pc_inc0. exact Hj.
Qed.
Lemma pwc_Xmono i j : (i < j <= N)%nat -> X i < X j.
Proof.
  induction j as [|j IH]; intros Hj; [lia|].
  destruct (Nat.eq_dec i j) as [->|]; [apply pwc_Xlt; lia|].
  eapply Rlt_trans; [apply IH; lia|apply pwc_Xlt; lia].
Qed.
Lemma pwc_X1 j : (j <= N)%nat -> 1 <= X j.
Proof.
  intros Hj. destruct j; [cbn; lra|]. left. change 1 with (X 0%nat). apply pwc_Xmono. lia.
Qed.

Lemma pwc_psi_is j : (j < N)%nat ->
  pwc_psi_term s (1 :: removelast s) kap n j = dd j.
Proof.
  intros Hj. unfold pwc_psi_term, dd. rewrite removelast_ix by exact Hj.
  change (ix s j) with (X (S j)). fold (X j).
  pose proof (pwc_X1 j ltac:(lia)). pose proof (pwc_Xlt j Hj). pose proof pwc_n.
  rewrite ln_div by lra. unfold phi_c. field. lra.
Qed.

Lemma pwc_psi_sum i : (i <= N)%nat ->
  fold_left (fun psi j => psi + pwc_psi_term s (1 :: removelast s) kap n j) (seq 0 i) 0
  = sumf dd 0 i.
Proof.
  intros Hi. change (sumf (fun j => pwc_psi_term s (1 :: removelast s) kap n j) 0 i = sumf dd 0 i).
  apply sumf_ext. intros j Hj. apply pwc_psi_is. lia.
Qed.

Lemma pwc_raw_seg i x : (i < N)%nat -> X i < x <= X (S i) ->
  Fp x = ix kap i * (phi_c n x - phi_c n (X i)) + sumf dd 0 i.
Proof.
  intros Hi Hx. unfold Fp, u_pwc_raw. fold n.
  assert (E : searchsorted s x = i).
  { apply searchsorted_is; [unfold N in Hi; lia| |].
    - intros j Hj. apply Rle_lt_trans with (X i); [|lra].
      change (ix s j) with (X (S j)).
      destruct (Nat.eq_dec (S j) i) as [->|]; [lra|]. left. apply pwc_Xmono. lia.
    - intros j Hj. apply Rle_trans with (X (S i)); [lra|].
      change (ix s j) with (X (S j)).
      destruct (Nat.eq_dec i j) as [->|]; [lra|]. left. apply pwc_Xmono. unfold N; lia. }
  rewrite E. rewrite pwc_psi_sum by lia. rewrite removelast_ix by exact Hi. fold (X i).
  pose proof (pwc_X1 i ltac:(lia)). pose proof pwc_n.
  assert (0 < ix kap i) by (destruct OK; apply pc_k0; exact Hi).
  rewrite ln_div by lra. unfold phi_c. field. lra.
Qed.

Lemma pwc_raw_at j : (j <= N)%nat -> (0 < N)%nat -> Fp (X j) = sumf dd 0 j.
Proof.
  intros Hj HN. destruct j as [|j].
  - rewrite sumf_0. unfold Fp, u_pwc_raw. fold n. change (X 0%nat) with 1.
    assert (E : searchsorted s 1 = 0%nat).
    { apply searchsorted_is; [lia| |]; intros j Hj2; [lia|].
      left. destruct OK; apply pc_s0. unfold N in *; lia. }
    rewrite E. change (ix (1 :: removelast s) 0) with 1.
    replace (1 / 1) with 1 by field. rewrite ln_1. cbn [seq fold_left].
    assert (0 < ix kap 0) by (destruct OK; apply pc_k0; exact HN).
    pose proof pwc_n. field. lra.
  - rewrite (pwc_raw_seg j) by (try lia; pose proof (pwc_Xlt j ltac:(lia)); lra).
    rewrite sumf_S. cbn [Nat.add]. unfold dd. ring.
Qed.

Lemma pwc_raw_closed i x : (i < N)%nat -> X i <= x <= X (S i) ->
  Fp x = ix kap i * phi_c n x + (sumf dd 0 i - ix kap i * phi_c n (X i)).
Proof.
  intros Hi [[H|<-] H2].
  - rewrite (pwc_raw_seg i) by (auto; lra). ring.
  - rewrite pwc_raw_at by lia. ring.
Qed.

Lemma k_pwc_gen (s0 k0 : list R) i x :
  length s0 = length k0 -> (i < length s0)%nat ->
  (forall j, (j < i)%nat -> ix s0 j <= x) -> x < ix s0 i -> k_pwc s0 k0 x = / ix k0 i.
Proof.
  revert k0 i. induction s0 as [|a t IH]; intros [|b k0] i Hl Hi H1 H2; cbn in Hl, Hi; try lia.
  cbn [k_pwc]. destruct i as [|i].
  - unfold ix in H2; cbn in H2. destruct (Rlt_dec x a); [reflexivity|lra].
  - assert (a <= x) by (apply (H1 0%nat); lia).
    destruct (Rlt_dec x a); [lra|]. unfold ix in *; cbn [nth] in *.
    apply IH; try lia; auto. intros j Hj. apply (H1 (S j)). lia.
Qed.

Lemma pwc_kp i x : (i < N)%nat -> X i < x < X (S i) -> / k_pwc s kap x = ix kap i.
Proof.
  intros Hi Hx. rewrite (k_pwc_gen s kap i); auto.
  - apply Rinv_inv.
  - destruct OK; auto.
  - intros j Hj. left. eapply Rle_lt_trans; [|apply (proj1 Hx)].
    change (ix s j) with (X (S j)). destruct (Nat.eq_dec (S j) i) as [->|]; [lra|].
    left; apply pwc_Xmono; lia.
  - exact (proj2 Hx).
Qed.

Lemma pwc_main :
  good n s (fun x => / k_pwc s kap x) Fp 1 n (mu_pwc_value s kap * (n^2 - 1)) /\ Fp 1 = 0.
Proof.
  pose proof pwc_n as Hn. assert (HN : (0 < N)%nat) by (destruct OK; auto).
  split; [|change 1 with (X 0%nat); rewrite pwc_raw_at by lia; reflexivity].
  destruct (chain n s (fun x => / k_pwc s kap x) Fp X dd oo mm N) as [_ [G E]]; auto; try lra.
  - intros j Hj. left; apply pwc_Xlt; auto.
  - intros j Hj. unfold X, ix. destruct j; [lia|]. cbn [nth]. apply nth_In. unfold N in Hj; lia.
  - intros j Hj. pose proof (pwc_X1 j ltac:(lia)). pose proof (pwc_Xlt j Hj).
    apply piece_c with (ix kap j) (sumf dd 0 j - ix kap j * phi_c n (X j)); auto; try lra.
    + intros x Hx. apply pwc_raw_closed; auto.
    + intros x Hx. apply (pwc_kp j); auto.
  - intros j Hj. unfold oo, dd, mm, L_c, phi_c.
    pose proof (pwc_X1 j ltac:(lia)). pose proof (pwc_Xlt j Hj).
    rewrite ln_div by lra. field. lra.
  - change (X 0%nat) with 1 in G. rewrite pwc_Xn in *.
    replace (mu_pwc_value s kap * (n ^ 2 - 1)) with (sumf mm 0 N); auto.
    rewrite Rminus_diag_eq in E by reflexivity. rewrite Rmult_0_l, Rplus_0_l in E. rewrite <- E.
    unfold mu_pwc_value. fold n N.
    assert (Q : sumf (fun j : nat => oo j + sumf dd 0 j * (X (S j) ^ 2 - X j ^ 2) / n ^ 2) 0 N
      = fold_left
    (fun (sumi : R) (i : nat) =>
     sumi +
     ix kap i *
     (ix s i ^ 2 / n ^ 2 * ln (ix s i / ix (1 :: removelast s) i) +
      (fold_left (fun (psi : R) (j : nat) => psi + pwc_psi_term s (1 :: removelast s) kap n j) (seq 0 i) 0 /
       ix kap i - / 2) * (ix s i ^ 2 / n ^ 2 - ix (1 :: removelast s) i ^ 2 / n ^ 2) -
      / 4 * (ix s i ^ 2 - ix (1 :: removelast s) i ^ 2) ^ 2 / n ^ 4)) (seq 0 N) 0).
    { unfold sumf at 1. change (fold_left ?f (seq 0 N) 0) with (fold_left f (seq 0 N) 0).
      match goal with |- _ = fold_left (fun a i => a + @?g i) _ _ => change (sumf (fun j : nat => oo j + sumf dd 0 j * (X (S j) ^ 2 - X j ^ 2) / n ^ 2) 0 N = sumf g 0 N) end.
      apply sumf_ext. intros i Hi. rewrite pwc_psi_sum by lia. rewrite removelast_ix by (unfold N in Hi; lia).
      fold (X i). change (ix s i) with (X (S i)). unfold oo.
      assert (0 < ix kap i) by (destruct OK; apply pc_k0; unfold N in Hi; lia).
      field. lra. }
    rewrite <- Q. field. pose proof (n2 n Hn). lra.
Qed.
End PWC.
