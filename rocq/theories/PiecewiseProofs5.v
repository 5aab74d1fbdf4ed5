(** * force_strictly_increasing moves points only a tiny amount *)
From Coq Require Import Reals List Arith ZArith Lia Lra Bool.
From Verif Require Import Base PiecewiseModel SpecPiecewise PiecewiseProofs PiecewiseProofs2.
Import ListNotations.
Open Scope R_scope.

Lemma add_at_moves (B : R) (x : list R) : forall i idx dx, 0 <= B -> Forall (fun d => Rabs d <= B) dx ->
  Forall2 (fun a b => Rabs (b - a) <= B) x (add_at i idx dx x).
Proof.
  induction x as [|v t IH]; intros i idx dx HB Hd; cbn [add_at]; [constructor|].
  assert (Hr : forall l, Forall2 (fun a b => Rabs (b - a) <= B) l l).
  { induction l; constructor; auto. replace (a - a) with 0 by ring. rewrite Rabs_R0. lra. }
  destruct idx as [|k ks]; [apply Hr|]. destruct dx as [|d ds]; [apply Hr|].
  destruct (Nat.eqb i k).
  - inversion Hd; subst. constructor; auto. cbn. replace (v + d - v) with d by ring. auto.
  - constructor; [|apply IH; auto]. replace (v - v) with 0 by ring. rewrite Rabs_R0. lra.
Qed.

Lemma fsi_steps_length (x : list R) : (length (fsi_steps x) <= length x)%nat.
Proof.
  unfold fsi_steps, where_. rewrite countb_where.
  assert (G : forall m, (countb m <= length m)%nat) by (induction m as [|[] m IHm]; cbn; lia).
  eapply Nat.le_trans; [apply G|]. unfold diff. rewrite !map_length, pairs_length. lia.
Qed.

Lemma fsi_shift_moves keep eps (x : list R) : 0 < eps ->
  Forall2 (fun a b => Rabs (b - a) <= INR (length x) * eps) x (fsi_shift keep eps x).
Proof.
  intros He. pose proof (fsi_steps_length x) as HL. pose proof (pos_INR (length x)) as HP.
  assert (B : forall k, (k <= length (fsi_steps x))%nat -> 0 <= INR k * eps <= INR (length x) * eps).
  { intros k Hk. pose proof (pos_INR k). assert (INR k <= INR (length x)) by (apply le_INR; lia). nra. }
  unfold fsi_shift. destruct keep; apply add_at_moves; try nra; apply Forall_forall; intros d Hd; apply in_map_iff in Hd;
   destruct Hd as (k & <- & Hk); apply in_seq in Hk.
  - change (nofZ (Z.of_nat (length (fsi_steps x) - k))) with (IZR (Z.of_nat (length (fsi_steps x) - k))). rewrite INR_IZR_nat. cbn [nmul NumR n1 nopp].
    replace (INR (length (fsi_steps x) - k) * (- (1) * eps)) with (- (INR (length (fsi_steps x) - k) * eps)) by ring.
    rewrite Rabs_Ropp. destruct (B (length (fsi_steps x) - k)%nat); [lia|]. rewrite Rabs_right; lra.
  - change (nofZ (Z.of_nat (S k))) with (IZR (Z.of_nat (S k))). rewrite INR_IZR_nat. cbn [nmul NumR n1].
    rewrite Rmult_1_l. destruct (B (S k)); [lia|]. rewrite Rabs_right; lra.
Qed.

Lemma force_strictly_increasing_moves (x y : list R) keep eps x' y' :
  0 < eps -> force_strictly_increasing x y keep eps = Ok (x', y') ->
  (y' = y /\ Forall2 (fun a b => Rabs (b - a) <= INR (length x) * eps) x x') \/
  (non_increasing x = true /\ y' = rev y /\ Forall2 (fun a b => Rabs (b - a) <= INR (length x) * eps) (rev x) x').
Proof.
  intros He Hf. unfold force_strictly_increasing in Hf.
  assert (Hr : forall l : list R, Forall2 (fun a b => Rabs (b - a) <= INR (length x) * eps) l l).
  { induction l; constructor; auto. replace (a - a) with 0 by ring. rewrite Rabs_R0. pose proof (pos_INR (length x)). nra. }
  destruct (strictly_increasing x) eqn:H1; [inversion Hf; subst; auto|].
  destruct (strictly_decreasing x) eqn:H2.
  { inversion Hf; subst. right. repeat split; auto.
    clear - H2. unfold non_increasing, strictly_decreasing in *. rewrite forallb_forall in *. intros d Hd. specialize (H2 d Hd).
    cbn [nleb nltb NumR n0] in *. apply Rltb_true in H2. apply Rleb_true. lra. }
  destruct (non_increasing x) eqn:H3.
  - rewrite (non_increasing_rev x H3) in Hf. cbn in Hf. inversion Hf; subst. right. repeat split; auto.
    rewrite <- (rev_length x). apply fsi_shift_moves; auto.
  - destruct (non_decreasing x) eqn:H4; cbn in Hf; [|discriminate]. inversion Hf; subst. left. split; auto. apply fsi_shift_moves; auto.
Qed.

(** It returns for every monotone input and raises otherwise. *)
Lemma force_strictly_increasing_returns (x y : list R) keep eps :
  (exists r, force_strictly_increasing x y keep eps = Ok r) <-> (non_decreasing x = true \/ non_increasing x = true).
Proof.
  unfold force_strictly_increasing.
  destruct (strictly_increasing x) eqn:H1.
  { split; [intros _; left|intros _; eexists; reflexivity].
    unfold non_decreasing, strictly_increasing in *. rewrite forallb_forall in *. intros d Hd. specialize (H1 d Hd).
    cbn [nleb nltb NumR n0] in *. apply Rltb_true in H1. apply Rleb_true. lra. }
  destruct (strictly_decreasing x) eqn:H2.
  { split; [intros _; right|intros _; eexists; reflexivity].
    unfold non_increasing, strictly_decreasing in *. rewrite forallb_forall in *. intros d Hd. specialize (H2 d Hd).
    cbn [nleb nltb NumR n0] in *. apply Rltb_true in H2. apply Rleb_true. lra. }
  destruct (non_increasing x) eqn:H3.
  - rewrite (non_increasing_rev x H3). cbn. split; [auto|eauto].
  - destruct (non_decreasing x) eqn:H4; cbn.
    + split; eauto.
    + split; [intros (r & ?); discriminate|intros [|]; discriminate].
Qed.
