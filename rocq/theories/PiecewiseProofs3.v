(** * Classification of segments, monotone parts, initial direction *)
From Coq Require Import Reals List ZArith Bool Arith Lia Lra Sorted.
From Coquelicot Require Import Coquelicot.
From Verif Require Import Base PiecewiseModel SpecPiecewise PiecewiseProofs PiecewiseProofs2.
Import ListNotations.
Open Scope R_scope.

Lemma where_from_sorted k m : StronglySorted lt (where_from k m).
Proof.
  revert k; induction m as [|[] t IH]; intros k; cbn; [constructor| |apply IH].
  constructor; [apply IH|]. apply Forall_forall. intros i Hi. apply where_from_ge in Hi. lia.
Qed.

Lemma diff_length (x : list R) : length (diff x) = (length x - 1)%nat.
Proof. unfold diff. rewrite map_length, pairs_length. reflexivity. Qed.

Lemma diff_nth_error (x : list R) i : (S i < length x)%nat ->
  nth_error (diff x) i = Some (at_ x (S i) - at_ x i).
Proof.
  intros Hi. unfold diff.
  rewrite (map_nth_error _ i (pairs x) (d := (at_ x i, at_ x (S i)))); [reflexivity|].
  unfold at_. rewrite <- (pairs_nth x i 0) by auto.
  apply nth_error_nth'. rewrite pairs_length; lia.
Qed.

Lemma diff_nth_error_None (x : list R) i : (length x <= S i)%nat -> nth_error (diff x) i = None.
Proof. intros Hi. apply nth_error_None. rewrite diff_length. lia. Qed.

Lemma combine_nth_error {S T} (l : list S) (m : list T) i a b :
  nth_error l i = Some a -> nth_error m i = Some b -> nth_error (combine l m) i = Some (a, b).
Proof.
  revert m i; induction l as [|u l IH]; intros [|w m] [|i] H1 H2; cbn in *; try discriminate.
  - inversion H1; inversion H2; subst; auto.
  - apply IH; auto.
Qed.

Lemma where_masks2_In (f : R -> R -> bool) x y i : length x = length y ->
  In i (where_ (masks2 f x y)) <->
  (S i < length x)%nat /\ f (at_ x (S i) - at_ x i) (at_ y (S i) - at_ y i) = true.
Proof.
  intros Hl. rewrite where_In. unfold masks2.
  destruct (le_lt_dec (length x) (S i)) as [Hge|Hlt].
  - split.
    + intros H. apply nth_error_In in H as H'. exfalso.
      assert (i < length (map (fun p => f (fst p) (snd p)) (combine (diff x) (diff y))))%nat
        by (apply nth_error_Some; congruence).
      rewrite map_length, combine_length, diff_length in H0. lia.
    + intros [H _]; lia.
  - rewrite (map_nth_error _ _ _ (combine_nth_error _ _ _ _ _
      (diff_nth_error x i Hlt) (diff_nth_error y i ltac:(lia)))).
    cbn. split; [intros H; inversion H; auto|intros [_ ->]; auto].
Qed.

Lemma where_mask_In (f : R -> bool) x i :
  In i (where_ (map f (diff x))) <->
  (S i < length x)%nat /\ f (at_ x (S i) - at_ x i) = true.
Proof.
  rewrite where_In.
  destruct (le_lt_dec (length x) (S i)) as [Hge|Hlt].
  - split.
    + intros H. exfalso.
      assert (i < length (map f (diff x)))%nat by (apply nth_error_Some; congruence).
      rewrite map_length, diff_length in H0. lia.
    + intros [H _]; lia.
  - rewrite (map_nth_error _ _ _ (diff_nth_error x i Hlt)).
    split; [intros H; inversion H; auto|intros [_ ->]; auto].
Qed.

Lemma np_delete_nil a : np_delete a [] = Ok a.
Proof.
  unfold np_delete. cbn [forallb]. f_equal.
  replace (filter (fun p : nat * nat => negb (existsb (Nat.eqb (fst p)) [])) (combine (seq 0 (length a)) a))
    with (combine (seq 0 (length a)) a).
  - generalize 0%nat. induction a as [|v t IH]; intros k; cbn; auto. f_equal. apply IH.
  - generalize (combine (seq 0 (length a)) a). induction l as [|p l IHl]; cbn; auto. f_equal; auto.
Qed.

Lemma In_nil_eq {T} (l : list T) : (forall i, ~ In i l) -> l = [].
Proof. destruct l as [|a t]; auto. intros H. exfalso; apply (H a); left; auto. Qed.

Lemma classification_partial (x y : list R) :
  length x = length y ->
  (forall i, (S i < length x)%nat -> ~ (at_ x i = at_ x (S i) /\ at_ y i = at_ y (S i))) ->
  exists r c s, ramps_constants_steps x y = Ok (r, c, s) /\
    (StronglySorted lt r /\ StronglySorted lt c /\ StronglySorted lt s) /\
    forall i,
      (In i s <-> (S i < length x)%nat /\ at_ x i = at_ x (S i)) /\
      (In i c <-> (S i < length x)%nat /\ at_ x i <> at_ x (S i) /\ at_ y i = at_ y (S i)) /\
      (In i r <-> (S i < length x)%nat /\ at_ x i <> at_ x (S i) /\ at_ y i <> at_ y (S i)).
Proof.
  intros Hl Hnull.
  assert (Enil : where_ (masks2 (fun dx dy => Reqb dx 0 && Reqb dy 0) x y) = []).
  { apply In_nil_eq. intros i Hi. apply where_masks2_In in Hi; auto.
    destruct Hi as [Hi Hb]. rewrite andb_true_iff, !Reqb_true in Hb.
    apply (Hnull i Hi). lra. }
  unfold ramps_constants_steps, start_index_of_ramps, start_index_of_constants, start_index_of_steps.
  rewrite Hl, Nat.eqb_refl. cbn [negb bind].
  change (masks2 (fun dx dy : R => neqb dx n0 && neqb dy n0) x y)
    with (masks2 (fun dx dy : R => Reqb dx 0 && Reqb dy 0) x y).
  rewrite Enil, !np_delete_nil. cbn [bind].
  do 3 eexists. split; [reflexivity|]. split.
  { repeat split; apply where_from_sorted. }
  intros i. split; [|split].
  - rewrite where_mask_In. cbn. rewrite Reqb_true, Hl. split; intros [H1 H2]; split; auto; lra.
  - rewrite where_mask_In. cbn. rewrite Reqb_true, <- Hl. split.
    + intros [H1 H2]. split; auto. split; [|lra]. intros He. apply (Hnull i); auto. split; auto; lra.
    + intros (H1 & H2 & H3). split; auto; lra.
  - rewrite where_masks2_In by auto. cbn. rewrite andb_true_iff, !negb_true_iff, !Reqb_false, <- Hl.
    split.
    + intros (H1 & H2 & H3). repeat split; auto; lra.
    + intros (H1 & H2 & H3). repeat split; auto; lra.
Qed.

(** ** is_initially_increasing *)
Lemma is_initially_increasing_partial (x : list R) :
  (2 <= length x)%nat -> at_ x 0 <> at_ x 1 ->
  exists b, is_initially_increasing x = Ok b /\ (b = true <-> at_ x 0 < at_ x 1).
Proof.
  intros Hl Hne. unfold is_initially_increasing.
  rewrite (get_lt x 1 0), (get_lt x 0 0) by lia. cbn [bind].
  fold (at_ x 0) (at_ x 1). cbn [neqb nltb NumR].
  rewrite (proj2 (Reqb_false _ _)) by auto. cbn [negb].
  eexists; split; [reflexivity|]. apply Rltb_true.
Qed.

(** When the first two values coincide the answer is True whatever follows. *)
Lemma is_initially_increasing_step (x : list R) :
  (2 <= length x)%nat -> at_ x 0 = at_ x 1 ->
  (exists i, (S i < length x)%nat /\ at_ x i <> at_ x (S i)) ->
  is_initially_increasing x = Ok true.
Proof.
  intros Hl He [i [Hi Hne]]. unfold is_initially_increasing.
  rewrite (get_lt x 1 0), (get_lt x 0 0) by lia. cbn [bind].
  fold (at_ x 0) (at_ x 1). cbn [neqb NumR].
  rewrite (proj2 (Reqb_true _ _)) by auto. cbn [negb].
  set (w := where_ (map (fun d : R => negb (Reqb d n0)) (diff x))).
  assert (Hin : In i w).
  { unfold w. rewrite where_mask_In. cbn. rewrite negb_true_iff, Reqb_false. split; auto. lra. }
  assert (Hw : forall k, In k w -> (0 < k)%nat).
  { intros k Hk. unfold w in Hk. rewrite where_mask_In in Hk. cbn in Hk.
    rewrite negb_true_iff, Reqb_false in Hk. destruct k; [exfalso; lra|lia]. }
  destruct w as [|k ks]; [inversion Hin|]. cbn.
  specialize (Hw k (or_introl eq_refl)). destruct k; [lia|reflexivity].
Qed.

(** ** Monotone parts *)
Definition sgn (x : list R) (k : nat) : Z := nsign (at_ x (S k) - at_ x k).

Lemma nsign_cases (d : R) :
  (nsign d = 1%Z /\ 0 < d) \/ (nsign d = (-1)%Z /\ d < 0) \/ (nsign d = 0%Z /\ d = 0).
Proof.
  unfold nsign. cbn.
  destruct (Rltb 0 d) eqn:H1; [left; split; auto; apply Rltb_true; auto|].
  destruct (Rltb d 0) eqn:H2; [right; left; split; auto; apply Rltb_true; auto|].
  right; right. apply Rltb_false in H1, H2. split; auto; lra.
Qed.

Definition same_dir (x : list R) (cs : Z) (p : list nat) : Prop :=
  forall k, In k p -> sgn x k = 0%Z \/ sgn x k = cs.

(** Invariant of the loop (without end points). *)
Lemma parts_loop_inv x signs i cs done cur :
  (forall k, (k < length signs)%nat -> nth_error signs k = Some (sgn x (i + k)%nat)) ->
  concat (rev (cur :: done)) = seq 0 i -> cur <> [] ->
  same_dir x cs cur -> (cs = 1%Z \/ cs = (-1)%Z) ->
  List.Forall (fun p => p <> [] /\ (same_dir x 1 p \/ same_dir x (-1) p)) done ->
  forall done' cur', parts_loop false i signs cs done cur = (done', cur') ->
  concat (rev (cur' :: done')) = seq 0 (i + length signs) /\ cur' <> [] /\
  (same_dir x 1 cur' \/ same_dir x (-1) cur') /\
  List.Forall (fun p => p <> [] /\ (same_dir x 1 p \/ same_dir x (-1) p)) done'.
Proof.
  revert i cs done cur. induction signs as [|s t IH]; intros i cs done cur Hs Hcat Hne Hdir Hcs Hall done' cur' Hp.
  - cbn in Hp. inversion Hp; subst. rewrite Nat.add_0_r. repeat split; auto.
    destruct Hcs as [->| ->]; auto.
  - cbn in Hp.
    assert (Hs0 : s = sgn x i).
    { specialize (Hs 0%nat ltac:(cbn; lia)). cbn in Hs. rewrite Nat.add_0_r in Hs. inversion Hs; auto. }
    assert (Hst : forall k, (k < length t)%nat -> nth_error t k = Some (sgn x (S i + k)%nat)).
    { intros k Hk. specialize (Hs (S k) ltac:(cbn; lia)). cbn in Hs.
      replace (S i + k)%nat with (i + S k)%nat by lia. auto. }
    assert (Hsv : s = 1%Z \/ s = (-1)%Z \/ s = 0%Z).
    { rewrite Hs0. unfold sgn. destruct (nsign_cases (at_ x (S i) - at_ x i)) as [[-> _]|[[-> _]|[-> _]]]; auto. }
    destruct (andb (negb (Z.eqb s 0)) (negb (Z.eqb s cs))) eqn:Hb.
    + apply andb_true_iff in Hb. rewrite !negb_true_iff, !Z.eqb_neq in Hb.
      cbn [length]. replace (i + S (length t))%nat with (S i + length t)%nat by lia.
      eapply IH; [exact Hst| | | | | |exact Hp].
      * cbn [rev]. rewrite concat_app. cbn [rev] in Hcat. rewrite Hcat. cbn [concat].
        rewrite seq_S. reflexivity.
      * discriminate.
      * intros k [<-|[]]. right; auto.
      * destruct Hsv as [->|[->| ->]]; auto; tauto.
      * constructor; auto. split; auto. destruct Hcs as [->| ->]; auto.
    + cbn [length]. replace (i + S (length t))%nat with (S i + length t)%nat by lia.
      eapply IH; [exact Hst| | | |exact Hcs|exact Hall|exact Hp].
      * cbn [rev] in *. rewrite concat_app in *. cbn [concat] in *. rewrite !app_nil_r in *.
        rewrite app_assoc, Hcat, seq_S. reflexivity.
      * destruct cur; discriminate.
      * intros k Hk. apply in_app_iff in Hk. destruct Hk as [Hk|[<-|[]]]; auto.
        apply andb_false_iff in Hb. rewrite !negb_false_iff, !Z.eqb_eq in Hb.
        rewrite <- Hs0. tauto.
Qed.

(** With end points: every finished part just gains its end vertex. *)
Lemma parts_loop_incl i signs cs done cur d' c' :
  last cur 0%nat = (i - 1)%nat -> (1 <= i)%nat ->
  parts_loop false i signs cs done cur = (d', c') ->
  parts_loop true i signs cs (map endpt done) cur = (map endpt d', c').
Proof.
  revert i cs done cur; induction signs as [|s t IH]; intros i cs done cur Hl Hi Hp; cbn in *.
  - inversion Hp; subst; auto.
  - destruct (andb (negb (Z.eqb s 0)) (negb (Z.eqb s cs))).
    + apply IH in Hp; [|cbn; lia|lia]. cbn [map] in Hp.
      rewrite <- Hp. unfold endpt at 2. rewrite Hl. replace (S (i - 1)) with i by lia. reflexivity.
    + apply IH in Hp; [|rewrite last_last; lia|lia]. auto.
Qed.

Lemma parts_spec (x : list R) :
  (exists i, (S i < length x)%nat /\ at_ x i <> at_ x (S i)) ->
  exists ps, non_increasing_and_non_decreasing_parts x false = Ok ps /\
    non_increasing_and_non_decreasing_parts x true = Ok (map endpt ps) /\
    concat ps = seq 0 (length x - 1) /\
    List.Forall (fun p => p <> [] /\
      ((forall k, In k p -> at_ x k <= at_ x (S k)) \/
       (forall k, In k p -> at_ x (S k) <= at_ x k))) ps.
Proof.
  intros [i0 [Hi0 Hne0]].
  unfold non_increasing_and_non_decreasing_parts.
  set (signs := map nsign (diff x)).
  assert (Hsl : length signs = (length x - 1)%nat) by (unfold signs; rewrite map_length, diff_length; auto).
  assert (Hsn : forall k, (S k < length x)%nat -> nth_error signs k = Some (sgn x k)).
  { intros k Hk. unfold signs, sgn. apply map_nth_error. apply diff_nth_error; auto. }
  set (w := where_ (map (fun s => negb (Z.eqb s 0)) signs)).
  assert (Hw : forall k, In k w <-> (S k < length x)%nat /\ sgn x k <> 0%Z).
  { intros k. unfold w. rewrite where_In. split.
    - intros H. assert (Hlt : (k < length signs)%nat).
      { assert (k < length (map (fun s => negb (Z.eqb s 0)) signs))%nat by (apply nth_error_Some; congruence).
        rewrite map_length in H0; auto. }
      assert (Hk : (S k < length x)%nat) by lia.
      rewrite (map_nth_error _ _ _ (Hsn k Hk)) in H. inversion H. split; auto.
      apply negb_true_iff in H1. apply Z.eqb_neq in H1. auto.
    - intros [Hk Hz]. rewrite (map_nth_error _ _ _ (Hsn k Hk)). f_equal.
      apply negb_true_iff, Z.eqb_neq; auto. }
  assert (Hsorted : StronglySorted lt w) by apply where_from_sorted.
  assert (Hin0 : In i0 w).
  { apply Hw. split; auto. unfold sgn. destruct (nsign_cases (at_ x (S i0) - at_ x i0)) as [[-> _]|[[-> _]|[_ H]]];
      try discriminate. exfalso; lra. }
  destruct w as [|k ks] eqn:Ew; [inversion Hin0|].
  assert (Hk : (S k < length x)%nat /\ sgn x k <> 0%Z) by (apply Hw; left; auto).
  assert (Hkmin : forall j, (j < k)%nat -> sgn x j = 0%Z).
  { intros j Hj. destruct (Z.eq_dec (sgn x j) 0) as [|Hz]; auto. exfalso.
    assert (Hinj : In j (k :: ks)) by (apply Hw; split; auto; lia).
    inversion Hsorted as [|? ? ? Hfa]; subst. destruct Hinj as [->|Hinj]; [lia|].
    rewrite Forall_forall in Hfa. specialize (Hfa j Hinj). lia. }
  cbn [get nth_error bind]. unfold get. cbn [nth_error bind]. rewrite (Hsn k) by tauto. cbn [bind].
  set (cs := sgn x k).
  assert (Hcs : cs = 1%Z \/ cs = (-1)%Z).
  { unfold cs, sgn. destruct (nsign_cases (at_ x (S k) - at_ x k)) as [[-> _]|[[-> _]|[E _]]]; auto.
    destruct Hk as [_ Hk]. unfold sgn in Hk. tauto. }
  destruct (parts_loop false 1 (tl signs) cs [] [0%nat]) as [d' c'] eqn:Hp.
  assert (Hpos : (1 <= length signs)%nat) by lia.
  destruct (parts_loop_inv x (tl signs) 1 cs [] [0%nat]) with (done' := d') (cur' := c')
    as (Hcat & Hcne & Hdir & Hall); auto.
  { intros j Hj. destruct signs as [|s0 st]; [cbn in Hj; lia|]. cbn [tl] in *. cbn [length] in *.
    change (nth_error st j) with (nth_error (s0 :: st) (S j)). apply Hsn. lia. }
  { discriminate. }
  { intros j [<-|[]]. destruct k as [|k']; [right; reflexivity|left; apply Hkmin; lia]. }
  assert (Hlt : length (tl signs) = (length signs - 1)%nat) by (destruct signs; cbn; lia).
  rewrite Hlt, Hsl in Hcat. replace (1 + (length x - 1 - 1))%nat with (length x - 1)%nat in Hcat by lia.
  rewrite (get_last_nth c' 0%nat Hcne). cbn [bind].
  exists (rev (c' :: d')). split; [reflexivity|].
  assert (Hlast : nth (length c' - 1) c' 0%nat = last c' 0%nat).
  { destruct (exists_last Hcne) as [l' [a ->]]. rewrite last_last, app_length. cbn.
    replace (length l' + 1 - 1)%nat with (length l') by lia. apply nth_middle. }
  split.
  - pose proof (parts_loop_incl 1 (tl signs) cs [] [0%nat] d' c' eq_refl (le_n 1) Hp) as Hpi.
    cbn [map] in Hpi. rewrite Hpi. rewrite (get_last_nth c' 0%nat Hcne). cbn [bind].
    rewrite Hlast. rewrite map_rev. cbn [map]. reflexivity.
  - split; [exact Hcat|]. apply Forall_rev. constructor.
    + split; auto. destruct Hdir as [Hd|Hd]; [left|right]; intros j Hj; specialize (Hd j Hj);
        unfold sgn in Hd; destruct (nsign_cases (at_ x (S j) - at_ x j)) as [[E ?]|[[E ?]|[E ?]]];
        rewrite E in Hd; destruct Hd; try discriminate; lra.
    + eapply Forall_impl; [|exact Hall]. intros p [Hpne Hpd]. split; auto.
      destruct Hpd as [Hd|Hd]; [left|right]; intros j Hj; specialize (Hd j Hj);
        unfold sgn in Hd; destruct (nsign_cases (at_ x (S j) - at_ x j)) as [[E ?]|[[E ?]|[E ?]]];
        rewrite E in Hd; destruct Hd; try discriminate; lra.
Qed.
