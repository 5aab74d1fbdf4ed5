(** * Lemmas about the piecewise model over R *)
From Coq Require Import Reals List ZArith Bool Arith Lia Lra.
From Coquelicot Require Import Coquelicot.
From Verif Require Import Base PiecewiseModel SpecPiecewise.
Import ListNotations.
Open Scope R_scope.

(** ** Lists *)
Lemma filter_seq_head (p : nat -> bool) a n h t :
  filter p (seq a n) = h :: t ->
  p h = true /\ (a <= h < a + n)%nat /\ forall j, (a <= j < h)%nat -> p j = false.
Proof.
  revert a; induction n as [|n IH]; intros a Hf; cbn in Hf; [discriminate|].
  destruct (p a) eqn:Hp.
  - inversion Hf; subst. repeat split; auto; try lia.
  - apply IH in Hf. destruct Hf as (H1 & H2 & H3). repeat split; auto; try lia.
    intros j Hj. destruct (Nat.eq_dec j a) as [->|]; auto. apply H3; lia.
Qed.

Lemma filter_seq_nil (p : nat -> bool) a n :
  filter p (seq a n) = [] -> forall j, (a <= j < a + n)%nat -> p j = false.
Proof.
  intros Hf j Hj. destruct (p j) eqn:Hp; auto.
  assert (Hin : In j (filter p (seq a n))).
  { apply filter_In; split; auto. apply in_seq; lia. }
  rewrite Hf in Hin. inversion Hin.
Qed.

Lemma last_indep {T} (l : list T) d d' : l <> [] -> last l d = last l d'.
Proof.
  induction l as [|a [|b t] IH]; intros Hl; [congruence|reflexivity|].
  change (last (a :: b :: t) d) with (last (b :: t) d).
  change (last (a :: b :: t) d') with (last (b :: t) d').
  apply IH; discriminate.
Qed.

Lemma filter_seq_last (p : nat -> bool) a n d :
  filter p (seq a n) <> [] ->
  let m := last (filter p (seq a n)) d in
  p m = true /\ (a <= m < a + n)%nat /\ forall j, (m < j < a + n)%nat -> p j = false.
Proof.
  induction n as [|n IH]; intros Hf; [cbn in Hf; congruence|].
  cbn zeta. rewrite seq_S, filter_app in *. cbn [filter] in *.
  destruct (p (a + n)%nat) eqn:Hp.
  - rewrite last_last. repeat split; auto; try lia. 
  - rewrite app_nil_r in *. specialize (IH Hf). cbn zeta in IH.
    destruct IH as (H1 & H2 & H3). repeat split; auto; try lia.
    intros j Hj. destruct (Nat.eq_dec j (a + n)) as [->|]; auto. apply H3; lia.
Qed.

(** ** Segments *)
Definition maskb (x : list R) (v : R) (s : nat) : bool :=
  Rleb (Rabs (v - at_ x s)) (Rabs (at_ x s - at_ x (S s))) &&
  Rleb (Rabs (v - at_ x (S s))) (Rabs (at_ x s - at_ x (S s))) &&
  negb (Reqb (at_ x s) (at_ x (S s))).

Lemma seg_mask_eq x v s : (S s < length x)%nat -> seg_mask x v s = Ok (maskb x v s).
Proof.
  intros Hs. unfold seg_mask.
  rewrite (get_lt x s 0) by lia. cbn [bind].
  rewrite (get_lt x (S s) 0) by lia. cbn [bind].
  rewrite !nabs_R. reflexivity.
Qed.

Lemma abs_between a b v : a <> b ->
  (Rabs (v - a) <= Rabs (a - b) /\ Rabs (v - b) <= Rabs (a - b)) <->
  (Rmin a b <= v <= Rmax a b).
Proof.
  intros Hab. unfold Rmin, Rmax, Rabs.
  destruct (Rle_dec a b); repeat destruct Rcase_abs; split; intros; try lra.
Qed.

Lemma maskb_spec x v s : (S s < length x)%nat ->
  maskb x v s = true <-> in_segment x v s.
Proof.
  intros Hs. unfold maskb, in_segment.
  rewrite !andb_true_iff, negb_true_iff, !Rleb_true, Reqb_false.
  split.
  - intros [[H1 H2] H3]. split; auto. split; auto. apply abs_between; auto.
  - intros (_ & H3 & H4). pose proof (proj2 (abs_between _ _ v H3) H4). tauto.
Qed.

Lemma segment_containing1_eq x cm v :
  segment_containing1 x (all_segs x) cm v =
  Ok (match filter (maskb x v) (all_segs x) with
      | [] => []
      | h :: t => if cm then [last (h :: t) h] else [h]
      end).
Proof.
  unfold segment_containing1.
  rewrite (filterM_filter _ (maskb x v)).
  - cbn [bind]. destruct (filter (maskb x v) (all_segs x)); reflexivity.
  - intros s Hs. unfold all_segs in Hs. apply in_seq in Hs. apply seg_mask_eq; lia.
Qed.

(** Full characterisation of the segment search. *)
Lemma segment_containing1_spec x cm v :
  (segment_containing1 x (all_segs x) cm v = Ok [] /\ forall i, ~ in_segment x v i) \/
  (exists i, segment_containing1 x (all_segs x) cm v = Ok [i] /\ in_segment x v i /\
     forall j, in_segment x v j -> if cm then (j <= i)%nat else (i <= j)%nat).
Proof.
  rewrite segment_containing1_eq. unfold all_segs.
  destruct (filter (maskb x v) (seq 0 (length x - 1))) as [|h t] eqn:Hf.
  - left. split; auto. intros i Hi.
    assert (Hlt : (S i < length x)%nat) by apply Hi.
    apply maskb_spec in Hi; auto.
    rewrite (filter_seq_nil _ _ _ Hf i) in Hi by lia. discriminate.
  - right. destruct cm.
    + exists (last (h :: t) h). split; auto.
      assert (Hne : filter (maskb x v) (seq 0 (length x - 1)) <> []) by (rewrite Hf; discriminate).
      destruct (filter_seq_last _ _ _ h Hne) as (H1 & H2 & H3). rewrite Hf in H1, H2, H3.
      split; [apply maskb_spec; auto; lia|].
      intros j Hj. assert (Hlt : (S j < length x)%nat) by apply Hj.
      destruct (le_lt_dec j (last (h :: t) h)) as [|Hgt]; auto.
      apply maskb_spec in Hj; auto. rewrite H3 in Hj by lia. discriminate.
    + exists h. split; auto.
      destruct (filter_seq_head _ _ _ _ _ Hf) as (H1 & H2 & H3).
      split; [apply maskb_spec; auto; lia|].
      intros j Hj. assert (Hlt : (S j < length x)%nat) by apply Hj.
      destruct (le_lt_dec h j) as [|Hgt]; auto.
      apply maskb_spec in Hj; auto. rewrite H3 in Hj by lia. discriminate.
Qed.

(** ** Monotone lists *)
Lemma nondecr_le x : nondecr x -> forall i j, (i <= j)%nat -> (j < length x)%nat -> at_ x i <= at_ x j.
Proof.
  intros Hn i j Hij. induction Hij as [|j Hij IH]; intros Hj; [lra|].
  apply Rle_trans with (at_ x j); [apply IH; lia|apply Hn; lia].
Qed.

Lemma in_segment_nondecr x v i : nondecr x ->
  in_segment x v i <-> ((S i < length x)%nat /\ at_ x i < at_ x (S i) /\ at_ x i <= v <= at_ x (S i)).
Proof.
  intros Hn. unfold in_segment. split.
  - intros (H1 & H2 & H3). pose proof (Hn i H1) as H4.
    rewrite Rmin_left, Rmax_right in H3 by lra. repeat split; auto; lra.
  - intros (H1 & H2 & H3). rewrite Rmin_left, Rmax_right by lra. repeat split; auto; lra.
Qed.

(** ** Interpolation *)
Lemma interp1_in x y cm v i : length x = length y ->
  segment_containing1 x (all_segs x) cm v = Ok [i] -> (S i < length x)%nat ->
  interp1 x y cm v = Ok (chord x y i v).
Proof.
  intros Hl Hs Hi. unfold interp1. rewrite Hs. cbn [bind].
  rewrite (get_lt y i 0), (get_lt y (S i) 0), (get_lt x i 0), (get_lt x (S i) 0) by lia.
  cbn. unfold chord, at_, Rdiv. f_equal. ring.
Qed.

Lemma interp1_out x y cm v : length x = length y -> x <> [] ->
  segment_containing1 x (all_segs x) cm v = Ok [] ->
  interp1 x y cm v =
  Ok (if Rltb (Rabs (v - at_ x 0)) (Rabs (v - at_ x (length x - 1)))
      then at_ y 0 else at_ y (length y - 1)).
Proof.
  intros Hl Hx Hs. unfold interp1. rewrite Hs. cbn [bind].
  assert (Hy : y <> []) by (intros ->; destruct x; [congruence|discriminate]).
  assert (0 < length x)%nat by (destruct x; [congruence|cbn; lia]).
  rewrite (get_lt x 0 0) by lia. cbn [bind].
  rewrite (get_last_nth x 0) by auto. cbn [bind].
  rewrite !nabs_R. cbn [nltb NumR nsub]. fold (at_ x 0) (at_ x (length x - 1)).
  destruct (Rltb _ _).
  - apply get_lt; lia.
  - apply get_last_nth; auto.
Qed.

Lemma interp1_inside x y cm v i :
  length x = length y -> nondecr x -> (S i < length x)%nat ->
  at_ x i < v < at_ x (S i) -> interp1 x y cm v = Ok (chord x y i v).
Proof.
  intros Hl Hn Hi Hv.
  assert (Hin : in_segment x v i) by (apply in_segment_nondecr; auto; repeat split; auto; lra).
  destruct (segment_containing1_spec x cm v) as [[_ Hno]|[k (Hk & Hin' & _)]].
  - exfalso; apply (Hno i); auto.
  - assert (k = i).
    { apply in_segment_nondecr in Hin'; auto. destruct Hin' as (H1 & H2 & H3).
      destruct (lt_eq_lt_dec k i) as [[Hlt|]|Hlt]; auto; exfalso.
      - pose proof (nondecr_le x Hn (S k) i). assert (at_ x (S k) <= at_ x i) by (apply H; lia). lra.
      - pose proof (nondecr_le x Hn (S i) k). assert (at_ x (S i) <= at_ x k) by (apply H; lia). lra. }
    subst. apply interp1_in; auto.
Qed.

Lemma interp1_left x y cm v :
  length x = length y -> nondecr x -> x <> [] ->
  v < at_ x 0 -> at_ x 0 < at_ x (length x - 1) -> interp1 x y cm v = Ok (at_ y 0).
Proof.
  intros Hl Hn Hx Hv Hw.
  destruct (segment_containing1_spec x cm v) as [[H0 _]|[k (Hk & Hin' & _)]].
  - rewrite interp1_out; auto. rewrite (proj2 (Rltb_true _ _)); auto.
    rewrite !Rabs_left by lra. lra.
  - exfalso. apply in_segment_nondecr in Hin'; auto. destruct Hin' as (H1 & H2 & H3).
    assert (at_ x 0 <= at_ x k) by (apply nondecr_le; auto; lia). lra.
Qed.

Lemma interp1_right x y cm v :
  length x = length y -> nondecr x -> x <> [] ->
  at_ x (length x - 1) < v -> interp1 x y cm v = Ok (at_ y (length y - 1)).
Proof.
  intros Hl Hn Hx Hv.
  assert (Hpos : (0 < length x)%nat) by (destruct x; [congruence|cbn; lia]).
  assert (H0l : at_ x 0 <= at_ x (length x - 1)) by (apply nondecr_le; auto; lia).
  destruct (segment_containing1_spec x cm v) as [[H0 _]|[k (Hk & Hin' & _)]].
  - rewrite interp1_out; auto. rewrite (proj2 (Rltb_false _ _)); auto.
    rewrite !Rabs_right by lra. lra.
  - exfalso. apply in_segment_nondecr in Hin'; auto. destruct Hin' as (H1 & H2 & H3).
    assert (at_ x (S k) <= at_ x (length x - 1)) by (apply nondecr_le; auto; lia). lra.
Qed.

Lemma chord_within m M a b ya yb v :
  a <> b -> Rmin a b <= v <= Rmax a b -> m <= ya <= M -> m <= yb <= M ->
  m <= ya + (v - a) * (yb - ya) / (b - a) <= M.
Proof.
  intros Hab Hv Hya Hyb.
  assert (Ht : 0 <= (v - a) / (b - a) <= 1).
  { destruct (Rlt_or_le a b) as [Hlt|Hge].
    - rewrite Rmin_left, Rmax_right in Hv by lra.
      split; [apply Rdiv_le_0_compat; lra|].
      apply Rmult_le_reg_r with (b - a); [lra|]. unfold Rdiv. rewrite Rmult_assoc, Rinv_l; lra.
    - assert (Hlt : b < a) by lra. rewrite Rmin_right, Rmax_left in Hv by lra.
      replace ((v - a) / (b - a)) with ((a - v) / (a - b)) by (field; lra).
      split; [apply Rdiv_le_0_compat; lra|].
      apply Rmult_le_reg_r with (a - b); [lra|]. unfold Rdiv. rewrite Rmult_assoc, Rinv_l; lra. }
  set (t := (v - a) / (b - a)) in *.
  replace ((v - a) * (yb - ya) / (b - a)) with (t * (yb - ya)) by (unfold t; field; lra).
  split; nra.
Qed.

Lemma interp1_ok (x y : list R) cm v : length x = length y -> x <> [] -> exists r, interp1 x y cm v = Ok r.
Proof.
  intros Hl Hx.
  destruct (segment_containing1_spec x cm v) as [[H0 _]|[k (Hk & Hin' & _)]].
  - rewrite interp1_out; eauto.
  - exists (chord x y k v). apply interp1_in; auto. apply Hin'.
Qed.

Lemma interp1_within (x y : list R) cm v r m M :
  length x = length y -> x <> [] -> within m M y ->
  interp1 x y cm v = Ok r -> m <= r <= M.
Proof.
  intros Hl Hx Hw Hr.
  assert (Hpos : (0 < length x)%nat) by (destruct x; [congruence|cbn; lia]).
  destruct (segment_containing1_spec x cm v) as [[H0 _]|[k (Hk & Hin' & _)]].
  - rewrite interp1_out in Hr; auto. inversion Hr; subst. unfold at_.
    destruct (Rltb _ _); apply Hw, nth_In; lia.
  - rewrite (interp1_in x y cm v k) in Hr; auto; [|apply Hin'].
    inversion Hr; subst. destruct Hin' as (H1 & H2 & H3).
    unfold chord. apply chord_within; auto; apply Hw, nth_In; lia.
Qed.

Lemma chord_left x y i : chord x y i (at_ x i) = at_ y i.
Proof. unfold chord, Rdiv. ring. Qed.
Lemma chord_right x y i : at_ x i <> at_ x (S i) -> chord x y i (at_ x (S i)) = at_ y (S i).
Proof. intros H. unfold chord. field. lra. Qed.

(** At a breakpoint: i is the first vertex at abscissa v (so segment i-1 is the last
    one before v). *)
Lemma interp1_before_step x y v i :
  length x = length y -> nondecr x -> (S i < length x)%nat ->
  at_ x i < at_ x (S i) -> at_ x (S i) = v ->
  interp1 x y false v = Ok (at_ y (S i)).
Proof.
  intros Hl Hn Hi Hlt Hv.
  assert (Hin : in_segment x v i) by (apply in_segment_nondecr; auto; repeat split; auto; lra).
  destruct (segment_containing1_spec x false v) as [[_ Hno]|[k (Hk & Hin' & Hmin)]].
  - exfalso; apply (Hno i); auto.
  - specialize (Hmin i Hin).
    assert (k = i).
    { destruct (Nat.eq_dec k i) as [|Hne]; auto. exfalso.
      apply in_segment_nondecr in Hin'; auto. destruct Hin' as (H1 & H2 & H3).
      assert (at_ x (S k) <= at_ x i) by (apply nondecr_le; auto; lia). lra. }
    subst k. rewrite (interp1_in x y false v i); auto. rewrite <- Hv, chord_right; auto. lra.
Qed.

Lemma interp1_after_step x y v i :
  length x = length y -> nondecr x -> (S i < length x)%nat ->
  at_ x i < at_ x (S i) -> at_ x i = v ->
  interp1 x y true v = Ok (at_ y i).
Proof.
  intros Hl Hn Hi Hlt Hv.
  assert (Hin : in_segment x v i) by (apply in_segment_nondecr; auto; repeat split; auto; lra).
  destruct (segment_containing1_spec x true v) as [[_ Hno]|[k (Hk & Hin' & Hmax)]].
  - exfalso; apply (Hno i); auto.
  - specialize (Hmax i Hin). cbn in Hmax.
    assert (k = i).
    { destruct (Nat.eq_dec k i) as [|Hne]; auto. exfalso.
      apply in_segment_nondecr in Hin'; auto. destruct Hin' as (H1 & H2 & H3).
      assert (at_ x (S i) <= at_ x k) by (apply nondecr_le; auto; lia). lra. }
    subst k. rewrite (interp1_in x y true v i); auto. rewrite <- Hv, chord_left; auto.
Qed.

(** ** Segments before a point *)
Lemma segments_less_than1_eq x oe v :
  segments_less_than1 x (all_segs x) oe v =
  Ok (filter (fun s => if oe then Rleb (at_ x (S s)) v else Rltb (at_ x (S s)) v) (all_segs x)).
Proof.
  unfold segments_less_than1. apply filterM_filter.
  intros s Hs. unfold all_segs in Hs. apply in_seq in Hs.
  rewrite (get_lt x (S s) 0) by lia. reflexivity.
Qed.

(** ** Segments between two points *)
Lemma chain_app a b c l m : chain a b l -> chain b c m -> chain a c (l ++ m).
Proof. induction 1; intros; cbn; auto. constructor; auto. Qed.

Lemma chain_between x k n :
  nondecr x -> (k + n < length x)%nat ->
  chain (at_ x k) (at_ x (k + n)) (map (fun l => (at_ x l, at_ x (S l))) (seq k n)).
Proof.
  intros Hn. revert k; induction n as [|n IH]; intros k Hk; cbn.
  - rewrite Nat.add_0_r. constructor.
  - constructor; [apply Hn; lia|].
    replace (k + S n)%nat with (S k + n)%nat by lia. apply IH; lia.
Qed.

Lemma segments_between1_lt x vi vj :
  nondecr x -> vi < vj -> (2 <= length x)%nat ->
  at_ x 0 <= vi -> vj <= at_ x (length x - 1) ->
  exists i1 i2, (i1 <= i2)%nat /\ (S i2 < length x)%nat /\
    at_ x i1 <= vi < at_ x (S i1) /\ at_ x i2 < vj <= at_ x (S i2) /\
    segment_containing1 x (all_segs x) true vi = Ok [i1] /\
    segment_containing1 x (all_segs x) false vj = Ok [i2] /\
    segments_between1 x vi vj =
    Ok (if Nat.eqb i1 i2 then ([i1], [], [], []) else ([], [i1], [i2], seq (S i1) (i2 - S i1))).
Proof.
  intros Hn Hlt Hlen H0 H1.
  (* existence of a positive-width segment containing v, for v in range *)
  assert (Hex : forall v, at_ x 0 <= v -> v < at_ x (length x - 1) ->
     exists i, (S i < length x)%nat /\ at_ x i <= v < at_ x (S i)).
  { intros v Hv0 Hv1.
    assert (G : forall n, (n < length x)%nat -> v < at_ x n ->
              exists i, (S i < length x)%nat /\ at_ x i <= v < at_ x (S i)).
    { induction n as [|n IHn]; intros Hnl Hvn; [lra|].
      destruct (Rlt_or_le v (at_ x n)) as [Hc|Hc].
      - apply IHn; auto; lia.
      - exists n. split; [lia|lra]. }
    apply (G (length x - 1)%nat); [lia|auto]. }
  assert (Hex2 : forall v, at_ x 0 < v -> v <= at_ x (length x - 1) ->
     exists i, (S i < length x)%nat /\ at_ x i < v <= at_ x (S i)).
  { intros v Hv0 Hv1.
    assert (G : forall n, (n < length x)%nat -> v <= at_ x n ->
              exists i, (S i < length x)%nat /\ at_ x i < v <= at_ x (S i)).
    { induction n as [|n IHn]; intros Hnl Hvn; [lra|].
      destruct (Rlt_or_le (at_ x n) v) as [Hc|Hc].
      - exists n. split; [lia|lra].
      - apply IHn; auto; lia. }
    apply (G (length x - 1)%nat); [lia|auto]. }
  destruct (Hex vi) as (p & Hp & Hpv); [lra|lra|].
  destruct (Hex2 vj) as (q & Hq & Hqv); [lra|lra|].
  destruct (segment_containing1_spec x true vi) as [[_ Hno]|[i1 (Hi1 & Hin1 & Hmax)]].
  { exfalso; apply (Hno p). apply in_segment_nondecr; auto. repeat split; auto; lra. }
  destruct (segment_containing1_spec x false vj) as [[_ Hno]|[i2 (Hi2 & Hin2 & Hmin)]].
  { exfalso; apply (Hno q). apply in_segment_nondecr; auto. repeat split; auto; lra. }
  assert (Hpin : in_segment x vi p) by (apply in_segment_nondecr; auto; repeat split; auto; lra).
  assert (Hqin : in_segment x vj q) by (apply in_segment_nondecr; auto; repeat split; auto; lra).
  pose proof (Hmax p Hpin) as Hpi1. pose proof (Hmin q Hqin) as Hqi2. cbn in Hpi1, Hqi2.
  apply in_segment_nondecr in Hin1; auto. destruct Hin1 as (A1 & A2 & A3).
  apply in_segment_nondecr in Hin2; auto. destruct Hin2 as (B1 & B2 & B3).
  (* i1 = p and i2 = q *)
  assert (Hip : i1 = p).
  { destruct (Nat.eq_dec i1 p) as [|Hne]; auto. exfalso.
    assert (at_ x (S p) <= at_ x i1) by (apply nondecr_le; auto; lia). lra. }
  assert (Hiq : i2 = q).
  { destruct (Nat.eq_dec i2 q) as [|Hne]; auto. exfalso.
    assert (at_ x (S i2) <= at_ x q) by (apply nondecr_le; auto; lia). lra. }
  subst p q.
  assert (Hle : (i1 <= i2)%nat).
  { destruct (le_lt_dec i1 i2) as [|Hgt]; auto. exfalso.
    assert (at_ x (S i2) <= at_ x i1) by (apply nondecr_le; auto; lia). lra. }
  exists i1, i2. repeat split; auto; try lra.
  unfold segments_between1. rewrite Hi1, Hi2. cbn [bind]. destruct (Nat.eqb i1 i2); reflexivity.
Qed.

Lemma segments_between1_tile x vi vj :
  nondecr x -> vi < vj -> (2 <= length x)%nat ->
  at_ x 0 <= vi -> vj <= at_ x (length x - 1) ->
  exists r, segments_between1 x vi vj = Ok r /\ chain vi vj (pieces x vi vj r).
Proof.
  intros Hn Hlt Hlen H0 H1.
  destruct (segments_between1_lt x vi vj) as (i1 & i2 & Hle & Hb & Hi & Hj & _ & _ & Heq); auto.
  rewrite Heq. eexists; split; [reflexivity|].
  destruct (Nat.eqb_spec i1 i2) as [->|Hne].
  - cbn. constructor; [lra|constructor].
  - cbn. constructor; [lra|].
    apply chain_app with (at_ x i2).
    + replace (at_ x i2) with (at_ x (S i1 + (i2 - S i1))) by (f_equal; lia).
      apply chain_between; auto; lia.
    + cbn. constructor; [lra|constructor].
Qed.

(** ** Integration *)
Lemma is_RInt_linear p q a b :
  is_RInt (fun t => p + q * t) a b ((p + q * a + (p + q * b)) * /2 * (b - a)).
Proof.
  set (F := fun t => p * t + q * t ^ 2 / 2).
  replace ((p + q * a + (p + q * b)) * /2 * (b - a)) with (minus (F b) (F a))
    by (unfold F, minus, plus, opp; cbn; field).
  apply (is_RInt_derive F).
  - intros t _. unfold F. auto_derive; auto. field.
  - intros t _. apply (continuous_plus (fun _ => p) (fun t => q * t)).
    + apply continuous_const.
    + apply (continuous_mult (fun _ => q) (fun t => t)); [apply continuous_const|apply continuous_id].
Qed.

Lemma is_RInt_chord x y i f a b :
  at_ x i < at_ x (S i) -> a <= b -> at_ x i <= a -> b <= at_ x (S i) ->
  (forall t, a < t < b -> f t = chord x y i t) ->
  is_RInt f a b ((chord x y i a + chord x y i b) * /2 * (b - a)).
Proof.
  intros Hlt Hab Ha Hb Hf.
  set (q := (at_ y (S i) - at_ y i) / (at_ x (S i) - at_ x i)).
  set (p := at_ y i - at_ x i * q).
  assert (Hc : forall t, chord x y i t = p + q * t)
    by (intros t; unfold chord, p, q; field; lra).
  apply is_RInt_ext with (f := fun t => p + q * t).
  - intros t. rewrite Rmin_left, Rmax_right by lra. intros Ht. rewrite Hf by lra. auto.
  - rewrite !Hc. apply is_RInt_linear.
Qed.

Lemma sumn_app (l m : list R) : sumn (l ++ m) = sumn l + sumn m.
Proof. induction l as [|a l IH]; cbn; [ring|]. rewrite IH; ring. Qed.

Lemma nhalf_R : (nhalf : R) = /2.
Proof. unfold nhalf; cbn. field. Qed.

Lemma is_RInt_between x y f k n :
  nondecr x -> (k + n < length x)%nat ->
  (forall i t, (S i < length x)%nat -> at_ x k <= t <= at_ x (k + n) ->
     at_ x i < t < at_ x (S i) -> f t = chord x y i t) ->
  is_RInt f (at_ x k) (at_ x (k + n)) (sumn (map (trap x y) (seq k n))).
Proof.
  intros Hn. revert k; induction n as [|n IH]; intros k Hk Hf; cbn.
  - rewrite Nat.add_0_r. apply (is_RInt_point f).
  - assert (Hkk : at_ x k <= at_ x (S k)) by (apply Hn; lia).
    assert (Hkn : at_ x (S k) <= at_ x (k + S n)) by (apply nondecr_le; auto; lia).
    apply (is_RInt_Chasles f (at_ x k) (at_ x (S k)) _ (trap x y k)).
    + destruct (Rle_lt_or_eq_dec _ _ Hkk) as [Hlt|Heq].
      * unfold trap.
        replace (at_ y k) with (chord x y k (at_ x k)) by apply chord_left.
        replace (at_ y (S k)) with (chord x y k (at_ x (S k))) by (apply chord_right; lra).
        apply is_RInt_chord; try lra. intros t Ht. apply Hf; [lia| |lra]. lra.
      * unfold trap. rewrite <- Heq.
        replace ((at_ y k + at_ y (S k)) * / 2 * (at_ x k - at_ x k)) with 0 by ring.
        apply (is_RInt_point f).
    + replace (k + S n)%nat with (S k + n)%nat in * by lia.
      apply IH; [lia|]. intros i t Hi Ht Hit. apply Hf; auto. lra.
Qed.

Lemma mapM_get_trap x y l :
  length x = length y -> (forall k, In k l -> (S k < length x)%nat) ->
  mapM (fun l => ya <- get y l ;; yb <- get y (S l) ;; xa <- get x l ;; xb <- get x (S l) ;;
                 Ok (nmul (nmul (nadd ya yb) nhalf) (nsub xb xa))) l = Ok (map (trap x y) l).
Proof.
  intros Hl Hk. apply mapM_map. intros k Hin. specialize (Hk k Hin).
  rewrite (get_lt y k 0), (get_lt y (S k) 0), (get_lt x k 0), (get_lt x (S k) 0) by lia.
  cbn [bind]. rewrite nhalf_R. reflexivity.
Qed.

Lemma integrate1_RInt x y f vi vj :
  length x = length y -> nondecr x -> (2 <= length x)%nat ->
  at_ x 0 <= vi -> vi < vj -> vj <= at_ x (length x - 1) ->
  (forall t, vi <= t <= vj -> exists cm, interp1 x y cm t = Ok (f t)) ->
  exists I, integrate1 x y vi vj = Ok I /\ is_RInt f vi vj I.
Proof.
  intros Hl Hn Hlen H0 Hlt H1 Hf.
  assert (Hc : forall i t, (S i < length x)%nat -> vi <= t <= vj ->
                 at_ x i < t < at_ x (S i) -> f t = chord x y i t).
  { intros i t Hi Ht Hit. destruct (Hf t Ht) as [cm Hcm].
    rewrite (interp1_inside x y cm t i) in Hcm; auto. inversion Hcm; auto. }
  destruct (segments_between1_lt x vi vj) as (i1 & i2 & Hle & Hb & Hi & Hj & Hs1 & Hs2 & Heq); auto.
  unfold integrate1. rewrite Heq. cbn [bind].
  rewrite (interp1_in x y true vi i1), (interp1_in x y false vj i2) by (auto; lia).
  destruct (Nat.eqb_spec i1 i2) as [->|Hne].
  - cbn [bind mapM]. eexists; split; [reflexivity|].
    cbn [app sumn nadd nmul nsub NumR n0]. rewrite nhalf_R, Rplus_0_r.
    apply is_RInt_chord; try lra. intros t Ht. apply Hc; auto; lra.
  - cbn [bind].
    assert (M1 : forall g : nat -> result R, mapM g [] = Ok []) by reflexivity.
    rewrite !M1. cbn [bind].
    cbn [mapM].
    rewrite (get_lt y (S i1) 0), (get_lt x (S i1) 0), (get_lt y i2 0), (get_lt x i2 0) by lia.
    cbn [bind].
    rewrite mapM_get_trap; auto.
    2:{ intros k Hk. apply in_seq in Hk. lia. }
    cbn [bind]. eexists; split; [reflexivity|].
    fold (at_ y (S i1)) (at_ x (S i1)) (at_ y i2) (at_ x i2).
    cbn [app sumn]. rewrite sumn_app. cbn [sumn].
    cbn [nadd nmul nsub NumR n0]. rewrite Rplus_0_r.
    assert (S12 : at_ x (S i1) <= at_ x i2) by (apply nondecr_le; auto; lia).
    apply (is_RInt_Chasles f vi (at_ x (S i1)) vj).
    + rewrite nhalf_R. 
      replace (at_ y (S i1)) with (chord x y i1 (at_ x (S i1))) by (apply chord_right; lra).
      apply is_RInt_chord; try lra. intros t Ht. apply Hc; [lia| |lra]. lra.
    + apply (is_RInt_Chasles f (at_ x (S i1)) (at_ x i2) vj).
      * replace (at_ x i2) with (at_ x (S i1 + (i2 - S i1))) at 1 by (f_equal; lia).
        apply is_RInt_between; auto; [lia|].
        intros i t Hii Ht Hit. apply Hc; auto.
        replace (S i1 + (i2 - S i1))%nat with i2 in Ht by lia. lra.
      * rewrite nhalf_R.
        replace (at_ y i2) with (chord x y i2 (at_ x i2)) by (apply chord_left).
        apply is_RInt_chord; try lra. intros t Ht. apply Hc; [lia| |lra]. lra.
Qed.
