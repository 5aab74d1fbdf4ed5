(** * More lemmas about the piecewise model: additivity, averages, conversions,
      monotonicity helpers, classification. *)
From Coq Require Import Reals List ZArith Bool Arith Lia Lra.
From Coquelicot Require Import Coquelicot.
From Verif Require Import Base PiecewiseModel SpecPiecewise SpecPiecewiseApi PiecewiseProofs.
Import ListNotations.
Open Scope R_scope.

(** ** Additivity and averages *)
Definition val {T} (d : T) (r : result T) : T := match r with Ok v => v | Err _ => d end.

Lemma interp_fun_exists (x y : list R) cm :
  length x = length y -> x <> [] ->
  exists f : R -> R, forall t, interp1 x y cm t = Ok (f t).
Proof.
  intros Hl Hx. exists (fun t => val 0 (interp1 x y cm t)).
  intros t. destruct (interp1_ok x y cm t Hl Hx) as [r Hr]. rewrite Hr. reflexivity.
Qed.

Lemma integrate1_additive x y a b c :
  length x = length y -> nondecr x -> (2 <= length x)%nat ->
  at_ x 0 <= a -> a < b -> b < c -> c <= at_ x (length x - 1) ->
  exists I J K, integrate1 x y a b = Ok I /\ integrate1 x y b c = Ok J /\
                integrate1 x y a c = Ok K /\ I + J = K.
Proof.
  intros Hl Hn Hlen Ha Hab Hbc Hc.
  assert (Hx : x <> []) by (intros ->; cbn in Hlen; lia).
  destruct (interp_fun_exists x y false Hl Hx) as [f Hf].
  destruct (integrate1_RInt x y f a b) as (I & HI & RI); auto; try lra; eauto.
  destruct (integrate1_RInt x y f b c) as (J & HJ & RJ); auto; try lra; eauto.
  destruct (integrate1_RInt x y f a c) as (K & HK & RK); auto; try lra; eauto.
  exists I, J, K. repeat split; auto.
  pose proof (is_RInt_Chasles f a b c I J RI RJ) as RC.
  pose proof (is_RInt_unique (V := R_CompleteNormedModule) f a c _ RC) as E1.
  pose proof (is_RInt_unique (V := R_CompleteNormedModule) f a c _ RK) as E2.
  rewrite E1 in E2. exact E2.
Qed.

Lemma avg1_bounds x y vi vj m M :
  length x = length y -> nondecr x -> (2 <= length x)%nat -> within m M y ->
  at_ x 0 <= vi -> vi < vj -> vj <= at_ x (length x - 1) ->
  exists I r, integrate1 x y vi vj = Ok I /\ avg1 x y vi vj = Ok r /\
            r * (vj - vi) = I /\ m <= r <= M.
Proof.
  intros Hl Hn Hlen Hw H0 Hlt H1.
  assert (Hx : x <> []) by (intros ->; cbn in Hlen; lia).
  destruct (interp_fun_exists x y false Hl Hx) as [f Hf].
  destruct (integrate1_RInt x y f vi vj) as (I & HI & RI); auto; eauto.
  exists I, (I / (vj - vi)). split; auto.
  unfold avg1. rewrite HI. cbn [bind]. cbn [neqb NumR nsub n0 ndiv].
  rewrite (proj2 (Reqb_false _ _)) by lra. split; auto.
  split; [field; lra|].
  assert (HB : m * (vj - vi) <= I <= M * (vj - vi)).
  { assert (Hm : is_RInt (fun _ => m) vi vj (m * (vj - vi)))
      by (rewrite Rmult_comm; apply (is_RInt_const vi vj m)).
    assert (HM : is_RInt (fun _ => M) vi vj (M * (vj - vi)))
      by (rewrite Rmult_comm; apply (is_RInt_const vi vj M)).
    split.
    - eapply is_RInt_le; [|exact Hm|exact RI|]; [lra|].
      intros t Ht. apply (interp1_within x y false t (f t) m M); auto.
    - eapply is_RInt_le; [|exact RI|exact HM|]; [lra|].
      intros t Ht. apply (interp1_within x y false t (f t) m M); auto. }
  split.
  - apply Rmult_le_reg_r with (vj - vi); [lra|].
    unfold Rdiv; rewrite Rmult_assoc, Rinv_l; lra.
  - apply Rmult_le_reg_r with (vj - vi); [lra|].
    unfold Rdiv; rewrite Rmult_assoc, Rinv_l; lra.
Qed.

(** ** A degenerate interval placed on an interior vertex *)
Lemma integrate1_degenerate x y v i :
  length x = length y -> nondecr x -> (S (S i) < length x)%nat ->
  at_ x i < at_ x (S i) < at_ x (S (S i)) -> v = at_ x (S i) ->
  integrate1 x y v v = Ok (trap x y (S i) + trap x y i).
Proof.
  intros Hl Hn Hi Hlt ->.
  set (v := at_ x (S i)).
  assert (E1 : segment_containing1 x (all_segs x) true v = Ok [S i]).
  { destruct (segment_containing1_spec x true v) as [[_ Hno]|[k (Hk & Hin & Hmax)]].
    - exfalso. apply (Hno (S i)). apply in_segment_nondecr; auto. unfold v. repeat split; auto; lra.
    - rewrite Hk. do 2 f_equal.
      assert (Hs : in_segment x v (S i)) by (apply in_segment_nondecr; auto; unfold v; repeat split; auto; lra).
      specialize (Hmax _ Hs). cbn in Hmax.
      destruct (Nat.eq_dec k (S i)) as [|Hne]; auto. exfalso.
      apply in_segment_nondecr in Hin; auto. destruct Hin as (A1 & A2 & A3).
      assert (at_ x (S (S i)) <= at_ x k) by (apply nondecr_le; auto; lia). unfold v in *; lra. }
  assert (E2 : segment_containing1 x (all_segs x) false v = Ok [i]).
  { destruct (segment_containing1_spec x false v) as [[_ Hno]|[k (Hk & Hin & Hmin)]].
    - exfalso. apply (Hno i). apply in_segment_nondecr; auto. unfold v. repeat split; auto; try lra; lia.
    - rewrite Hk. do 2 f_equal.
      assert (Hs : in_segment x v i) by (apply in_segment_nondecr; auto; unfold v; repeat split; auto; try lra; lia).
      specialize (Hmin _ Hs). cbn in Hmin.
      destruct (Nat.eq_dec k i) as [|Hne]; auto. exfalso.
      apply in_segment_nondecr in Hin; auto. destruct Hin as (A1 & A2 & A3).
      assert (at_ x (S k) <= at_ x i) by (apply nondecr_le; auto; lia). unfold v in *; lra. }
  unfold integrate1, segments_between1. rewrite E1, E2. cbn [bind].
  assert (Hne : Nat.eqb (S i) i = false) by (apply Nat.eqb_neq; lia).
  rewrite Hne. cbn [bind].
  rewrite (interp1_in x y true v (S i)), (interp1_in x y false v i) by (auto; lia).
  replace (i - S (S i))%nat with 0%nat by lia. cbn [seq mapM bind].
  rewrite (get_lt y (S (S i)) 0), (get_lt x (S (S i)) 0), (get_lt y i 0), (get_lt x i 0) by lia.
  cbn [bind app sumn]. f_equal. cbn [nadd nmul nsub NumR n0].
  unfold v. rewrite chord_left, chord_right by lra. unfold trap. rewrite nhalf_R.
  fold (at_ y (S (S i))) (at_ x (S (S i))) (at_ y i) (at_ x i). ring.
Qed.

(** ** Layers <-> points *)
Lemma isclose_refl (a : R) : isclose rtol_default atol_default a a = true.
Proof.
  unfold isclose. cbn [nleb NumR]. apply Rleb_true.
  rewrite !nabs_R. cbn [nsub nadd nmul NumR].
  rewrite Rminus_diag_eq by auto. rewrite Rabs_R0.
  unfold atol_default, rtol_default. cbn.
  pose proof (Rabs_pos a). assert (0 < 1 / 100000000) by lra. assert (0 < 1 / 100000) by lra. nra.
Qed.

Lemma contiguous_tl a l : contiguous (a :: l) -> contiguous l.
Proof. intros H i d Hi. apply (H (S i) d). cbn; lia. Qed.

Lemma allclose_contig (l : list (layer R)) : contiguous l ->
  allclose rtol_default atol_default (map lx1 (tl l)) (map lx2 (removelast l)) = true.
Proof.
  induction l as [|a [|b t] IH]; intros Hc; [reflexivity|reflexivity|].
  assert (E : lx2 a = lx1 b) by (apply (Hc 0%nat a); cbn; lia).
  apply contiguous_tl in Hc. specialize (IH Hc).
  change (removelast (a :: b :: t)) with (a :: removelast (b :: t)).
  unfold allclose in *. cbn [tl map combine forallb fst snd] in *.
  rewrite E, isclose_refl. cbn [andb]. exact IH.
Qed.

Lemma layers_points_head b t :
  exists q, layers_to_points (b :: t) = (lx1 b, ly1 b) :: q /\ q <> [] \/
  layers_to_points (A := R) (b :: t) = (lx1 b, ly1 b) :: q /\ q <> [].
Proof.
  cbn. eexists. left. split; [reflexivity|].
  destruct t; [discriminate|]. destruct (negb _); [discriminate|].
  cbn. discriminate.
Qed.

Lemma pairs_cons2 {T} (a b : T) t : pairs (a :: b :: t) = (a, b) :: pairs (b :: t).
Proof. reflexivity. Qed.

Lemma layers_roundtrip_aux (l : list (layer R)) :
  contiguous l -> thick l -> l <> [] ->
  convert_x_y_to_x1_x2_y1_y2 (layers_to_points l) = l.
Proof.
  induction l as [|a [|b t] IH]; intros Hc Ht Hne; [congruence| |].
  - cbn. assert (H := Ht a (or_introl eq_refl)).
    rewrite (proj2 (Reqb_false _ _) H). cbn. destruct a; reflexivity.
  - assert (E : lx2 a = lx1 b) by (apply (Hc 0%nat a); cbn; lia).
    assert (Ha := Ht a (or_introl eq_refl)).
    assert (IH' : convert_x_y_to_x1_x2_y1_y2 (layers_to_points (b :: t)) = b :: t).
    { apply IH; [eapply contiguous_tl; eauto|intros c Hcin; apply Ht; right; auto|discriminate]. }
    change (layers_to_points (a :: b :: t)) with
      ((lx1 a, ly1 a) :: (if negb (neqb (ly2 a) (ly1 b)) then (lx2 a, ly2 a) :: layers_to_points (b :: t)
                  else layers_to_points (b :: t))).
    destruct (layers_points_head b t) as [q [[Hq _]|[Hq _]]]; rewrite Hq in *.
    all: cbn [neqb NumR]; destruct (Reqb (ly2 a) (ly1 b)) eqn:Hy; cbn [negb].
    all: unfold convert_x_y_to_x1_x2_y1_y2 in *; rewrite !pairs_cons2.
    all: cbn [filter fst snd neqb NumR] in *.
    1,3: apply Reqb_true in Hy; rewrite (proj2 (Reqb_false (lx1 a) (lx1 b))) by congruence;
      cbn [negb map fst snd]; rewrite IH'; rewrite <- E, <- Hy; destruct a; reflexivity.
    all: rewrite (proj2 (Reqb_false (lx1 a) (lx2 a))) by auto; cbn [negb map fst snd];
      rewrite (proj2 (Reqb_true (lx2 a) (lx1 b))) by auto; cbn [negb]; rewrite IH';
      destruct a; reflexivity.
Qed.

Lemma layers_roundtrip (l : list (layer R)) :
  contiguous l -> thick l -> l <> [] ->
  exists p, convert_x1_x2_y1_y2_to_x_y l = Ok p /\ convert_x_y_to_x1_x2_y1_y2 p = l.
Proof.
  intros Hc Ht Hne. exists (layers_to_points l). split; [|apply layers_roundtrip_aux; auto].
  unfold convert_x1_x2_y1_y2_to_x_y. rewrite allclose_contig by auto. cbn.
  destruct l; [congruence|reflexivity].
Qed.

(** ** Monotonicity predicates *)
Lemma forallb_diff (P : R -> bool) x :
  forallb P (diff x) = true <-> forall i, (S i < length x)%nat -> P (at_ x (S i) - at_ x i) = true.
Proof.
  unfold diff. rewrite forallb_forall. split.
  - intros H i Hi. apply H. apply in_map_iff. exists (at_ x i, at_ x (S i)). split; auto.
    unfold at_. rewrite <- (pairs_nth x i 0) by auto. apply nth_In. rewrite pairs_length; lia.
  - intros H d Hd. apply in_map_iff in Hd. destruct Hd as [[a b] [<- Hin]].
    destruct (In_nth _ _ (0, 0) Hin) as [i [Hi Hnth]]. rewrite pairs_length in Hi.
    rewrite pairs_nth in Hnth by lia. inversion Hnth; subst. cbn. apply H; lia.
Qed.

Lemma step_to_all (Rel : R -> R -> Prop) x :
  (forall a b c, Rel a b -> Rel b c -> Rel a c) ->
  (forall i, (S i < length x)%nat -> Rel (at_ x i) (at_ x (S i))) ->
  forall i j, (i < j)%nat -> (j < length x)%nat -> Rel (at_ x i) (at_ x j).
Proof.
  intros Htr Hs i j Hij. induction Hij as [|j Hij IH]; intros Hj.
  - apply Hs; auto.
  - eapply Htr; [apply IH; lia|apply Hs; lia].
Qed.

Lemma strictly_increasing_iff x : strictly_increasing x = true <->
  forall i j, (i < j)%nat -> (j < length x)%nat -> at_ x i < at_ x j.
Proof.
  unfold strictly_increasing. rewrite forallb_diff. cbn. split.
  - intros H. apply step_to_all; [intros; lra|]. intros i Hi. specialize (H i Hi).
    apply Rltb_true in H. lra.
  - intros H i Hi. apply Rltb_true. specialize (H i (S i)). assert (at_ x i < at_ x (S i)) by (apply H; lia). lra.
Qed.
Lemma strictly_decreasing_iff x : strictly_decreasing x = true <->
  forall i j, (i < j)%nat -> (j < length x)%nat -> at_ x j < at_ x i.
Proof.
  unfold strictly_decreasing. rewrite forallb_diff. cbn. split.
  - intros H. apply (step_to_all (fun a b => b < a)); [intros; lra|]. intros i Hi. specialize (H i Hi).
    apply Rltb_true in H. lra.
  - intros H i Hi. apply Rltb_true. specialize (H i (S i)). assert (at_ x (S i) < at_ x i) by (apply H; lia). lra.
Qed.
Lemma non_decreasing_iff x : non_decreasing x = true <->
  forall i j, (i < j)%nat -> (j < length x)%nat -> at_ x i <= at_ x j.
Proof.
  unfold non_decreasing. rewrite forallb_diff. cbn. split.
  - intros H. apply step_to_all; [intros; lra|]. intros i Hi. specialize (H i Hi).
    apply Rleb_true in H. lra.
  - intros H i Hi. apply Rleb_true. specialize (H i (S i)). assert (at_ x i <= at_ x (S i)) by (apply H; lia). lra.
Qed.
Lemma non_increasing_iff x : non_increasing x = true <->
  forall i j, (i < j)%nat -> (j < length x)%nat -> at_ x j <= at_ x i.
Proof.
  unfold non_increasing. rewrite forallb_diff. cbn. split.
  - intros H. apply (step_to_all (fun a b => b <= a)); [intros; lra|]. intros i Hi. specialize (H i Hi).
    apply Rleb_true in H. lra.
  - intros H i Hi. apply Rleb_true. specialize (H i (S i)). assert (at_ x (S i) <= at_ x i) by (apply H; lia). lra.
Qed.
Lemma non_decreasing_nondecr x : non_decreasing x = true <-> nondecr x.
Proof.
  rewrite non_decreasing_iff. split.
  - intros H i Hi. apply H; lia.
  - intros H i j Hij Hj. apply nondecr_le; auto; lia.
Qed.
Lemma has_steps_iff x : has_steps x = true <->
  exists i, (S i < length x)%nat /\ at_ x i = at_ x (S i).
Proof.
  unfold has_steps. rewrite existsb_exists. unfold diff. split.
  - intros [d [Hd Hz]]. apply in_map_iff in Hd. destruct Hd as [[a b] [<- Hin]].
    destruct (In_nth _ _ (0, 0) Hin) as [i [Hi Hnth]]. rewrite pairs_length in Hi.
    rewrite pairs_nth in Hnth by lia. inversion Hnth; subst. exists i. split; [lia|].
    cbn in Hz. apply Reqb_true in Hz. unfold at_. lra.
  - intros [i [Hi He]]. exists (at_ x (S i) - at_ x i). split.
    + apply in_map_iff. exists (at_ x i, at_ x (S i)). split; auto.
      unfold at_. rewrite <- (pairs_nth x i 0) by auto. apply nth_In. rewrite pairs_length; lia.
    + cbn. apply Reqb_true. lra.
Qed.

(** ** force_non_decreasing *)
Lemma at_rev x i : (i < length x)%nat -> at_ (rev x) i = at_ x (length x - S i).
Proof. intros H. unfold at_. apply rev_nth; auto. Qed.

Lemma non_increasing_rev x : non_increasing x = true -> non_decreasing (rev x) = true.
Proof.
  rewrite non_increasing_iff, non_decreasing_iff. intros H i j Hij Hj.
  rewrite rev_length in Hj. rewrite !at_rev by lia. apply H; lia.
Qed.
Lemma strictly_decreasing_rev x : strictly_decreasing x = true -> strictly_increasing (rev x) = true.
Proof.
  rewrite strictly_decreasing_iff, strictly_increasing_iff. intros H i j Hij Hj.
  rewrite rev_length in Hj. rewrite !at_rev by lia. apply H; lia.
Qed.

Lemma force_non_decreasing_cases x y :
  (non_decreasing x = true /\ force_non_decreasing x y = Ok (x, y)) \/
  (non_decreasing x = false /\ non_increasing x = true /\
     force_non_decreasing x y = Ok (rev x, rev y) /\ non_decreasing (rev x) = true) \/
  (non_decreasing x = false /\ non_increasing x = false /\ force_non_decreasing x y = Err ValueError).
Proof.
  unfold force_non_decreasing. destruct (non_decreasing x) eqn:H1; [left; auto|right].
  destruct (non_increasing x) eqn:H2; cbn; [left|right; auto].
  repeat split; auto. apply non_increasing_rev; auto.
Qed.

(** ** force_strictly_increasing in exact arithmetic *)
Fixpoint shiftk (h : nat -> R) (s : nat) (m : list bool) (x : list R) : list R :=
  match x, m with
  | v :: t, true :: m' => (v + h s) :: shiftk h (S s) m' t
  | v :: t, false :: m' => v :: shiftk h s m' t
  | _, _ => x
  end.

Lemma where_from_ge k m i : In i (where_from k m) -> (k <= i)%nat.
Proof. intros H. apply where_from_In in H. tauto. Qed.

Lemma add_at_shiftk h m x i s :
  add_at i (where_from i m) (map h (seq s (length (where_from i m)))) x = shiftk h s m x.
Proof.
  revert m i s; induction x as [|v t IH]; intros m i s; [destruct m; reflexivity|].
  destruct m as [|[] m']; cbn [where_from length seq map add_at shiftk]; auto.
  - rewrite Nat.eqb_refl. f_equal. apply IH.
  - specialize (IH m' (S i) s).
    remember (where_from (S i) m') as w eqn:Hw.
    destruct w as [|k ks]; cbn [length seq map] in *.
    + rewrite <- IH. destruct t; reflexivity.
    + assert (Hk : (S i <= k)%nat) by (apply (where_from_ge (S i) m'); rewrite <- Hw; left; auto).
      destruct (Nat.eqb_spec i k); [lia|]. f_equal. exact IH.
Qed.

Lemma where_from_S k m : where_from (S k) m = map S (where_from k m).
Proof.
  revert k; induction m as [|[] t IH]; intros k; cbn; auto. rewrite IH; reflexivity.
Qed.

Definition stepmask (x : list R) : list bool := map (fun d => Reqb d 0) (diff x).

(** every positive gap exceeds c *)
Definition gaps_exceed (c : R) (x : list R) : Prop :=
  forall i, (S i < length x)%nat -> at_ x i < at_ x (S i) -> c < at_ x (S i) - at_ x i.

Lemma stepmask_cons a b t : stepmask (a :: b :: t) = Reqb (b - a) 0 :: stepmask (b :: t).
Proof. reflexivity. Qed.

Fixpoint countb (m : list bool) : nat :=
  match m with [] => 0 | true :: t => S (countb t) | false :: t => countb t end.
Lemma countb_where k m : length (where_from k m) = countb m.
Proof. revert k; induction m as [|[] t IH]; intros k; cbn; auto. Qed.

Lemma nondecr_tl a x : nondecr (a :: x) -> nondecr x.
Proof. intros H i Hi. apply (H (S i)). cbn; lia. Qed.
Lemma gaps_tl c a x : gaps_exceed c (a :: x) -> gaps_exceed c x.
Proof. intros H i Hi. apply (H (S i)). cbn; lia. Qed.

(** strictly increasing with a lower bound on the head, recursive form *)
Fixpoint si (x : list R) : Prop :=
  match x with
  | a :: ((b :: _) as t) => a < b /\ si t
  | _ => True
  end.
Lemma si_iff x : si x <-> strictly_increasing x = true.
Proof.
  induction x as [|a [|b t] IH]; try (cbn; tauto).
  change (si (a :: b :: t)) with (a < b /\ si (b :: t)). rewrite IH.
  unfold strictly_increasing. cbn [diff pairs map forallb]. 
  rewrite andb_true_iff. cbn [nltb NumR nsub snd fst n0]. rewrite Rltb_true.
  split; intros [H1 H2]; split; auto; lra.
Qed.

(** keep_end_points: h k = -(n-k)*eps, with k counted from s; remaining count = n - s. *)
Lemma shiftk_keep_si eps n x s :
  0 < eps -> nondecr x -> (s + countb (stepmask x) = n)%nat ->
  gaps_exceed (INR n * eps) x ->
  si (shiftk (fun k => - (INR (n - k) * eps)) s (stepmask x) x) /\
  match shiftk (fun k => - (INR (n - k) * eps)) s (stepmask x) x, x with
  | a' :: _, a :: _ => a - INR (n - s) * eps <= a' <= a
  | [], [] => True
  | _, _ => False
  end.
Proof.
  intros He. revert s; induction x as [|a [|b t] IH]; intros s Hn Hc Hg.
  - cbn; auto.
  - cbn. split; auto. pose proof (pos_INR (n - s)). nra.
  - rewrite stepmask_cons in *.
    assert (Hab : a <= b) by (apply (Hn 0%nat); cbn; lia).
    destruct (Reqb (b - a) 0) eqn:Hz.
    + apply Reqb_true in Hz. cbn [countb] in Hc.
      destruct (IH (S s)) as [Hsi Hhd]; [eapply nondecr_tl; eauto|lia|eapply gaps_tl; eauto|].
      cbn [shiftk]. remember (shiftk _ (S s) (stepmask (b :: t)) (b :: t)) as r eqn:Hr.
      destruct r as [|b' r']; [contradiction|].
      replace (n - s)%nat with (S (n - S s)) by lia. rewrite S_INR.
      pose proof (pos_INR (n - S s)).
      split; [split; auto; nra|nra].
    + apply Reqb_false in Hz. cbn [countb] in Hc.
      destruct (IH s) as [Hsi Hhd]; [eapply nondecr_tl; eauto|lia|eapply gaps_tl; eauto|].
      cbn [shiftk]. remember (shiftk _ s (stepmask (b :: t)) (b :: t)) as r eqn:Hr.
      destruct r as [|b' r']; [contradiction|].
      assert (Hgap : INR n * eps < b - a) by (apply (Hg 0%nat); cbn; try lia; lra).
      assert (INR (n - s) <= INR n) by (apply le_INR; lia).
      pose proof (pos_INR (n - s)).
      split; [split; auto; nra|nra].
Qed.

Lemma shiftk_free_si eps n x s :
  0 < eps -> nondecr x -> (s + countb (stepmask x) <= n)%nat ->
  gaps_exceed (INR n * eps) x ->
  forall a t, x = a :: t -> forall a', a <= a' <= a + INR s * eps ->
  si (a' :: shiftk (fun k => INR (S k) * eps) s (stepmask x) t).
Proof.
  intros He. revert s; induction x as [|a0 [|b t0] IH]; intros s Hn Hc Hg a t Hx a' Ha'.
  - discriminate.
  - inversion Hx; subst. cbn. auto.
  - inversion Hx; subst. rewrite stepmask_cons in *.
    assert (Hab : a <= b) by (apply (Hn 0%nat); cbn; lia).
    assert (Hn' : nondecr (b :: t0)) by (eapply nondecr_tl; eauto).
    assert (Hg' : gaps_exceed (INR n * eps) (b :: t0)) by (eapply gaps_tl; eauto).
    assert (Hs : INR s <= INR n) by (apply le_INR; lia).
    pose proof (pos_INR s).
    destruct (Reqb (b - a) 0) eqn:Hz; cbn [shiftk countb] in *.
    + apply Reqb_true in Hz. 
      split.
      * rewrite S_INR. nra.
      * apply (IH (S s) Hn' ltac:(lia) Hg' b t0 eq_refl). rewrite !S_INR. nra.
    + apply Reqb_false in Hz.
      assert (Hgap : INR n * eps < b - a) by (apply (Hg 0%nat); cbn; try lia; lra).
      split; [nra|]. apply (IH s Hn' ltac:(lia) Hg' b t0 eq_refl). nra.
Qed.

Lemma INR_IZR_nat k : IZR (Z.of_nat k) = INR k.
Proof. symmetry; apply INR_IZR_INZ. Qed.

Lemma fsi_shift_si keep eps (x : list R) :
  0 < eps -> nondecr x -> gaps_exceed (INR (length x) * eps) x ->
  strictly_increasing (fsi_shift keep eps x) = true.
Proof.
  intros He Hn Hg. apply si_iff.
  unfold fsi_shift, fsi_steps.
  change (map (fun d : R => neqb d n0) (diff x)) with (stepmask x).
  unfold where_.
  assert (Hcnt : (countb (stepmask x) <= length x)%nat).
  { assert (G : forall m, (countb m <= length m)%nat) by (induction m as [|[] m IHm]; cbn; lia).
    specialize (G (stepmask x)).
    assert (E : length (stepmask x) = (length x - 1)%nat)
      by (unfold stepmask, diff; rewrite !map_length, pairs_length; reflexivity).
    lia. }
  assert (Hg2 : gaps_exceed (INR (countb (stepmask x)) * eps) x).
  { intros i Hi Hl. specialize (Hg i Hi Hl).
    assert (INR (countb (stepmask x)) <= INR (length x)) by (apply le_INR; auto). nra. }
  destruct keep.
  - set (n := length (where_from 0 (stepmask x))).
    assert (Hnn : n = countb (stepmask x)) by apply countb_where.
    replace (map (fun k => nmul (nofZ (Z.of_nat (n - k))) (nmul (nopp n1) eps)) (seq 0 n))
      with (map (fun k => - (INR (n - k) * eps)) (seq 0 n)).
    2:{ apply map_ext. intros k. cbn. rewrite INR_IZR_nat. ring. }
    unfold n at 2. rewrite add_at_shiftk. fold n.
    apply (shiftk_keep_si eps n x 0); auto. rewrite Hnn; auto.
  - set (n := length (where_from 0 (stepmask x))).
    assert (Hnn : n = countb (stepmask x)) by apply countb_where.
    replace (map (fun k => nmul (nofZ (Z.of_nat (S k))) (nmul n1 eps)) (seq 0 n))
      with (map (fun k => INR (S k) * eps) (seq 0 n)).
    2:{ apply map_ext. intros k. change (nofZ (Z.of_nat (S k))) with (IZR (Z.of_nat (S k))).
        rewrite INR_IZR_nat. cbn [nmul NumR n1]. ring. }
    rewrite <- where_from_S.
    change (where_from 1 (stepmask x)) with (where_from 0 (false :: stepmask x)).
    replace n with (length (where_from 0 (false :: stepmask x))).
    2:{ rewrite countb_where. cbn. auto. }
    rewrite (add_at_shiftk (fun k => INR (S k) * eps)).
    destruct x as [|a t]; [cbn; auto|].
    change (shiftk (fun k : nat => INR (S k) * eps) 0 (false :: stepmask (a :: t)) (a :: t))
      with (a :: shiftk (fun k : nat => INR (S k) * eps) 0 (stepmask (a :: t)) t).
    apply (shiftk_free_si eps n (a :: t) 0) with (a := a); auto.
    + rewrite Hnn; cbn; lia.
    + rewrite Hnn; auto.
    + cbn; lra.
Qed.

Lemma gaps_rev c x : (forall i, (S i < length x)%nat -> at_ x (S i) < at_ x i -> c < at_ x i - at_ x (S i)) ->
  gaps_exceed c (rev x).
Proof.
  intros H i Hi. rewrite rev_length in Hi. rewrite !at_rev by lia. intros Hl.
  replace (length x - S i)%nat with (S (length x - S (S i))) in * by lia.
  apply H; [lia|auto].
Qed.

Lemma force_strictly_increasing_exact (x y : list R) keep eps x' y' :
  0 < eps ->
  (forall i, (S i < length x)%nat -> at_ x i <> at_ x (S i) ->
     INR (length x) * eps < Rabs (at_ x (S i) - at_ x i)) ->
  force_strictly_increasing x y keep eps = Ok (x', y') ->
  strictly_increasing x' = true.
Proof.
  intros He Hg Hf. unfold force_strictly_increasing in Hf.
  destruct (strictly_increasing x) eqn:H1; [inversion Hf; subst; auto|].
  destruct (strictly_decreasing x) eqn:H2; [inversion Hf; subst; apply strictly_decreasing_rev; auto|].
  destruct (non_increasing x) eqn:H3.
  - rewrite (non_increasing_rev x H3) in Hf. cbn in Hf. inversion Hf; subst.
    apply fsi_shift_si; auto.
    + apply non_decreasing_nondecr, non_increasing_rev; auto.
    + rewrite rev_length. apply gaps_rev. intros i Hi Hl. specialize (Hg i Hi).
      rewrite Rabs_left in Hg by lra. lra.
  - destruct (non_decreasing x) eqn:H4; cbn in Hf; [|discriminate]. inversion Hf; subst.
    apply fsi_shift_si; auto.
    + apply non_decreasing_nondecr; auto.
    + intros i Hi Hl. specialize (Hg i Hi). rewrite Rabs_right in Hg by lra. lra.
Qed.
