From Coq Require Import Reals List Arith Lia Lra Bool Sorted.
From Coquelicot Require Import Coquelicot.
From Verif Require Import Base PiecewiseModel SpecPiecewise SpecPiecewiseApi PiecewiseProofs PiecewiseProofs2 PiecewiseProofs3 PiecewiseProofs4
  LayersProofs LoadGen SpectralModel SpectralProofs SpectralProofs4 LoadModel SpecLoad LoadProofs.
Import ListNotations.
Open Scope R_scope.
Notation at_ := SpecPiecewise.at_.

(** ** Lists *)
Lemma sorted_unique (l m : list nat) : StronglySorted lt l -> StronglySorted lt m ->
  (forall i, In i l <-> In i m) -> l = m.
Proof.
  intros Hl. revert m. induction Hl as [|a l Hs IH Ha]; intros m Hm H.
  - destruct m as [|b m]; auto. exfalso. apply (H b). left; auto.
  - destruct m as [|b m]. { exfalso. apply (H a). left; auto. }
    inversion Hm as [|? ? Hs' Hb]; subst.
    rewrite Forall_forall in Ha, Hb.
    assert (a = b).
    { destruct (proj1 (H a) (or_introl eq_refl)) as [E|E]; auto.
      destruct (proj2 (H b) (or_introl eq_refl)) as [E'|E']; auto.
      specialize (Ha b E'). specialize (Hb a E). lia. }
    subst b. f_equal. apply IH; auto. intros i. split; intros Hi.
    + destruct (proj1 (H i) (or_intror Hi)) as [E|E]; auto. subst. specialize (Ha i Hi). lia.
    + destruct (proj2 (H i) (or_intror Hi)) as [E|E]; auto. subst. specialize (Hb i Hi). lia.
Qed.
Lemma sorted_filter_seq p a n : StronglySorted lt (filter p (seq a n)).
Proof.
  revert a; induction n as [|n IH]; intros a; cbn; [constructor|].
  destruct (p a); auto. constructor; auto. apply Forall_forall. intros i Hi.
  apply filter_In in Hi as (Hi & _). apply in_seq in Hi. lia.
Qed.
Lemma sumn_filter (p : nat -> bool) (g : nat -> R) l :
  sumn (map g (filter p l)) = sumn (map (fun k => if p k then g k else 0) l).
Proof. induction l as [|a l IH]; auto. cbn [filter]. destruct (p a) eqn:E; cbn [map sumn]; rewrite ?E, IH; cbn [nadd NumR]; auto. ring. Qed.
Lemma filter_filter {T} (p q : T -> bool) l : filter p (filter q l) = filter (fun a => q a && p a) l.
Proof. induction l as [|a l IH]; auto. cbn. destruct (q a) eqn:E; cbn; rewrite IH; auto. Qed.
Lemma sumn_single (g : nat -> R) i a n : (a <= i < a + n)%nat ->
  sumn (map (fun k => if Nat.eqb k i then g k else 0) (seq a n)) = g i.
Proof.
  revert a; induction n as [|n IH]; intros a H; [lia|].
  cbn [seq map sumn nadd NumR]. destruct (Nat.eqb_spec a i) as [->|Hne].
  - assert (E : forall m b, (i < b)%nat -> sumn (map (fun k => if Nat.eqb k i then g k else 0) (seq b m)) = 0).
    { clear. induction m; intros b Hb; cbn [seq map sumn nadd n0 NumR]; auto.
      destruct (Nat.eqb_spec b i); [lia|]. rewrite IHm by lia. ring. }
    rewrite E by lia. ring.
  - rewrite IH by lia. ring.
Qed.
Lemma sumn_zero {T} (l : list T) : sumn (map (fun _ => 0) l) = 0.
Proof. induction l; cbn [map sumn nadd n0 NumR]; auto. rewrite IHl. ring. Qed.

(** ** Classification as filters *)
Section Cls.
Variables x y : list R.
Definition stepb k := Reqb (at_ x k) (at_ x (S k)).
Definition constb k := negb (Reqb (at_ x k) (at_ x (S k))) && Reqb (at_ y k) (at_ y (S k)).
Definition rampb k := negb (Reqb (at_ x k) (at_ x (S k))) && negb (Reqb (at_ y k) (at_ y (S k))).


Lemma classify : length x = length y -> no_doubled_points x y ->
  ramps_constants_steps x y = Ok (filter rampb (all_segs x), filter constb (all_segs x), filter stepb (all_segs x)).
Proof.
  intros Hl Hd. destruct (classification_partial x y Hl Hd) as (r & c & s & E & (Sr & Sc & Ss) & H).
  rewrite E. assert (r = filter rampb (all_segs x) /\ c = filter constb (all_segs x) /\ s = filter stepb (all_segs x)).
  { unfold all_segs. repeat split; apply sorted_unique; auto using sorted_filter_seq; intros i; destruct (H i) as (H1 & H2 & H3);
    rewrite filter_In, in_seq; unfold rampb, constb, stepb;
    rewrite ?andb_true_iff, ?negb_true_iff, ?Reqb_true, ?Reqb_false; rewrite ?H1, ?H2, ?H3; intuition lia. }
  destruct H0 as (-> & -> & ->). reflexivity.
Qed.

Definition lessb (oe : bool) (t : R) k := if oe then Rleb (at_ x (S k)) t else Rltb (at_ x (S k)) t.
Lemma less_filter p oe t : segments_less_than1 x (filter p (all_segs x)) oe t =
  Ok (filter (fun k => p k && lessb oe t k) (all_segs x)).
Proof.
  unfold segments_less_than1. rewrite (filterM_filter _ (lessb oe t)); [f_equal; apply filter_filter|].
  intros k Hk. apply filter_In in Hk as (Hk & _). unfold all_segs in Hk. apply in_seq in Hk.
  rewrite (get_lt x (S k) 0) by lia. reflexivity.
Qed.

(** The first positive-width segment touching t. *)
Definition inb (t : R) (k : nat) : bool :=
  match filter (maskb x t) (all_segs x) with [] => false | h :: _ => Nat.eqb k h end.

Lemma containing_sets t : length x = length y -> no_doubled_points x y ->
  exists rc cc, containing_also_less1 x y true false false t =
    Ok (filter (fun k => rampb k && lessb false t k) (all_segs x),
        filter (fun k => constb k && lessb false t k) (all_segs x),
        filter (fun k => stepb k && lessb true t k) (all_segs x), rc, cc) /\
    (forall g : nat -> R, sumn (map g rc) = sumn (map (fun k => if rampb k && inb t k then g k else 0) (all_segs x))) /\
    (forall g : nat -> R, sumn (map g cc) = sumn (map (fun k => if constb k && inb t k then g k else 0) (all_segs x))) /\
    (forall k, In k rc -> In k (all_segs x) /\ rampb k = true) /\ (forall k, In k cc -> In k (all_segs x) /\ constb k = true).
Proof.
  intros Hl Hd. unfold containing_also_less1. rewrite (classify Hl Hd). cbn [bind]. rewrite !less_filter. cbn [bind].
  rewrite segment_containing1_eq. cbn [bind]. unfold inb.
  destruct (filter (maskb x t) (all_segs x)) as [|h tl] eqn:E.
  - exists [], []. split; [reflexivity|]. cbn [map sumn n0 NumR].
    assert (Z : forall p (g : nat -> R), sumn (map (fun k => if p k && false then g k else 0) (all_segs x)) = 0).
    { intros p g. rewrite <- (sumn_zero (all_segs x)) at 1. f_equal. apply map_ext. intros; rewrite andb_false_r; auto. }
    split; [intros; rewrite Z; auto|]. split; [intros; rewrite Z; auto|]. split; intros k [].
  - assert (Hh : In h (all_segs x) /\ maskb x t h = true) by (apply filter_In; rewrite E; left; auto).
    destruct Hh as (Hh & Hm). assert (Hr : (S h < length x)%nat) by (unfold all_segs in Hh; apply in_seq in Hh; lia).
    apply maskb_spec in Hm; auto. destruct Hm as (_ & Hne & _).
    assert (Ex : existsb (Nat.eqb h) (filter rampb (all_segs x)) = rampb h).
    { apply eq_true_iff_eq. rewrite existsb_exists. split.
      - intros (k & Hk & Ek). apply Nat.eqb_eq in Ek. subst. apply filter_In in Hk. tauto.
      - intros Hrb. exists h. split; [apply filter_In; auto|apply Nat.eqb_refl]. }
    rewrite Ex.
    assert (Hx : constb h = negb (rampb h)).
    { unfold constb, rampb. destruct (Reqb (at_ x h) (at_ x (S h))) eqn:Ee; [apply Reqb_true in Ee; contradiction|]. cbn. rewrite negb_involutive. reflexivity. }
    assert (One : forall (p : nat -> bool) (g : nat -> R), sumn (map (fun k => if p k && Nat.eqb k h then g k else 0) (all_segs x)) = if p h then g h else 0).
    { intros p g. transitivity (sumn (map (fun k => if Nat.eqb k h then (if p k then g k else 0) else 0) (all_segs x))).
      - f_equal. apply map_ext. intros k. destruct (p k), (Nat.eqb k h); auto.
      - unfold all_segs in *. apply in_seq in Hh. apply (sumn_single (fun k => if p k then g k else 0)). lia. }
    destruct (rampb h) eqn:Hb.
    + exists [h], []. split; [reflexivity|]. split; [intros g; rewrite (One rampb g), Hb; cbn [map sumn nadd n0 NumR]; ring|].
      split; [intros g; rewrite (One constb g), Hx; reflexivity|]. split; [intros k [<-|[]]; auto|intros k []].
    + exists [], [h]. split; [reflexivity|]. split; [intros g; rewrite (One rampb g), Hb; reflexivity|].
      split; [intros g; rewrite (One constb g), Hx; cbn [map sumn nadd n0 negb NumR]; ring|]. split; [intros k []|intros k [<-|[]]; auto].
Qed.

Definition clip (t : R) (v : R) : R := Rmax (at_ x 0) (Rmin t v).
(** contribution of segment k to an integral up to t, in terms of antiderivative differences *)
Definition piece (G : nat -> R -> R -> R) (t : R) (k : nat) : R :=
  if stepb k then 0 else
  (if lessb false t k then G k (at_ x k) (at_ x (S k)) else 0) + (if inb t k then G k (at_ x k) t else 0).

Lemma inb_spec t k : inb t k = true <-> in_segment x t k /\ forall j, in_segment x t j -> (k <= j)%nat.
Proof.
  unfold inb. pose proof (segment_containing1_spec x false t) as H. rewrite segment_containing1_eq in H.
  destruct (filter (maskb x t) (all_segs x)) as [|h tl].
  - destruct H as [(_ & H)|(i & E & _)]; [|discriminate]. split; [discriminate|]. intros (H1 & _). exfalso. apply (H k H1).
  - destruct H as [(E & _)|(i & E & H1 & H2)]; [discriminate|]. assert (h = i) by congruence. subst h.
    rewrite Nat.eqb_eq. split; [intros ->; auto|]. intros (H3 & H4). specialize (H2 k H3). specialize (H4 i H1). lia.
Qed.

Hypothesis Hn : nondecr x.
Hypothesis Hlen : (1 <= length x)%nat.
Variables (f : R -> R) (G : nat -> R -> R -> R) (t : R).
Hypothesis HG : forall k a b, (S k < length x)%nat -> at_ x k < at_ x (S k) ->
  at_ x k <= a -> a <= b -> b <= at_ x (S k) -> is_RInt f a b (G k a b).

Lemma pieces_RInt K : (K < length x)%nat ->
  is_RInt f (at_ x 0) (clip t (at_ x K)) (sumn (map (piece G t) (seq 0 K))).
Proof.
  assert (M : forall i j, (i <= j)%nat -> (j < length x)%nat -> at_ x i <= at_ x j) by (intros; apply nondecr_le; auto).
  induction K as [|K IH]; intros HK.
  - cbn. unfold clip. rewrite Rmax_left by apply Rmin_r. apply (is_RInt_point f).
  - specialize (IH ltac:(lia)). rewrite seq_S, map_app, sumn_app. cbn [map sumn nadd n0 NumR]. rewrite Rplus_0_r.
    apply (is_RInt_Chasles f _ (clip t (at_ x K))); auto. clear IH.
    pose proof (M 0%nat K ltac:(lia) ltac:(lia)) as M0. pose proof (Hn K ltac:(lia)) as HKs. change (0 + K)%nat with K.
    unfold piece. destruct (stepb K) eqn:Es.
    { unfold stepb in Es. apply Reqb_true in Es. rewrite <- Es. apply (is_RInt_point f). }
    unfold stepb in Es. apply Reqb_false in Es. assert (Hlt : at_ x K < at_ x (S K)) by lra.
    unfold lessb. destruct (Rltb (at_ x (S K)) t) eqn:El.
    + apply Rltb_true in El.
      assert (inb t K = false).
      { destruct (inb t K) eqn:E; auto. apply inb_spec in E as (E & _).
        apply in_segment_nondecr in E; auto. lra. }
      rewrite H, Rplus_0_r. unfold clip. rewrite (Rmin_right t (at_ x K)), (Rmin_right t (at_ x (S K))) by lra.
      rewrite !Rmax_right by lra. apply HG; auto; lra.
    + apply Rltb_false in El. rewrite Rplus_0_l. destruct (inb t K) eqn:Ei.
      * apply inb_spec in Ei as (Ei & _). apply in_segment_nondecr in Ei; auto. destruct Ei as (_ & _ & Ei).
        unfold clip. rewrite (Rmin_right t (at_ x K)), (Rmin_left t (at_ x (S K))) by lra.
        rewrite !Rmax_right by lra. apply HG; auto; lra.
      * assert (t <= at_ x K).
        { destruct (Rle_dec t (at_ x K)); auto. exfalso. assert (in_segment x t K) by (apply in_segment_nondecr; auto; repeat split; auto; lra).
          assert (inb t K = true); [|congruence]. apply inb_spec. split; auto. intros j Hj.
          destruct (le_lt_dec K j); auto. exfalso. pose proof Hj as Hj'. apply in_segment_nondecr in Hj; auto.
          assert (at_ x (S j) <= at_ x K) by (apply M; lia). lra. }
        unfold clip. rewrite !Rmin_left by lra. apply (is_RInt_point f).
Qed.
End Cls.

(** ** The two functions *)
Local Opaque Eload_scalar_const_in Eload_scalar_const_less Eload_scalar_ramp_in Eload_scalar_ramp_less
  Eload_vectorized_const_in Eload_vectorized_const_less Eload_vectorized_ramp_in Eload_vectorized_ramp_less
  EDload_scalar_ramp_in EDload_scalar_ramp_less EDload_vectorized_ramp_in EDload_vectorized_ramp_less.
Definition segG (x y : list R) (dT lam t : R) (k : nat) (a b : R) : R :=
  let q := (at_ y (S k) - at_ y k) / (at_ x (S k) - at_ x k) in
  HE (at_ y k - q * at_ x k) q dT lam t b - HE (at_ y k - q * at_ x k) q dT lam t a.
Definition segGD (x y : list R) (dT lam t : R) (k : nat) (a b : R) : R :=
  let q := (at_ y (S k) - at_ y k) / (at_ x (S k) - at_ x k) in HE q 0 dT lam t b - HE q 0 dT lam t a.

Lemma with_ok (x y : list R) k : length x = length y -> (S k < length x)%nat ->
  (forall f, with2 x y f k = Ok (f (at_ x k) (at_ y k))) /\
  (forall f, with3 x y f k = Ok (f (at_ x k) (at_ x (S k)) (at_ y k))) /\
  (forall f, with3' x y f k = Ok (f (at_ x k) (at_ y k) (at_ y (S k)))) /\
  (forall f, with4 x y f k = Ok (f (at_ x k) (at_ x (S k)) (at_ y k) (at_ y (S k)))).
Proof.
  intros Hl Hk. unfold with2, with3, with3', with4.
  rewrite (get_lt x k 0), (get_lt x (S k) 0), (get_lt y k 0), (get_lt y (S k) 0) by lia. cbn [bind]. auto.
Qed.
Lemma in_segs (x : list R) k : In k (all_segs x) -> (S k < length x)%nat.
Proof. unfold all_segs. rewrite in_seq. lia. Qed.

Section Rows.
Variables (x y : list R) (dT lam t : R).
Hypothesis Hl : length x = length y.
Hypothesis Hc : dT * lam <> 0.

Lemma const_q k : constb x y k = true -> at_ x k <> at_ x (S k) /\
  forall a b, segG x y dT lam t k a b = HE (at_ y k) 0 dT lam t b - HE (at_ y k) 0 dT lam t a.
Proof.
  unfold constb. rewrite andb_true_iff, negb_true_iff, Reqb_false, Reqb_true. intros (H1 & H2). split; auto.
  intros a b. unfold segG. rewrite <- H2. replace ((at_ y k - at_ y k) / (at_ x (S k) - at_ x k)) with 0 by (field; lra).
  cbv zeta. rewrite Rmult_0_l, Rminus_0_r. reflexivity.
Qed.
Lemma ramp_ne k : rampb x y k = true -> at_ x k <> at_ x (S k).
Proof. unfold rampb. rewrite andb_true_iff, negb_true_iff, Reqb_false. tauto. Qed.

Lemma Eload_entry_eq im sets : no_doubled_points x y -> containing_also_less1 x y true false false t = Ok sets ->
  Eload_entry im x y dT t sets lam = Ok (sumn (map (piece x (segG x y dT lam t) t) (all_segs x))).
Proof.
  intros Hd Hs. destruct (containing_sets x y t Hl Hd) as (rc & cc & E & Erc & Ecc & Hrc & Hcc).
  assert (sets = (filter (fun k => rampb x y k && lessb x false t k) (all_segs x),
        filter (fun k => constb x y k && lessb x false t k) (all_segs x),
        filter (fun k => stepb x k && lessb x true t k) (all_segs x), rc, cc)) by congruence. subst sets. clear Hs E.
  set (G := segG x y dT lam t) in *.
  assert (Tot : sumn (map (fun k => G k (at_ x k) t) cc ++
                 map (fun k => G k (at_ x k) (at_ x (S k))) (filter (fun k => constb x y k && lessb x false t k) (all_segs x)) ++
                 map (fun k => G k (at_ x k) t) rc ++
                 map (fun k => G k (at_ x k) (at_ x (S k))) (filter (fun k => rampb x y k && lessb x false t k) (all_segs x))) =
                sumn (map (piece x G t) (all_segs x))).
  { rewrite !sumn_app, Erc, Ecc, !sumn_filter. cbn [nadd NumR]. rewrite <- !sumn_map_plus.
    f_equal. apply map_ext. intros k. unfold piece, constb, rampb, stepb.
    destruct (Reqb (at_ x k) (at_ x (S k))), (Reqb (at_ y k) (at_ y (S k))), (lessb x false t k), (inb x t k); cbn [negb andb]; ring. }
  rewrite <- Tot. clear Tot Erc Ecc.
  assert (HF : forall ci cl ri rl,
    (forall k, constb x y k = true -> ci (at_ x k) (at_ y k) = G k (at_ x k) t) ->
    (forall k, constb x y k = true -> cl (at_ x k) (at_ x (S k)) (at_ y k) = G k (at_ x k) (at_ x (S k))) ->
    (forall k, rampb x y k = true -> ri (at_ x k) (at_ x (S k)) (at_ y k) (at_ y (S k)) = G k (at_ x k) t) ->
    (forall k, rampb x y k = true -> rl (at_ x k) (at_ x (S k)) (at_ y k) (at_ y (S k)) = G k (at_ x k) (at_ x (S k))) ->
    (a <- mapM (with2 x y ci) cc ;;
     b <- mapM (with3 x y cl) (filter (fun k => constb x y k && lessb x false t k) (all_segs x)) ;;
     c <- mapM (with4 x y ri) rc ;;
     d <- mapM (with4 x y rl) (filter (fun k => rampb x y k && lessb x false t k) (all_segs x)) ;;
     Ok (sumn (a ++ b ++ c ++ d))) =
    Ok (sumn (map (fun k => G k (at_ x k) t) cc ++
       map (fun k => G k (at_ x k) (at_ x (S k))) (filter (fun k => constb x y k && lessb x false t k) (all_segs x)) ++
       map (fun k => G k (at_ x k) t) rc ++
       map (fun k => G k (at_ x k) (at_ x (S k))) (filter (fun k => rampb x y k && lessb x false t k) (all_segs x))))).
  { intros ci cl ri rl H1 H2 H3 H4.
    rewrite (mapM_map (with2 x y ci) (fun k => G k (at_ x k) t) cc).
    2:{ intros k Hk. destruct (Hcc k Hk) as (Hk1 & Hk2). rewrite (proj1 (with_ok x y k Hl (in_segs _ _ Hk1))). rewrite H1; auto. }
    cbn [bind]. rewrite (mapM_map (with3 x y cl) (fun k => G k (at_ x k) (at_ x (S k)))).
    2:{ intros k Hk. apply filter_In in Hk as (Hk1 & Hk2). apply andb_true_iff in Hk2 as (Hk2 & _).
        destruct (with_ok x y k Hl (in_segs _ _ Hk1)) as (_ & W & _). rewrite W, H2; auto. }
    cbn [bind]. rewrite (mapM_map (with4 x y ri) (fun k => G k (at_ x k) t) rc).
    2:{ intros k Hk. destruct (Hrc k Hk) as (Hk1 & Hk2). destruct (with_ok x y k Hl (in_segs _ _ Hk1)) as (_ & _ & _ & W). rewrite W, H3; auto. }
    cbn [bind]. rewrite (mapM_map (with4 x y rl) (fun k => G k (at_ x k) (at_ x (S k)))).
    2:{ intros k Hk. apply filter_In in Hk as (Hk1 & Hk2). apply andb_true_iff in Hk2 as (Hk2 & _).
        destruct (with_ok x y k Hl (in_segs _ _ Hk1)) as (_ & _ & _ & W). rewrite W, H4; auto. }
    reflexivity. }
  assert (CI : forall k, constb x y k = true -> G k (at_ x k) t = HE (at_ y k) 0 dT lam t t - HE (at_ y k) 0 dT lam t (at_ x k))
    by (intros k Hk; apply (const_q k Hk)).
  assert (CL : forall k, constb x y k = true -> G k (at_ x k) (at_ x (S k)) = HE (at_ y k) 0 dT lam t (at_ x (S k)) - HE (at_ y k) 0 dT lam t (at_ x k))
    by (intros k Hk; apply (const_q k Hk)).
  unfold Eload_entry. destruct im; apply HF; intros k Hk;
  first [rewrite CI by auto; apply const_in_s; auto | rewrite CL by auto; apply const_less_s; auto
       | apply ramp_in_s; auto using ramp_ne | apply ramp_less_s; auto using ramp_ne
       | rewrite CI by auto; apply const_in_v; auto | rewrite CL by auto; apply const_less_v; auto
       | apply ramp_in_v; auto using ramp_ne | apply ramp_less_v; auto using ramp_ne ].
Qed.

(** jumps at or before t *)
Definition jump (k : nat) : R := if stepb x k && lessb x true t k then exp (- dT * lam * (t - at_ x k)) * (at_ y (S k) - at_ y k) else 0.
Lemma EDload_entry_eq im sets : no_doubled_points x y -> containing_also_less1 x y true false false t = Ok sets ->
  EDload_entry im x y dT t sets lam = Ok (sumn (map jump (all_segs x)) + sumn (map (piece x (segGD x y dT lam t) t) (all_segs x))).
Proof.
  intros Hd Hs. destruct (containing_sets x y t Hl Hd) as (rc & cc & E & Erc & Ecc & Hrc & Hcc).
  assert (sets = (filter (fun k => rampb x y k && lessb x false t k) (all_segs x),
        filter (fun k => constb x y k && lessb x false t k) (all_segs x),
        filter (fun k => stepb x k && lessb x true t k) (all_segs x), rc, cc)) by congruence. subst sets. clear Hs E.
  set (G := segGD x y dT lam t) in *.
  set (J k := exp (- dT * lam * (t - at_ x k)) * (at_ y (S k) - at_ y k)).
  assert (CZ : forall k, constb x y k = true -> forall a b, G k a b = 0).
  { intros k. unfold constb. rewrite andb_true_iff, negb_true_iff, Reqb_false, Reqb_true. intros (H1 & H2) a b.
    unfold G, segGD. rewrite <- H2. replace ((at_ y k - at_ y k) / (at_ x (S k) - at_ x k)) with 0 by (field; lra).
    unfold HE, Rdiv. ring. }
  assert (Tot : sumn (map J (filter (fun k => stepb x k && lessb x true t k) (all_segs x)) ++
                 map (fun k => G k (at_ x k) t) rc ++
                 map (fun k => G k (at_ x k) (at_ x (S k))) (filter (fun k => rampb x y k && lessb x false t k) (all_segs x))) =
                sumn (map jump (all_segs x)) + sumn (map (piece x G t) (all_segs x))).
  { rewrite !sumn_app, Erc, !sumn_filter. cbn [nadd NumR]. rewrite <- !sumn_map_plus.
    f_equal. apply map_ext. intros k. specialize (CZ k). unfold jump, piece, constb, rampb, stepb, J in *.
    destruct (Reqb (at_ x k) (at_ x (S k))), (Reqb (at_ y k) (at_ y (S k))), (lessb x false t k), (inb x t k), (lessb x true t k);
      cbn [negb andb] in *; rewrite ?CZ by auto; ring. }
  rewrite <- Tot. clear Tot Erc Ecc.
  assert (HF : forall st ri rl,
    (forall k, st (at_ x k) (at_ y k) (at_ y (S k)) = J k) ->
    (forall k, rampb x y k = true -> ri (at_ x k) (at_ x (S k)) (at_ y k) (at_ y (S k)) = G k (at_ x k) t) ->
    (forall k, rampb x y k = true -> rl (at_ x k) (at_ x (S k)) (at_ y k) (at_ y (S k)) = G k (at_ x k) (at_ x (S k))) ->
    (a <- mapM (with3' x y st) (filter (fun k => stepb x k && lessb x true t k) (all_segs x)) ;;
     b <- mapM (with4 x y ri) rc ;;
     c <- mapM (with4 x y rl) (filter (fun k => rampb x y k && lessb x false t k) (all_segs x)) ;;
     Ok (sumn (a ++ b ++ c))) =
    Ok (sumn (map J (filter (fun k => stepb x k && lessb x true t k) (all_segs x)) ++
       map (fun k => G k (at_ x k) t) rc ++
       map (fun k => G k (at_ x k) (at_ x (S k))) (filter (fun k => rampb x y k && lessb x false t k) (all_segs x))))).
  { intros st ri rl H1 H3 H4.
    rewrite (mapM_map (with3' x y st) J).
    2:{ intros k Hk. apply filter_In in Hk as (Hk1 & _). destruct (with_ok x y k Hl (in_segs _ _ Hk1)) as (_ & _ & W & _). rewrite W, H1; auto. }
    cbn [bind]. rewrite (mapM_map (with4 x y ri) (fun k => G k (at_ x k) t) rc).
    2:{ intros k Hk. destruct (Hrc k Hk) as (Hk1 & Hk2). destruct (with_ok x y k Hl (in_segs _ _ Hk1)) as (_ & _ & _ & W). rewrite W, H3; auto. }
    cbn [bind]. rewrite (mapM_map (with4 x y rl) (fun k => G k (at_ x k) (at_ x (S k)))).
    2:{ intros k Hk. apply filter_In in Hk as (Hk1 & Hk2). apply andb_true_iff in Hk2 as (Hk2 & _).
        destruct (with_ok x y k Hl (in_segs _ _ Hk1)) as (_ & _ & _ & W). rewrite W, H4; auto. }
    reflexivity. }
  unfold EDload_entry. destruct im; apply HF; intros k; try intros Hk;
  first [ reflexivity
       | apply Dramp_in_s; auto using ramp_ne | apply Dramp_less_s; auto using ramp_ne
       | apply Dramp_in_v; auto using ramp_ne | apply Dramp_less_v; auto using ramp_ne ].
Qed.
End Rows.
