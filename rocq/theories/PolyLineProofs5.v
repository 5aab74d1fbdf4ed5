(** * remove_superfluous_from_x_y *)
From Coq Require Import Reals List Arith Lia Lra Bool Sorted.
From Verif Require Import Base PiecewiseModel LayersModel SpecPiecewise SpecPiecewiseApi
  PiecewiseProofs PiecewiseProofs2 PiecewiseProofs3 LayersProofs PolyLineModel SpecPolyLine PolyLineProofs2 PolyLineProofs3 PolyLineProofs4.
Import ListNotations.
Open Scope R_scope.

Definition goodseg (atol : R) (x y : list R) (a b : nat) : Prop := rs_close x y a b = true \/ rs_far atol x y a b = false.
Definition goodsegs atol x y (ks : list nat) : Prop := forall a b, In (a, b) (pairs ks) -> goodseg atol x y a b.

Lemma pairs_snoc {T} (ks : list T) (j m : T) : pairs (ks ++ [j] ++ [m]) = pairs (ks ++ [j]) ++ [(j, m)].
Proof.
  induction ks as [|a [|b ks] IH]; auto.
  change (pairs ((a :: b :: ks) ++ [j] ++ [m])) with ((a, b) :: pairs ((b :: ks) ++ [j] ++ [m])).
  rewrite IH. reflexivity.
Qed.
Lemma sorted_snoc (ks : list nat) m : StronglySorted lt ks -> (forall k, In k ks -> (k < m)%nat) -> StronglySorted lt (ks ++ [m]).
Proof.
  induction 1 as [|a ks S IH F]; cbn; intros H; [repeat constructor|]. constructor; [apply IH; intros; apply H; auto|].
  rewrite Forall_forall in *. intros x Hx. apply in_app_or in Hx. destruct Hx as [Hx|[<-|[]]]; auto.
Qed.
Lemma rs_loop atol x y m : (1 <= m)%nat ->
  exists ks, let '(j, removed) := fold_left (rs_step atol x y) (seq 2 (m - 1)) (0%nat, []) in
    StronglySorted lt (ks ++ [j]) /\ (exists t, ks ++ [j] = 0%nat :: t) /\ (j < m)%nat /\
    (forall k, (k < m)%nat -> (In k (ks ++ [j]) <-> ~ In k removed)) /\ (forall k, In k removed -> (k < m)%nat) /\
    goodsegs atol x y (ks ++ [j]) /\ goodseg atol x y j m.
Proof.
  induction m as [|m IH]; intros Hm; [lia|]. destruct (Nat.eq_dec m 0) as [->|Hm0].
  - exists []. cbn. split; [repeat constructor|]. split; [eauto|]. split; [lia|]. split; [|split; [contradiction|split]].
    + intros k Hk. assert (k = 0)%nat as -> by lia. tauto.
    + intros a b [].
    + right. reflexivity.
  - destruct (IH ltac:(lia)) as (ks & H). replace (S m - 1)%nat with (m - 1 + 1)%nat by lia.
    rewrite seq_app, fold_left_app. destruct (fold_left (rs_step atol x y) (seq 2 (m - 1)) (0%nat, [])) as [j removed].
    destruct H as (S1 & (t & Ht) & Hj & Hk & Hr & Hg & Hl).
    replace (2 + (m - 1))%nat with (S m) by lia. cbn [seq fold_left rs_step].
    assert (Drop : goodseg atol x y j (S m) ->
       StronglySorted lt (ks ++ [j]) /\ (exists t, ks ++ [j] = 0%nat :: t) /\ (j < S m)%nat /\
       (forall k, (k < S m)%nat -> (In k (ks ++ [j]) <-> ~ In k (m :: removed))) /\ (forall k, In k (m :: removed) -> (k < S m)%nat) /\
       goodsegs atol x y (ks ++ [j]) /\ goodseg atol x y j (S m)).
    { intros G. split; auto. split; [eauto|]. split; [lia|]. split; [|split; [|split; auto]].
      - intros k Hkm. destruct (Nat.eq_dec k m) as [->|N].
        + split; [|intros C; exfalso; apply C; left; auto]. intros C. exfalso.
          assert (forall k, In k (ks ++ [j]) -> (k <= j)%nat); [|specialize (H m C); lia].
          clear - S1. induction ks as [|a ks IHks]; cbn in *; [intros k [<-|[]]; lia|].
          inversion S1 as [|? ? S2 F]; subst. rewrite Forall_forall in F. intros k [<-|H].
          * assert (a < j)%nat by (apply F; apply in_or_app; right; left; auto). lia.
          * apply IHks; auto.
        + rewrite Hk by lia. cbn. split; [intros A [B|B]; [lia|tauto]|tauto].
      - intros k [<-|H]; [lia|]. apply Hr in H. lia. }
    replace (S m - 1)%nat with m by lia.
    destruct (rs_close x y j (S m)) eqn:Ec; [|destruct (rs_far atol x y j (S m)) eqn:Ef].
    + exists ks. apply Drop. left; auto.
    + exists (ks ++ [j]). split.
      { apply sorted_snoc; auto. intros k Hin.
        assert (forall k, In k (ks ++ [j]) -> (k <= j)%nat); [|specialize (H k Hin); lia].
        clear - S1. induction ks as [|a ks IHks]; cbn in *; [intros k [<-|[]]; lia|].
        inversion S1 as [|? ? S2 F]; subst. rewrite Forall_forall in F. intros k [<-|H].
        * assert (a < j)%nat by (apply F; apply in_or_app; right; left; auto). lia.
        * apply IHks; auto. }
      split; [rewrite Ht; cbn; eauto|]. split; [lia|]. split; [|split; [|split]].
      * intros k Hkm. destruct (Nat.eq_dec k m) as [->|N].
        -- split; [intros _ C; apply Hr in C; lia|]. intros _. apply in_or_app. right. left. auto.
        -- rewrite <- Hk by lia. split; intros A; [|apply in_or_app; auto]. apply in_app_or in A. destruct A as [A|[A|[]]]; auto. lia.
      * intros k H. apply Hr in H. lia.
      * intros a b Hab. rewrite <- app_assoc, pairs_snoc in Hab. apply in_app_or in Hab. destruct Hab as [Hab|[Hab|[]]]; [apply Hg; auto|].
        inversion Hab; subst. auto.
      * right. unfold rs_far. rewrite Nat.sub_diag. reflexivity.
    + exists ks. apply Drop. right; auto.
Qed.
Lemma filter_sorted_eq (f : nat -> bool) a n ks : StronglySorted lt ks ->
  (forall k, In k ks <-> (a <= k < a + n)%nat /\ f k = true) -> filter f (seq a n) = ks.
Proof.
  revert a ks; induction n as [|n IH]; intros a ks S H; cbn.
  - destruct ks as [|k ks]; auto. destruct (proj1 (H k) (or_introl eq_refl)). lia.
  - destruct (f a) eqn:E.
    + destruct ks as [|k ks].
      { exfalso. assert (In a []); [|contradiction]. apply H. split; [lia|auto]. }
      inversion S as [|? ? S1 F]; subst. rewrite Forall_forall in F.
      assert (k = a).
      { destruct (proj1 (H k) (or_introl eq_refl)) as [A _]. assert (In a (k :: ks)) as [B|B] by (apply H; split; [lia|auto]); auto. apply F in B. lia. }
      subst k. f_equal. apply IH; auto. intros k. split.
      * intros Hk. destruct (proj1 (H k) (or_intror Hk)) as [A B]. specialize (F k Hk). split; [lia|auto].
      * intros [A B]. assert (In k (a :: ks)) as [C|C] by (apply H; split; [lia|auto]); auto. lia.
    + apply IH; auto. intros k. rewrite H. split; intros [A B]; split; auto; [|lia].
      assert (k <> a) by congruence. lia.
Qed.

Lemma goodseg_chord atol p a b k : 0 <= atol -> goodseg atol (px p) (py p) a b -> (a < k < b)%nat -> on_chord atol p a b k.
Proof.
  intros Ha H Hk. unfold on_chord. unfold goodseg, rs_close, rs_far in H.
  assert (EX : forall i, nth i (px p) 0 = fst (nth i p (0, 0))) by (intros; apply px_at).
  assert (EY : forall i, nth i (py p) 0 = snd (nth i p (0, 0))) by (intros; apply py_at).
  rewrite !EX, !EY in H. cbv zeta.
  set (dx := fst (nth b p (0, 0)) - fst (nth a p (0, 0))) in *. set (dy := snd (nth b p (0, 0)) - snd (nth a p (0, 0))) in *.
  assert (P : 0 <= sqrt (dx ^ 2 + dy ^ 2)) by apply sqrt_pos.
  set (d := sqrt (dx ^ 2 + dy ^ 2)) in *.
  destruct (Rle_or_lt d (/ 100000000)) as [L|L]; [left; auto|]. right. assert (0 < d) by lra. split; auto. destruct H as [H|H].
  - exfalso. unfold isclose in H. cbn in H. apply Rleb_true in H. rewrite nabs_R in H. change (nabs 0) with (nabs (0:R)) in H. rewrite nabs_R in H.
    rewrite Rminus_0_r, Rabs_R0, Rmult_0_r, Rplus_0_r, Rabs_pos_eq in H by auto. unfold atol_default in H. cbn in H. lra.
  - destruct (Rle_or_lt (Rabs (dx * (snd (nth a p (0, 0)) - snd (nth k p (0, 0))) - dy * (fst (nth a p (0, 0)) - fst (nth k p (0, 0)))) / d) atol) as [C|C]; auto.
    exfalso. assert (T : existsb (fun k => Rltb atol (Rabs ((dx * (snd (nth a p (0, 0)) - nth k (py p) 0) - dy * (fst (nth a p (0, 0)) - nth k (px p) 0)) / d))) (seq (S a) (b - S a)) = true).
    { apply existsb_exists. exists k. split; [apply in_seq; lia|]. apply Rltb_true. rewrite EX, EY. unfold Rdiv at 1. rewrite Rabs_mult, Rabs_inv, (Rabs_pos_eq d) by lra. exact C. }
    rewrite T in H. discriminate.
Qed.

Definition kept_points (p : points) (ks : list nat) : points := map (fun k => nth k p (0, 0)) ks.

Lemma remove_superfluous_spec atol p : 0 <= atol -> (2 <= length p)%nat ->
  exists ks, StronglySorted lt ks /\ hd_error ks = Some 0%nat /\ last ks 0%nat = (length p - 1)%nat /\
    remove_superfluous_from_x_y atol p = kept_points p ks /\
    (forall k, In k ks -> (k < length p)%nat) /\
    forall a b k, In (a, b) (pairs ks) -> (a < k < b)%nat -> on_chord atol p a b k.
Proof.
  intros Ha Hl. unfold remove_superfluous_from_x_y. destruct (Nat.leb (length p) 2) eqn:E.
  - apply Nat.leb_le in E. assert (E2 : length p = 2%nat) by lia. exists [0%nat; 1%nat].
    destruct p as [|u [|v [|w p]]]; cbn in E2; try lia. cbn. repeat split; auto.
    + repeat constructor.
    + intros k [<-|[<-|[]]]; lia.
    + intros a b k [H|[]] Hk. inversion H; subst. lia.
  - apply Nat.leb_gt in E. destruct (rs_loop atol (px p) (py p) (length p - 1)) as (ks & H); [lia|].
    unfold rs_removed. rewrite px_length. replace (length p - 1 - 1)%nat with (length p - 2)%nat in H by lia.
    destruct (fold_left (rs_step atol (px p) (py p)) (seq 2 (length p - 2)) (0%nat, [])) as [j removed]. cbn [snd].
    destruct H as (S1 & (t & Ht) & Hj & Hk & Hr & Hg & Hgl).
    assert (Hle : forall k, In k (ks ++ [j]) -> (k <= j)%nat).
    { clear - S1. induction ks as [|a ks IHks]; cbn in *; [intros k [<-|[]]; lia|].
        inversion S1 as [|? ? S2 F]; subst. rewrite Forall_forall in F. intros k [<-|H].
        * assert (a < j)%nat by (apply F; apply in_or_app; right; left; auto). lia.
        * apply IHks; auto. }
    assert (S2 : StronglySorted lt ((ks ++ [j]) ++ [(length p - 1)%nat])).
    { apply sorted_snoc; auto. intros k Hin. apply Hle in Hin. lia. }
    exists ((ks ++ [j]) ++ [(length p - 1)%nat]). split; auto. split; [rewrite Ht; reflexivity|]. split; [apply last_last|].
    split; [|split].
    + unfold kept_points. f_equal. apply filter_sorted_eq; auto. intros k. 
      assert (X : negb (existsb (Nat.eqb k) removed) = true <-> ~ In k removed).
      { rewrite negb_true_iff, <- not_true_iff_false, existsb_exists. split; intros A B; apply A.
        - exists k. split; auto. apply Nat.eqb_refl.
        - destruct B as (z & Hz & Ez). apply Nat.eqb_eq in Ez. congruence. }
      rewrite X. split.
      * intros Hin. apply in_app_or in Hin. destruct Hin as [Hin|[<-|[]]].
        -- pose proof (Hle _ Hin). split; [lia|]. apply Hk; auto. lia.
        -- split; [lia|]. intros C. apply Hr in C. lia.
      * intros [A B]. apply in_or_app. destruct (Nat.eq_dec k (length p - 1)) as [->|N]; [right; left; auto|]. left. apply Hk; auto. lia.
    + intros k Hin. apply in_app_or in Hin. destruct Hin as [Hin|[<-|[]]]; [apply Hle in Hin|]; lia.
    + intros a b k Hab Hkk. rewrite <- app_assoc, pairs_snoc in Hab. apply goodseg_chord; auto. apply in_app_or in Hab. destruct Hab as [Hab|[Hab|[]]]; auto.
      inversion Hab; subst; auto.
Qed.
