(** * shanks and shanks_table *)
From Coq Require Import Reals List Bool ZArith Lia Lra.
From Verif Require Import Base QuadratureModel SpecQuadrature.
Import ListNotations.
Open Scope R_scope.

(** ** lists *)
Lemma triples_length l : length (triples l) = (length l - 2)%nat.
Proof.
  induction l as [|a l IH]; [reflexivity|]. destruct l as [|b [|c l]]; [reflexivity|reflexivity|].
  change (triples (a :: b :: c :: l)) with ((a, b, c) :: triples (b :: c :: l)). cbn [length] in *. lia.
Qed.
Lemma triples_nth l k d : (k + 2 < length l)%nat -> nth k (triples l) d = (nth k l 0, nth (k + 1) l 0, nth (k + 2) l 0).
Proof.
  revert k. induction l as [|a l IH]; intros k Hk; [cbn in Hk; lia|].
  destruct l as [|b [|c l]]; [cbn in Hk; lia|cbn in Hk; lia|].
  change (triples (a :: b :: c :: l)) with ((a, b, c) :: triples (b :: c :: l)).
  destruct k; [reflexivity|]. cbn [nth]. cbn [length] in Hk. rewrite IH by (cbn; lia). reflexivity.
Qed.
Lemma nth_skipn {A} i k (l : list A) d : nth k (skipn i l) d = nth (i + k) l d.
Proof. revert l. induction i as [|i IH]; intros l; [reflexivity|]. destruct l as [|a l]; [destruct k; reflexivity|]. cbn. apply IH. Qed.
Lemma triples_map f l : triples (map f l) = map (fun t => let '(a, b, c) := t in (f a, f b, f c)) (triples l).
Proof.
  induction l as [|a l IH]; [reflexivity|]. destruct l as [|b [|c l]]; [reflexivity|reflexivity|].
  change (map f (a :: b :: c :: l)) with (f a :: f b :: f c :: map f l).
  change (triples (f a :: f b :: f c :: map f l)) with ((f a, f b, f c) :: triples (map f (b :: c :: l))).
  rewrite IH. reflexivity.
Qed.
(** ** the loop *)
Lemma loop_length n : forall i l, (length (shanks_loop n i l) = length l)%nat.
Proof.
  induction n as [|n IH]; intros i l; [reflexivity|]. cbn [shanks_loop]. destruct (Nat.ltb_spec i (length l - 2)); [|reflexivity].
  destruct existsb; [reflexivity|]. rewrite IH. rewrite app_length, firstn_length, map_length, triples_length, skipn_length. lia.
Qed.
Lemma shank_aitken t : shank t = let '(a, b, c) := t in aitken a b c.
Proof. destruct t as [[a b] c]. unfold shank, aitken, denom. f_equal. ring. Qed.

(** a loop that starts where the tail is constant does nothing to the last entry *)
Lemma loop_const_tail n i l L : (i + 2 <= length l)%nat -> (forall k, (i <= k < length l)%nat -> nth k l 0 = L) ->
  nth (length l - 1) (shanks_loop n i l) 0 = L.
Proof.
  intros Hi H. destruct n as [|n]; [apply H; lia|]. cbn [shanks_loop]. destruct (Nat.ltb_spec i (length l - 2)); [|apply H; lia].
  destruct existsb eqn:E; [apply H; lia|]. exfalso.
  assert (X : existsb (fun t => Reqb (denom t) 0) (triples (skipn i l)) = true); [|congruence].
  apply existsb_exists. exists (nth 0 (triples (skipn i l)) (0, 0, 0)). split.
  - apply nth_In. rewrite triples_length, skipn_length. lia.
  - rewrite triples_nth by (rewrite skipn_length; lia). rewrite !nth_skipn. cbn [denom]. rewrite !H by lia. apply Reqb_true. ring.
Qed.
Lemma loop_short n i l : (length l <= i + 2)%nat -> shanks_loop n i l = l.
Proof. intros H. destruct n; [reflexivity|]. cbn [shanks_loop]. destruct (Nat.ltb_spec i (length l - 2)); [lia|reflexivity]. Qed.

Lemma pow_q q k : q ^ S k = q * q ^ k. Proof. reflexivity. Qed.
Lemma denom_geo L a q k : denom (L + a * q ^ k, L + a * q ^ (k + 1), L + a * q ^ (k + 2)) = a * q ^ k * (q - 1) ^ 2.
Proof. unfold denom. rewrite (Nat.add_comm k 1), (Nat.add_comm k 2). cbn [Nat.add pow]. ring. Qed.
Lemma shank_geo L a q k : denom (L + a * q ^ k, L + a * q ^ (k + 1), L + a * q ^ (k + 2)) <> 0 ->
  shank (L + a * q ^ k, L + a * q ^ (k + 1), L + a * q ^ (k + 2)) = L.
Proof.
  intros H. unfold shank. apply Rmult_eq_reg_r with (denom (L + a * q ^ k, L + a * q ^ (k + 1), L + a * q ^ (k + 2))); auto.
  unfold Rdiv. rewrite Rmult_assoc, Rinv_l, Rmult_1_r by auto. rewrite denom_geo.
  rewrite (Nat.add_comm k 1), (Nat.add_comm k 2). cbn [Nat.add pow]. ring.
Qed.

(** exactness on L + a q^k, in the tail from i on *)
Lemma loop_geometric n i l L a q : (q <> 1 \/ a = 0) -> (i + 3 <= length l)%nat -> (0 < n)%nat ->
  (forall k, (i <= k < length l)%nat -> nth k l 0 = L + a * q ^ k) ->
  nth (length l - 1) (shanks_loop n i l) 0 = L.
Proof.
  intros Hq Hi Hn H. destruct n as [|n]; [lia|]. cbn [shanks_loop]. destruct (Nat.ltb_spec i (length l - 2)); [|lia].
  destruct existsb eqn:E.
  - apply existsb_exists in E. destruct E as (t & Ht & E). apply Reqb_true in E.
    destruct (In_nth _ _ (0, 0, 0) Ht) as (k & Hk & E2). rewrite triples_length, skipn_length in Hk.
    rewrite triples_nth in E2 by (rewrite skipn_length; lia). rewrite !nth_skipn in E2. rewrite !H in E2 by lia. rewrite <- E2 in E.
    rewrite !Nat.add_assoc in E. rewrite denom_geo in E. rewrite H by lia. apply Rmult_integral in E. destruct E as [E|E].
    + replace (length l - 1)%nat with (i + k + (length l - 1 - (i + k)))%nat by lia. rewrite pow_add.
      replace (a * (q ^ (i + k) * q ^ (length l - 1 - (i + k)))) with (a * q ^ (i + k) * q ^ (length l - 1 - (i + k))) by ring. rewrite E. ring.
    + destruct Hq as [Hq| ->]; [|ring]. exfalso. assert (X : q - 1 <> 0) by lra. apply (pow_nonzero _ 2) in X. auto.
  - set (l2 := firstn (i + 2) l ++ map shank (triples (skipn i l))).
    assert (L2 : length l2 = length l). { unfold l2. rewrite app_length, firstn_length, map_length, triples_length, skipn_length. lia. }
    rewrite <- L2. destruct (Nat.le_gt_cases (length l2) (i + 2 + 2)) as [S|S].
    + rewrite loop_short by lia.
      assert (G : forall k, (i + 2 <= k < length l2)%nat -> nth k l2 0 = L).
      { intros k Hk. unfold l2. rewrite app_nth2 by (rewrite firstn_length; lia). rewrite firstn_length. replace (Nat.min (i + 2) (length l)) with (i + 2)%nat by lia.
        rewrite (nth_indep _ 0 (shank (0, 0, 0))) by (rewrite map_length, triples_length, skipn_length; lia). rewrite map_nth.
        assert (D : denom (nth (k - (i + 2)) (triples (skipn i l)) (0, 0, 0)) <> 0).
        { intros D. assert (X : existsb (fun t => Reqb (denom t) 0) (triples (skipn i l)) = true); [|congruence]. apply existsb_exists. eexists. split; [|apply Reqb_true; exact D].
          apply nth_In. rewrite triples_length, skipn_length. lia. }
        rewrite triples_nth in * by (rewrite skipn_length; lia). rewrite !nth_skipn in *. rewrite !H in * by lia. rewrite !Nat.add_assoc in *. apply shank_geo. auto. }
      apply G. lia.
    + apply loop_const_tail; [lia|]. intros k Hk. unfold l2. rewrite app_nth2 by (rewrite firstn_length; lia). rewrite firstn_length. replace (Nat.min (i + 2) (length l)) with (i + 2)%nat by lia.
      rewrite (nth_indep _ 0 (shank (0, 0, 0))) by (rewrite map_length, triples_length, skipn_length; lia). rewrite map_nth.
      assert (D : denom (nth (k - (i + 2)) (triples (skipn i l)) (0, 0, 0)) <> 0).
      { intros D. assert (X : existsb (fun t => Reqb (denom t) 0) (triples (skipn i l)) = true); [|congruence]. apply existsb_exists. eexists. split; [|apply Reqb_true; exact D].
        apply nth_In. rewrite triples_length, skipn_length. lia. }
      rewrite triples_nth in * by (rewrite skipn_length; lia). rewrite !nth_skipn in *. rewrite !H in * by lia. rewrite !Nat.add_assoc in *. apply shank_geo. auto.
Qed.

(** ** affine equivariance *)
Lemma denom_affine al be a b c : denom (al * a + be, al * b + be, al * c + be) = al * denom (a, b, c).
Proof. unfold denom. ring. Qed.
Lemma shank_affine al be a b c : al <> 0 -> denom (a, b, c) <> 0 ->
  shank (al * a + be, al * b + be, al * c + be) = al * shank (a, b, c) + be.
Proof.
  intros Ha Hd. unfold shank. rewrite denom_affine. apply Rmult_eq_reg_r with (al * denom (a, b, c)); [|apply Rmult_integral_contrapositive; auto].
  unfold Rdiv. rewrite Rmult_assoc, Rinv_l, Rmult_1_r by (apply Rmult_integral_contrapositive; auto).
  replace ((al * ((c * a - b ^ 2) * / denom (a, b, c)) + be) * (al * denom (a, b, c)))
    with (al * al * (c * a - b ^ 2) * (/ denom (a, b, c) * denom (a, b, c)) + be * (al * denom (a, b, c))) by ring.
  rewrite Rinv_l by auto. unfold denom. ring.
Qed.
Lemma loop_affine al be n : al <> 0 -> forall i l, shanks_loop n i (map (fun x => al * x + be) l) = map (fun x => al * x + be) (shanks_loop n i l).
Proof.
  intros Ha. induction n as [|n IH]; intros i l; [reflexivity|]. cbn [shanks_loop]. rewrite map_length.
  destruct (Nat.ltb_spec i (length l - 2)); [|reflexivity]. rewrite skipn_map, triples_map.
  assert (Z : forall t, Reqb (denom (let '(a, b, c) := t in (al * a + be, al * b + be, al * c + be))) 0 = Reqb (denom t) 0).
  { intros [[a b] c]. rewrite denom_affine. destruct (Reqb (denom (a, b, c)) 0) eqn:E.
    - apply Reqb_true in E. rewrite E. apply Reqb_true. ring.
    - apply Reqb_false in E. apply Reqb_false. apply Rmult_integral_contrapositive. auto. }
  assert (X : forall T, existsb (fun t => Reqb (denom t) 0) (map (fun t => let '(a, b, c) := t in (al * a + be, al * b + be, al * c + be)) T) = existsb (fun t => Reqb (denom t) 0) T).
  { intros T. induction T as [|t T IHT]; [reflexivity|]. cbn [map existsb]. rewrite Z, IHT. reflexivity. }
  rewrite X. destruct existsb eqn:E; [reflexivity|]. rewrite <- IH. f_equal. rewrite map_app, firstn_map. f_equal. rewrite !map_map. apply map_ext_in.
  intros [[a b] c] Ht. apply shank_affine; auto. intros D. rewrite <- (Bool.not_true_iff_false) in E. apply E. apply existsb_exists. eexists. split; [exact Ht|]. apply Reqb_true. exact D.
Qed.

(** ** the epsilon table *)
(** every row was computed from the one before *)
Definition valid (seq : list R) (T : list (list R)) : Prop := forall i, (i < length T)%nat -> table_row seq T i = Some (nth i T []).
Lemma row_prev seq T T' i : nth (i - 1) T [] = nth (i - 1) T' [] -> table_row seq T i = table_row seq T' i.
Proof. intros H. unfold table_row. rewrite H. reflexivity. Qed.
Lemma row_0 seq T T' : table_row seq T 0 = table_row seq T' 0.
Proof. unfold table_row. reflexivity. Qed.
Lemma valid_nil seq : valid seq []. Proof. intros i Hi. cbn in Hi. lia. Qed.
Lemma row_app seq T r i : (i <= length T)%nat -> table_row seq (T ++ r) i = table_row seq T i.
Proof. intros H. destruct i; [apply row_0|]. apply row_prev. rewrite app_nth1 by lia. reflexivity. Qed.
Lemma valid_snoc seq T r : valid seq T -> table_row seq T (length T) = Some r -> valid seq (T ++ [r]).
Proof.
  intros V H i Hi. rewrite app_length in Hi. cbn in Hi. rewrite row_app by lia. destruct (Nat.eq_dec i (length T)) as [->|N].
  - rewrite H, nth_middle. reflexivity.
  - rewrite app_nth1 by lia. apply V. lia.
Qed.
Lemma valid_prefix seq T r : valid seq (T ++ r) -> valid seq T.
Proof. intros V i Hi. rewrite <- (row_app seq T r) by lia. rewrite V by (rewrite app_length; lia). rewrite app_nth1 by lia. reflexivity. Qed.

Lemma rows_valid seq n : forall i T, length T = i -> valid seq T -> valid seq (table_rows seq n i T).
Proof.
  induction n as [|n IH]; intros i T HT V; [exact V|]. cbn [table_rows]. destruct (table_row seq T i) as [row|] eqn:E.
  - apply IH; [rewrite app_length; cbn; lia|]. apply valid_snoc; auto. rewrite HT. auto.
  - destruct (Nat.odd i); [|exact V]. destruct T as [|t T0] using rev_ind; [exact V|]. rewrite removelast_last. eapply valid_prefix; eauto.
Qed.
Lemma rows_length seq n : forall i T, length T = i -> (length (table_rows seq n i T) <= i + n)%nat /\
  (Nat.even (i + n) = true -> Nat.even (length (table_rows seq n i T)) = true).
Proof.
  induction n as [|n IH]; intros i T HT; cbn [table_rows]; [rewrite Nat.add_0_r, HT; split; auto|].
  destruct (table_row seq T i) as [row|] eqn:E.
  - destruct (IH (S i) (T ++ [row]) ltac:(rewrite app_length; cbn; lia)) as [H1 H2]. replace (i + S n)%nat with (S i + n)%nat by lia. split; auto.
  - destruct (Nat.odd i) eqn:O.
    + destruct T as [|t T0] using rev_ind; [cbn in HT; subst i; discriminate|]. rewrite removelast_last. rewrite app_length in HT. cbn in HT.
      split; [lia|]. intros _. subst i. rewrite Nat.add_1_r in O. rewrite Nat.odd_succ in O. exact O.
    + split; [lia|]. intros _. rewrite HT. rewrite <- Nat.negb_odd, O. reflexivity.
Qed.
(** the computation passes through every valid table *)
Lemma rows_through seq T : valid seq T -> forall n m, (length T <= n)%nat -> (m <= length T)%nat ->
  table_rows seq (n - m) m (firstn m T) = table_rows seq (n - length T) (length T) T.
Proof.
  intros V n m Hn Hm. remember (length T - m)%nat as d eqn:Hd. revert m Hm Hd. induction d as [|d IH]; intros m Hm Hd.
  - assert (m = length T) by lia. subst m. rewrite firstn_all. reflexivity.
  - replace (n - m)%nat with (S (n - S m)) by lia. cbn [table_rows].
    assert (E : table_row seq (firstn m T) m = Some (nth m T [])).
    { rewrite <- (V m) by lia. destruct m; [apply row_0|]. apply row_prev. rewrite <- (firstn_skipn (S m) T) at 2. rewrite app_nth1; [reflexivity|]. rewrite firstn_length. lia. }
    rewrite E. rewrite <- (IH (S m)) by lia. f_equal.
    clear - Hd Hm. assert (H : (m < length T)%nat) by lia. clear Hd Hm. revert T H. induction m as [|m IHm]; intros T H; destruct T as [|t T]; cbn in H; try lia; [reflexivity|].
    cbn [firstn app nth]. f_equal. apply IHm. lia.
Qed.
Lemma row_seq s s' T i : nth i s 0 = nth i s' 0 -> nth (i + 1) s 0 = nth (i + 1) s' 0 -> table_row s T i = table_row s' T i.
Proof. intros H1 H2. unfold table_row. rewrite H1, H2. reflexivity. Qed.

Definition stop_of (seq : list R) : nat := if Nat.odd (length seq - 1) then (length seq - 1 - 1)%nat else (length seq - 1)%nat.
Lemma stop_even s : Nat.even (stop_of s) = true.
Proof.
  unfold stop_of. destruct (Nat.odd (length s - 1)) eqn:O.
  - destruct (length s - 1)%nat as [|k]; [discriminate|]. rewrite Nat.odd_succ in O. replace (S k - 1)%nat with k by lia. exact O.
  - rewrite <- Nat.negb_odd, O. reflexivity.
Qed.
Lemma stop_le s : (stop_of s <= length s - 1)%nat.
Proof. unfold stop_of. destruct Nat.odd; lia. Qed.
Lemma stop_mono s e : (stop_of s <= stop_of (s ++ e))%nat.
Proof.
  assert (E1 := stop_even s). assert (L1 := stop_le s). unfold stop_of at 2. rewrite app_length. destruct (Nat.odd _) eqn:O; [|lia].
  destruct (Nat.eq_dec (stop_of s) (length s + length e - 1)) as [E|N]; [|lia]. rewrite <- E, <- Nat.negb_even, E1 in O. discriminate.
Qed.
Lemma table_eq s T : (2 <= length s)%nat -> shanks_table s T = Ok (table_rows s (stop_of s - length T) (length T) T).
Proof. intros H. unfold shanks_table. destruct (Nat.ltb_spec (length s) 2); [lia|]. reflexivity. Qed.
Lemma table_valid s T : shanks_table s [] = Ok T -> valid s T /\ (length T <= stop_of s)%nat /\ Nat.even (length T) = true /\ (2 <= length s)%nat.
Proof.
  intros H. assert (L : (2 <= length s)%nat). { unfold shanks_table in H. destruct (Nat.ltb_spec (length s) 2); [discriminate|lia]. }
  rewrite table_eq in H by auto. cbn [length] in H. rewrite Nat.sub_0_r in H. injection H as <-.
  split; [apply rows_valid; auto; apply valid_nil|]. destruct (rows_length s (stop_of s) 0 [] eq_refl) as [H1 H2]. split; [exact H1|]. split; [|exact L].
  apply H2. apply stop_even.
Qed.
Lemma table_extend s e T : shanks_table s [] = Ok T -> shanks_table (s ++ e) T = shanks_table (s ++ e) [].
Proof.
  intros H. destruct (table_valid s T H) as (V & Hl & _ & L). rewrite !table_eq by (rewrite app_length; lia). f_equal.
  assert (M := stop_mono s e). assert (SL := stop_le s).
  assert (V2 : valid (s ++ e) T).
  { intros i Hi. rewrite <- V by auto. apply row_seq; rewrite app_nth1 by lia; reflexivity. }
  assert (R := rows_through (s ++ e) T V2 (stop_of (s ++ e)) 0 ltac:(lia) ltac:(lia)). rewrite Nat.sub_0_r in R. cbn [firstn] in R. cbn [length]. rewrite Nat.sub_0_r. symmetry. exact R.
Qed.

(** Wynn's rule *)
Lemma cells_spec seqi prow n : forall j prev r, cells seqi prow n j prev = Some r -> (0 < j)%nat -> length r = n /\
  forall k, (k < n)%nat -> (nth k r 0 - (match (j + k)%nat with 1%nat => seqi | c => nth (c - 2) prow 0 end)) *
     (nth k (prev :: r) 0 - nth (j + k - 1) prow 0) = 1.
Proof.
  induction n as [|n IH]; intros j prev r H Hj; cbn [cells] in H; [injection H as <-; split; [reflexivity|intros; lia]|].
  set (b := prev - nth (j - 1) prow 0) in *. destruct (Reqb b 0) eqn:E; [discriminate|]. apply Reqb_false in E.
  set (a := match j with 1%nat => seqi | _ => nth (j - 2) prow 0 end) in *.
  destruct (cells seqi prow n (S j) (a + 1 / b)) as [r'|] eqn:C; [|discriminate]. injection H as <-.
  destruct (IH _ _ _ C ltac:(lia)) as [L K]. split; [cbn; lia|]. intros k Hk. destruct k as [|k].
  - assert (Ea : (match (j + 0)%nat with 1%nat => seqi | c => nth (c - 2) prow 0 end) = a) by (rewrite Nat.add_0_r; unfold a; destruct j as [|[|j]]; reflexivity).
    rewrite Ea. rewrite Nat.add_0_r. cbn [nth]. fold b. clearbody a b. field. exact E.
  - specialize (K k ltac:(lia)). replace (j + S k)%nat with (S j + k)%nat by lia. cbn [nth]. exact K.
Qed.
Lemma row_spec s T i r : table_row s T i = Some r -> length r = S i /\ nth 0 r 0 * (nth (i + 1) s 0 - nth i s 0) = 1 /\
  forall j, (1 <= j <= i)%nat -> (nth j r 0 - (if (j =? 1)%nat then nth i s 0 else nth (j - 2) (nth (i - 1) T []) 0)) * (nth (j - 1) r 0 - nth (j - 1) (nth (i - 1) T []) 0) = 1.
Proof.
  unfold table_row. intros H. destruct (Reqb _ 0) eqn:E; [discriminate|]. apply Reqb_false in E.
  destruct (cells _ _ _ _ _) as [c|] eqn:C; [|discriminate]. injection H as <-. destruct (cells_spec _ _ _ _ _ _ C ltac:(lia)) as [L K].
  split; [cbn; lia|]. split; [cbn [nth]; field; exact E|]. intros j Hj. specialize (K (j - 1)%nat ltac:(lia)).
  destruct j as [|j]; [lia|]. replace (S j - 1)%nat with j in * by lia. cbn [nth Nat.add] in *.
  replace (nth (j - 0) (nth (i - 1) T []) 0) with (nth j (nth (i - 1) T []) 0) in K by (f_equal; lia). destruct j; exact K.
Qed.

Lemma geo_nth L a q len k : (k < len)%nat -> nth k (geometric L a q len) 0 = L + a * q ^ k.
Proof.
  intros H. unfold geometric. rewrite (nth_indep _ 0 ((fun k => L + a * q ^ k) 0%nat)) by (rewrite map_length, seq_length; lia).
  rewrite (map_nth (fun k => L + a * q ^ k)). rewrite seq_nth by lia. reflexivity.
Qed.
Lemma geo_length L a q len : length (geometric L a q len) = len.
Proof. unfold geometric. rewrite map_length, seq_length. reflexivity. Qed.
Lemma row_geo1 L a q len T i : a <> 0 -> q <> 0 -> q <> 1 -> (1 <= i)%nat -> (i + 1 < len)%nat -> nth 0 (nth (i - 1) T []) 0 = 1 / (a * q ^ (i - 1) * (q - 1)) ->
  0 + 1 / (nth (i + 1) (geometric L a q len) 0 - nth i (geometric L a q len) 0) - nth 0 (nth (i - 1) T []) 0 = - 1 / (a * q ^ i) /\
  nth i (geometric L a q len) 0 + 1 / (- 1 / (a * q ^ i)) = L.
Proof.
  intros Ha Hq H1 Hi Hl HT. rewrite HT, !geo_nth by lia. destruct i as [|i]; [lia|]. replace (S i - 1)%nat with i by lia. rewrite Nat.add_1_r. cbn [pow].
  assert (Hw : q ^ i <> 0) by (apply pow_nonzero; auto). clear HT. generalize dependent (q ^ i). intros w Hw. assert (q - 1 <> 0) by lra.
  replace (L + a * (q * (q * w)) - (L + a * (q * w))) with (a * q * w * (q - 1)) by ring. split; field; repeat split; auto; lra.
Qed.
Lemma table_geometric L a q len : a <> 0 -> q <> 0 -> q <> 1 -> (3 <= len)%nat ->
  shanks_table (geometric L a q len) [] = Ok [[1 / (a * (q - 1))]; [1 / (a * q * (q - 1)); L]].
Proof.
  intros Ha Hq H1 Hl. set (s := geometric L a q len). rewrite table_eq by (unfold s; rewrite geo_length; lia).
  assert (E := stop_even s). assert (S2 : (2 <= stop_of s)%nat).
  { destruct (stop_of s) as [|[|k]] eqn:X; [|discriminate|lia]. unfold stop_of in X. unfold s in X. rewrite geo_length in X. destruct Nat.odd eqn:O; [|lia]. assert (len = 2 \/ len - 1 = 1)%nat by lia. lia. }
  f_equal. cbn [length]. rewrite Nat.sub_0_r. destruct (stop_of s) as [|[|m]] eqn:Es; try lia. cbn [table_rows].
  assert (Q : q - 1 <> 0) by lra.
  assert (R0 : table_row s [] 0 = Some [1 / (a * (q - 1))]).
  { unfold table_row. cbn [Nat.add]. unfold s. rewrite !geo_nth by lia. cbn [pow cells].
    replace (L + a * (q * 1) - (L + a * 1)) with (a * (q - 1)) by ring. destruct (Reqb _ 0) eqn:X.
    - apply Reqb_true in X. apply Rmult_integral in X. tauto.
    - do 2 f_equal. ring. }
  rewrite R0. cbn [app].
  assert (G1 := row_geo1 L a q len [[1 / (a * (q - 1))]] 1 Ha Hq H1 ltac:(lia) ltac:(lia) ltac:(cbn; f_equal; ring)). fold s in G1. cbn [Nat.add Nat.sub nth] in G1. rewrite pow_1 in G1.
  assert (Eb : nth 2 s 0 - nth 1 s 0 = a * q * (q - 1)) by (unfold s; rewrite !geo_nth by lia; cbn; ring).
  assert (Nb : a * q * (q - 1) <> 0) by (repeat apply Rmult_integral_contrapositive_currified; auto).
  assert (R1 : table_row s [[1 / (a * (q - 1))]] 1 = Some [1 / (a * q * (q - 1)); L]).
  { unfold table_row. cbn [Nat.add Nat.sub nth cells]. rewrite Eb in *. destruct (Reqb (a * q * (q - 1)) 0) eqn:X; [apply Reqb_true in X; tauto|].
    destruct G1 as [G1 G2]. rewrite G1. destruct (Reqb (-1 / (a * q)) 0) eqn:Y.
    - apply Reqb_true in Y. exfalso. assert (Z : -1 / (a * q) <> 0); [|tauto]. apply Rmult_integral_contrapositive_currified; [lra|]. apply Rinv_neq_0_compat. apply Rmult_integral_contrapositive_currified; auto.
    - rewrite G2. do 2 f_equal. ring. }
  rewrite R1. cbn [app]. destruct m as [|m]; [reflexivity|]. cbn [table_rows].
  assert (L4 : (4 <= len)%nat). { assert (X := stop_le s). rewrite Es in X. unfold s in X. rewrite geo_length in X. lia. }
  assert (G2 := row_geo1 L a q len [[1 / (a * (q - 1))]; [1 / (a * q * (q - 1)); L]] 2 Ha Hq H1 ltac:(lia) ltac:(lia) ltac:(cbn; f_equal; ring)). fold s in G2. cbn [Nat.add Nat.sub nth] in G2.
  assert (Eb2 : nth 3 s 0 - nth 2 s 0 = a * q ^ 2 * (q - 1)) by (unfold s; rewrite !geo_nth by lia; cbn; ring).
  assert (Nb2 : a * q ^ 2 * (q - 1) <> 0) by (repeat apply Rmult_integral_contrapositive_currified; auto; lra).
  assert (R2 : table_row s [[1 / (a * (q - 1))]; [1 / (a * q * (q - 1)); L]] 2 = None).
  { unfold table_row. cbn [Nat.add Nat.sub nth cells]. rewrite Eb2 in *. destruct (Reqb (a * q ^ 2 * (q - 1)) 0) eqn:X; [apply Reqb_true in X; tauto|].
    destruct G2 as [G2 G3]. rewrite G2. destruct (Reqb (-1 / (a * q ^ 2)) 0) eqn:Y; [reflexivity|]. rewrite G3. destruct (Reqb (L - L) 0) eqn:Z; [reflexivity|]. apply Reqb_false in Z. exfalso. apply Z. ring. }
  rewrite R2. reflexivity.
Qed.
