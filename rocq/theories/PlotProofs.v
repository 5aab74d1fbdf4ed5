(** * Proofs about subplot orders and time strings *)
From Coq Require Import List Ascii ZArith Reals Bool Arith Lia Lra Permutation.
From Verif Require Import Base StemModel SpecStem StemProofs PlotModel SpecPlot.
Import ListNotations.
Open Scope nat_scope.

(** ** grids *)
Lemma indices_spec shape : forall idx, In idx (indices shape) <-> inside shape idx.
Proof.
  induction shape as [|n r IH]; intros idx; cbn [indices].
  - split; [intros [<-|[]]; constructor|intros H; inversion H; subst; left; auto].
  - rewrite in_flat_map. split.
    + intros (i & Hi & H). apply in_seq in Hi. apply in_map_iff in H. destruct H as (t & <- & Ht). constructor; [lia|]. apply IH, Ht.
    + intros H. inversion H as [|? i ? t Hi Ht E1 E2]; subst. exists i. split; [apply in_seq; lia|]. apply in_map, IH, Ht.
Qed.
Lemma indices_length shape : length (indices shape) = places shape.
Proof.
  induction shape as [|n r IH]; [reflexivity|]. cbn [indices places]. generalize 0 as b. induction n as [|n IHn]; intros b; [reflexivity|].
  cbn [seq flat_map]. rewrite app_length, map_length, IH, IHn. lia.
Qed.
Lemma map_add_seq k q : forall b, map (fun x => k + x) (seq b q) = seq (k + b) q.
Proof. induction q as [|q IH]; intros b; [reflexivity|]. cbn [seq map]. rewrite IH. do 2 f_equal. lia. Qed.
Lemma map_place shape : map (place shape) (indices shape) = seq 0 (places shape).
Proof.
  induction shape as [|n r IH]; [reflexivity|]. cbn [indices places].
  assert (G : forall m k, map (place (n :: r)) (flat_map (fun i => map (cons i) (indices r)) (seq k m)) = seq (k * places r) (m * places r)).
  { induction m as [|m IHm]; intros k; [reflexivity|]. cbn [seq flat_map]. rewrite map_app, IHm. cbn [Nat.mul]. rewrite (seq_app (places r)). f_equal.
    - rewrite map_map. cbn [place]. rewrite <- (map_map (place r) (fun x => k * places r + x)), IH, map_add_seq. f_equal. lia.
    - f_equal. lia. }
  rewrite G. reflexivity.
Qed.
Lemma place_lt shape : forall idx, inside shape idx -> place shape idx < places shape.
Proof.
  intros idx H. assert (Q : In (place shape idx) (seq 0 (places shape))) by (rewrite <- map_place; apply in_map, indices_spec, H). apply in_seq in Q. lia.
Qed.
Lemma nth_indices shape idx : inside shape idx -> nth_error (indices shape) (place shape idx) = Some idx.
Proof.
  intros H. assert (Hi := proj2 (indices_spec shape idx) H). apply In_nth_error in Hi. destruct Hi as (k & Hk). rewrite <- Hk. f_equal.
  assert (Q := map_nth_error (place shape) _ _ Hk). rewrite map_place in Q. assert (L : k < places shape) by (rewrite <- indices_length; apply nth_error_Some; congruence).
  rewrite (nth_error_nth' _ 0), seq_nth in Q; try rewrite seq_length; auto. injection Q as <-. reflexivity.
Qed.
Lemma place_inj shape a b : inside shape a -> inside shape b -> place shape a = place shape b -> a = b.
Proof. intros Ha Hb E. assert (Q := nth_indices shape a Ha). rewrite E, nth_indices in Q; congruence. Qed.
Lemma indices_NoDup shape : NoDup (indices shape).
Proof. apply (NoDup_map_inv (place shape)). rewrite map_place. apply seq_NoDup. Qed.
Lemma fold_place shape : forall idx acc, length idx = length shape -> fold_left (fun acc p => acc * fst p + snd p) (combine shape idx) acc = acc * places shape + place shape idx.
Proof.
  induction shape as [|n r IH]; intros [|i t] acc L; try discriminate L; [cbn; lia|]. cbn [combine fold_left fst snd places place]. rewrite IH by (cbn in L; lia). lia.
Qed.
Lemma Forall2_length {A B} (P : A -> B -> Prop) l k : Forall2 P l k -> length l = length k.
Proof. induction 1; cbn; congruence. Qed.
Lemma ravel_place shape idx : inside shape idx -> ravel shape idx = place shape idx.
Proof. intros H. unfold ravel. rewrite fold_place by (symmetry; apply (Forall2_length _ _ _ H)). reflexivity. Qed.

(** ** reversing *)
Definition unit_steps (steps : list Z) : Prop := List.Forall (fun s => s = 1%Z \/ s = (-1)%Z) steps.
Lemma reversed_inside shape : forall steps idx, inside shape idx -> inside shape (reversed shape steps idx).
Proof.
  induction shape as [|n r IH]; intros [|s t] idx H; inversion H as [|? i ? u Hi Hu E1 E2]; subst; cbn [reversed]; auto. constructor; [|apply IH, Hu]. destruct (s =? -1)%Z; lia.
Qed.
Lemma reversed_twice shape : forall steps idx, inside shape idx -> reversed shape steps (reversed shape steps idx) = idx.
Proof.
  induction shape as [|n r IH]; intros [|s t] idx H; inversion H as [|? i ? u Hi Hu E1 E2]; subst; cbn [reversed]; auto. f_equal; [|apply IH, Hu]. destruct (s =? -1)%Z; lia.
Qed.
Lemma source_unit shape : forall steps, unit_steps steps -> length steps <= length shape ->
  exists fs, source shape steps = Ok fs /\ forall idx, inside shape idx -> applies fs idx = reversed shape steps idx.
Proof.
  assert (ID : forall (shape : list nat) idx, length idx = length shape -> applies (map (fun _ i => i) shape) idx = idx).
  { induction shape0 as [|n r IH]; intros [|i t] L; try discriminate L; auto. cbn in L. unfold applies. cbn. f_equal. apply IH. lia. }
  induction shape as [|n r IH]; intros [|s t] U L; cbn [source].
  - eexists. split; [reflexivity|]. intros idx H. inversion H; reflexivity.
  - cbn in L. lia.
  - eexists. split; [reflexivity|]. intros idx H. rewrite (ID (n :: r)) by (symmetry; apply (Forall2_length _ _ _ H)). inversion H; reflexivity.
  - inversion U as [|? ? U1 U2]; subst. destruct (IH t U2 ltac:(cbn in L; lia)) as (fs & E & S').
    assert (Z0 : (s =? 0)%Z = false) by (apply Z.eqb_neq; lia). rewrite Z0, E. cbn [bind].
    assert (SL : slice_len n s = n) by (unfold slice_len; replace (Z.abs_nat s) with 1 by lia; rewrite Nat.div_1_r; lia). rewrite SL, Nat.eqb_refl.
    eexists. split; [reflexivity|]. intros idx H. inversion H as [|? i ? u Hi Hu E1 E2]; subst. unfold applies. cbn [combine map fst snd reversed]. f_equal; [|apply S', Hu].
    unfold slice_at. replace (Z.abs_nat s) with 1 by lia. destruct U1 as [->| ->]; cbn; lia.
Qed.
Lemma rev_inside shape idx : inside shape idx <-> inside (rev shape) (rev idx).
Proof.
  assert (G : forall (a b : list nat), inside a b -> inside (rev a) (rev b)).
  { induction 1 as [|n i r t Hi Ht IH]; [constructor|]. cbn [rev]. apply Forall2_app; [exact IH|]. constructor; auto. }
  split; [apply G|]. intros H. apply G in H. rewrite !rev_involutive in H. exact H.
Qed.
Lemma places_rev shape : places (rev shape) = places shape.
Proof.
  assert (A : forall a b, places (a ++ b) = places a * places b) by (induction a as [|n a IH]; intros b; cbn [app places]; [lia|rewrite IH; lia]).
  induction shape as [|n r IH]; [reflexivity|]. cbn [rev places]. rewrite A, IH. cbn [places]. lia.
Qed.

(** ** time strings *)
Open Scope R_scope.
Lemma floor_spec x : IZR (floor x) <= x < IZR (floor x) + 1.
Proof. unfold floor. destruct (base_Int_part x). lra. Qed.
Lemma floor_unique x k : IZR k <= x < IZR k + 1 -> floor x = k.
Proof.
  intros [A B]. destruct (floor_spec x) as [C D]. assert (IZR (floor x) < IZR (k + 1)) by (rewrite plus_IZR; lra). assert (IZR k < IZR (floor x + 1)) by (rewrite plus_IZR; lra).
  apply lt_IZR in H. apply lt_IZR in H0. lia.
Qed.
Lemma mod_range x y : 0 < y -> 0 <= mod_ x y < y /\ x = y * IZR (floor (x / y)) + mod_ x y.
Proof.
  intros Y. unfold mod_. destruct (floor_spec (x / y)) as [A B]. assert (E : x = y * (x / y)) by (field; lra). split; [|ring]. split.
  - apply (Rmult_le_compat_l y) in A; lra.
  - apply (Rmult_lt_compat_l y) in B; lra.
Qed.
Lemma round_even_spec x : IZR (round_even x) - 1 / 2 <= x <= IZR (round_even x) + 1 / 2.
Proof.
  unfold round_even. destruct (floor_spec x) as [A B]. destruct (Rltb (x - IZR (floor x)) (1 / 2)) eqn:E1; [apply Rltb_true in E1; lra|]. apply Rltb_false in E1.
  destruct (Rltb (1 / 2) (x - IZR (floor x))) eqn:E2; [apply Rltb_true in E2; rewrite plus_IZR; lra|]. apply Rltb_false in E2. destruct (Z.even (floor x)); try rewrite plus_IZR; lra.
Qed.
Lemma floor_nonneg x : 0 <= x -> (0 <= floor x)%Z.
Proof. intros H. destruct (floor_spec x) as [A B]. assert (IZR (-1) < IZR (floor x)) by lra. apply lt_IZR in H0. lia. Qed.
Lemma floor_lt x k : x < IZR k -> (floor x < k)%Z.
Proof. intros H. destruct (floor_spec x) as [A B]. apply lt_IZR. lra. Qed.
Lemma digits_length_lt n k : (0 <= n < 10 ^ Z.of_nat k)%Z -> (0 < k)%nat -> (length (digits n) <= k)%nat.
Proof.
  intros H K. destruct (digits_spec n ltac:(lia)) as (D & L & N). destruct L as [L|L]; [|lia]. destruct (digits n) as [|c r] eqn:E; [cbn; lia|]. cbn [hd] in L.
  inversion D as [|? d ? m Hd Dm]; subst. assert (R := decimal_digit_range c d Hd). destruct (Z.eq_dec d 0) as [->|Nd].
  - exfalso. apply L. destruct c as [[] [] [] [] [] [] [] []]; cbn in Hd; congruence.
  - destruct (Nat.le_gt_cases (length (c :: r)) k) as [Q|Q]; [exact Q|]. exfalso. cbn [length] in Q. assert (P := decimal_nonneg r m Dm).
    assert (10 ^ Z.of_nat k <= 10 ^ Z.of_nat (length r))%Z by (apply Z.pow_le_mono_r; lia). nia.
Qed.
Lemma two_digits n : (0 <= n < 100)%Z -> decimal (pad 2 (digits n)) n /\ length (pad 2 (digits n)) = 2%nat.
Proof.
  intros H. destruct (digits_spec n ltac:(lia)) as (D & _ & _). unfold pad. split; [apply decimal_zeros, D|]. rewrite app_length, repeat_length.
  assert (L := digits_length_lt n 2 ltac:(cbn; lia) ltac:(lia)). lia.
Qed.
