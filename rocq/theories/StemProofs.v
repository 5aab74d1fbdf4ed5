From Coq Require Import List Ascii ZArith Lia Bool.
From Verif Require Import Base StemModel SpecStem.
Import ListNotations.
Open Scope Z_scope.

Lemma digit_spec c : decimal_digit c = if is_digit c then Some (digit_value c) else None.
Proof. destruct c as [[] [] [] [] [] [] [] []]; reflexivity. Qed.
Lemma digit_char_spec d : 0 <= d < 10 -> decimal_digit (digit_char d) = Some d.
Proof. intros H. assert (E : d = 0 \/ d = 1 \/ d = 2 \/ d = 3 \/ d = 4 \/ d = 5 \/ d = 6 \/ d = 7 \/ d = 8 \/ d = 9) by lia.
  repeat (destruct E as [->|E]; [reflexivity|]). subst. reflexivity. Qed.
Lemma decimal_digit_range c d : decimal_digit c = Some d -> 0 <= d < 10.
Proof. destruct c as [[] [] [] [] [] [] [] []]; cbn; intros H; inversion H; lia. Qed.
Lemma decimal_nonneg ds n : decimal ds n -> 0 <= n < 10 ^ Z.of_nat (length ds).
Proof.
  induction 1 as [|c d r n Hd Hr IH]; [cbn; lia|]. apply decimal_digit_range in Hd. cbn [length]. rewrite Nat2Z.inj_succ, Z.pow_succ_r by lia. nia.
Qed.
Lemma decimal_fun ds : forall n m, decimal ds n -> decimal ds m -> n = m.
Proof. induction ds as [|c r IH]; intros n m Hn Hm; inversion Hn; inversion Hm; subst; auto. replace d0 with d by congruence. f_equal. eauto. Qed.
Lemma decimal_app l1 : forall l2 n m, decimal l1 n -> decimal l2 m -> decimal (l1 ++ l2) (n * 10 ^ Z.of_nat (length l2) + m).
Proof.
  induction l1 as [|c l1 IH]; intros l2 n m Hn Hm; inversion Hn as [|? d ? n' Hd Hr]; subst; [exact Hm|]. cbn [app].
  replace ((d * 10 ^ Z.of_nat (length l1) + n') * 10 ^ Z.of_nat (length l2) + m) with (d * 10 ^ Z.of_nat (length (l1 ++ l2)) + (n' * 10 ^ Z.of_nat (length l2) + m)).
  - constructor; auto.
  - rewrite app_length, Nat2Z.inj_add, Z.pow_add_r by lia. ring.
Qed.
Lemma decimal_app_inv l1 : forall l2 n, decimal (l1 ++ l2) n -> exists a b, decimal l1 a /\ decimal l2 b /\ n = a * 10 ^ Z.of_nat (length l2) + b.
Proof.
  induction l1 as [|c l1 IH]; intros l2 n H; [exists 0, n; split; [constructor|split; [auto|lia]]|]. cbn [app] in H. inversion H as [|? d ? n' Hd Hr]; subst.
  destruct (IH _ _ Hr) as (a & b & Ha & Hb & ->). exists (d * 10 ^ Z.of_nat (length l1) + a), b. split; [constructor; auto|]. split; auto.
  rewrite app_length, Nat2Z.inj_add, Z.pow_add_r by lia. ring.
Qed.
(** int(...) *)
Lemma int_of_decimal_gen ds : forall n acc, decimal ds n -> fold_left (fun a c => 10 * a + digit_value c) ds acc = acc * 10 ^ Z.of_nat (length ds) + n.
Proof.
  induction ds as [|c r IH]; intros n acc H; inversion H as [|? d ? n' Hd Hr]; subst; cbn [fold_left]; [cbn; lia|].
  rewrite (IH n') by auto. rewrite digit_spec in Hd. destruct (is_digit c); [|discriminate]. injection Hd as <-. cbn [length]. rewrite Nat2Z.inj_succ, Z.pow_succ_r by lia. ring.
Qed.
Lemma int_of_decimal ds n : decimal ds n -> int_of ds = n.
Proof. intros H. unfold int_of. rewrite (int_of_decimal_gen ds n) by auto. lia. Qed.
Lemma digits_decimal ds : List.Forall (fun c => is_digit c = true) ds -> exists n, decimal ds n.
Proof. induction 1 as [|c r Hc Hr (n & IH)]; [exists 0; constructor|]. eexists. constructor; [|exact IH]. rewrite digit_spec, Hc. reflexivity. Qed.
Lemma decimal_digits ds n : decimal ds n -> List.Forall (fun c => is_digit c = true) ds.
Proof. induction 1 as [|c d r n Hd Hr IH]; constructor; auto. rewrite digit_spec in Hd. destruct (is_digit c); congruence. Qed.

Lemma take_digits_app ds rest : List.Forall (fun c => is_digit c = true) ds -> ~ starts_with_digit rest -> take_digits (ds ++ rest) = ds.
Proof.
  intros Hd Hr. induction Hd as [|c ds Hc Hd IH]; cbn.
  - destruct rest as [|c r]; [reflexivity|]. cbn. destruct (is_digit c) eqn:E; [|reflexivity]. exfalso. apply Hr. exists c, r, (digit_value c). split; auto. rewrite digit_spec, E. reflexivity.
  - rewrite Hc, IH. reflexivity.
Qed.
Lemma take_digits_split s : exists rest, s = take_digits s ++ rest /\ List.Forall (fun c => is_digit c = true) (take_digits s) /\ ~ starts_with_digit rest.
Proof.
  induction s as [|c s (rest & E & F & N)]; cbn.
  - exists []. split; [auto|]. split; [constructor|]. intros (c & r & d & H & _). discriminate.
  - destruct (is_digit c) eqn:Ec.
    + exists rest. split; [cbn; f_equal; exact E|]. split; auto.
    + exists (c :: s). split; auto. split; auto. intros (c' & r & d & H & Hd). injection H as <- <-. rewrite digit_spec, Ec in Hd. discriminate.
Qed.
Lemma strip_prefix_spec p : forall s r, strip_prefix p s = Some r <-> s = p ++ r.
Proof.
  induction p as [|a p IH]; intros s r; cbn; [split; [intros H; injection H; auto|intros ->; auto]|].
  destruct s as [|b s]; [split; discriminate|]. destruct (Ascii.eqb_spec a b) as [->|N]; [rewrite IH; split; [intros ->; auto|intros H; injection H; auto]|].
  split; [discriminate|]. intros H. injection H as -> _. contradiction.
Qed.
Lemma match_number_spec p nm n : match_number p nm = Some n <-> numbered p nm n.
Proof.
  unfold match_number. split.
  - destruct (strip_prefix p nm) as [r|] eqn:E; [|discriminate]. apply strip_prefix_spec in E. destruct (take_digits_split r) as (rest & Er & F & N).
    intros H. assert (T : take_digits r <> []) by (intros Q; rewrite Q in H; discriminate). destruct (digits_decimal _ F) as (m & Hm).
    assert (Q : int_of (take_digits r) = n). { destruct (take_digits r); [contradiction|congruence]. }
    rewrite (int_of_decimal _ _ Hm) in Q. subst m. exists (take_digits r), rest. split; [congruence|]. auto.
  - intros (ds & rest & -> & Hne & Hd & N). rewrite (proj2 (strip_prefix_spec p (p ++ ds ++ rest) (ds ++ rest)) eq_refl).
    rewrite take_digits_app by (eauto using decimal_digits). destruct ds; [contradiction|]. f_equal. apply int_of_decimal. auto.
Qed.
(** str *)
Lemma digits_fuel_spec f : forall n, 0 <= n < 2 ^ Z.of_nat f -> (0 < f)%nat -> decimal (digits_fuel f n) n /\ (hd "0"%char (digits_fuel f n) <> "0"%char \/ (length (digits_fuel f n) = 1)%nat) /\ digits_fuel f n <> [].
Proof.
  induction f as [|f IH]; intros n Hn Hf; [lia|]. cbn [digits_fuel]. destruct (Z.ltb_spec n 10) as [L|G].
  - split; [|split; [right; reflexivity|discriminate]]. replace n with (n * 10 ^ Z.of_nat (length (@nil ascii)) + 0) at 2 by (cbn; lia). constructor; [apply digit_char_spec; lia|constructor].
  - assert (D := Z.div_mod n 10 ltac:(lia)). assert (M := Z.mod_pos_bound n 10 ltac:(lia)).
    rewrite Nat2Z.inj_succ, Z.pow_succ_r in Hn by lia.
    assert (Hf2 : (0 < f)%nat). { destruct f; [cbn in Hn; lia|lia]. }
    destruct (IH (n / 10)) as (H1 & H2 & H3); [split; [apply Z.div_pos; lia|apply Z.div_lt_upper_bound; lia]|auto|].
    split; [|split].
    + replace n with ((n / 10) * 10 ^ Z.of_nat (length [digit_char (n mod 10)]) + n mod 10) at 3 by (cbn; lia). apply decimal_app; auto.
      replace (n mod 10) with (n mod 10 * 10 ^ Z.of_nat (length (@nil ascii)) + 0) at 2 by (cbn; lia). constructor; [apply digit_char_spec; lia|constructor].
    + left. destruct H2 as [H2|H2].
      * destruct (digits_fuel f (n / 10)); [contradiction|]. exact H2.
      * destruct (digits_fuel f (n / 10)) as [|c [|? ?]]; try discriminate. cbn [app hd]. intros ->. assert (D0 : decimal ["0"%char] (0 * 10 ^ Z.of_nat (length (@nil ascii)) + 0)) by (constructor; [reflexivity|constructor]).
        assert (E0 := decimal_fun _ _ _ H1 D0). cbn [length Z.of_nat Z.pow] in E0. lia.
    + intros Q. apply app_eq_nil in Q. destruct Q; discriminate.
Qed.
Lemma digits_spec n : 0 <= n -> decimal (digits n) n /\ (hd "0"%char (digits n) <> "0"%char \/ (length (digits n) = 1)%nat) /\ digits n <> [].
Proof.
  intros Hn. apply digits_fuel_spec; [|lia]. split; auto. rewrite Nat2Z.inj_succ, Z2Nat.id by apply Z.log2_nonneg.
  destruct (Z.eq_dec n 0) as [->|N]; [cbn; lia|]. apply Z.log2_spec. lia.
Qed.
Lemma decimal_zeros k : forall ds n, decimal ds n -> decimal (repeat "0"%char k ++ ds) n.
Proof. induction k as [|k IH]; intros ds n H; [exact H|]. cbn. replace n with (0 * 10 ^ Z.of_nat (length (repeat "0"%char k ++ ds)) + n) by lia. constructor; [reflexivity|]. auto. Qed.
Lemma str_zfill_written w n : 0 <= n -> written w (str_zfill w n) n /\ str_zfill w n <> [].
Proof.
  intros Hn. unfold str_zfill. destruct (Z.ltb_spec n 0); [lia|]. destruct (digits_spec n Hn) as (H1 & H2 & H3). unfold pad. split.
  - split; [apply decimal_zeros; auto|]. rewrite app_length, repeat_length. split; [lia|].
    destruct (Nat.le_gt_cases w (length (digits n))) as [L|G].
    + replace (w - length (digits n))%nat with 0%nat by lia. cbn [repeat app]. destruct H2 as [H2|H2]; [right; auto|left; lia].
    + left. lia.
  - intros Q. apply app_eq_nil in Q. destruct Q. contradiction.
Qed.
(** the numbers in use *)
Definition nums (prefix : text) (names : list text) : list Z := flat_map (fun nm => match match_number prefix nm with Some n => [n] | None => [] end) names.
Lemma nums_In prefix names n : In n (nums prefix names) <-> exists nm, In nm names /\ numbered prefix nm n.
Proof.
  unfold nums. rewrite in_flat_map. split; intros (nm & H & G); exists nm; split; auto.
  - destruct (match_number prefix nm) as [m|] eqn:E; [|destruct G]. destruct G as [<-|[]]. apply match_number_spec. auto.
  - apply match_number_spec in G. rewrite G. left. auto.
Qed.
Lemma fold_max r : forall n, (In (fold_left Z.max r n) (n :: r)) /\ forall m, In m (n :: r) -> m <= fold_left Z.max r n.
Proof.
  induction r as [|a r IH]; intros n; cbn [fold_left]; [split; [left; auto|intros m [<-|[]]; lia]|].
  destruct (IH (Z.max n a)) as (H1 & H2). split.
  - destruct H1 as [H1|H1]; [|right; right; auto]. destruct (Z.max_spec n a) as [[_ E]|[_ E]]; rewrite E in *; [right; left; auto|left; auto].
  - intros m [<-|[<-|H]]; [| |apply H2; right; auto]; (eapply Z.le_trans; [|apply H2; left; reflexivity]); lia.
Qed.
Lemma max_largest prefix names n r : nums prefix names = n :: r -> largest prefix names (fold_left Z.max r n).
Proof.
  intros E. destruct (fold_max r n) as (H1 & H2). rewrite <- E in *. split; [apply nums_In; auto|]. intros nm m Hin Hn. apply H2. apply nums_In. eauto.
Qed.
Lemma nums_nil prefix names : nums prefix names = [] -> none_numbered prefix names.
Proof. intros E nm m H1 H2. assert (Q : In m (nums prefix names)) by (apply nums_In; eauto). rewrite E in Q. destruct Q. Qed.
Lemma largest_fun prefix names n m : largest prefix names n -> largest prefix names m -> n = m.
Proof. intros ((a & Ha & Na) & H1) ((b & Hb & Nb) & H2). specialize (H1 _ _ Hb Nb). specialize (H2 _ _ Ha Na). lia. Qed.
(** what follows a number that extends [ds] is at least the number of [ds] *)
Lemma extends prefix ds rest n : ds <> [] -> decimal ds n -> exists m, numbered prefix (prefix ++ ds ++ rest) m /\ n <= m.
Proof.
  intros Hne Hd. destruct (take_digits_split rest) as (r2 & E & F & N). destruct (digits_decimal _ F) as (m & Hm).
  assert (D := decimal_app _ _ _ _ Hd Hm). exists (n * 10 ^ Z.of_nat (length (take_digits rest)) + m). split.
  - exists (ds ++ take_digits rest), r2. split; [rewrite <- app_assoc, <- E; auto|]. split; [|auto]. intros Q. apply app_eq_nil in Q. tauto.
  - assert (P1 := decimal_nonneg _ _ Hd). assert (P2 := decimal_nonneg _ _ Hm). assert (0 < 10 ^ Z.of_nat (length (take_digits rest))) by (apply Z.pow_pos_nonneg; lia). nia.
Qed.
