(** * kwrel_from_discrete_swcc and karel_air_from_saturation *)
From Coq Require Import Reals List ZArith Lia Lra Bool.
From Verif Require Import Base ConstitutiveModel SwccModel SwccProofs.
From Coquelicot Require Import Coquelicot.
From Verif Require Import SwccProofs2.
Import ListNotations.
Open Scope R_scope.

Lemma segments_length c : length (segments c) = Nat.pred (length c).
Proof. induction c as [|p [|q t] IH]; [reflexivity|reflexivity|]. cbn [segments length Nat.pred] in *. rewrite IH. reflexivity. Qed.
Lemma segments_nth c j d e : (S j < length c)%nat -> nth j (segments c) d = segment_of (nth j c e) (nth (S j) c e).
Proof.
  revert j. induction c as [|p [|q t] IH]; intros j Hj; cbn [length] in Hj; try lia. destruct j as [|j]; [reflexivity|].
  change (segments (p :: q :: t)) with (segment_of p q :: segments (q :: t)). cbn [nth]. rewrite (IH j) by (cbn [length]; lia). reflexivity.
Qed.
Lemma f1_closed y0 p q : 0 < fst p -> fst p < fst q ->
  f1 y0 (segment_of p q) = (snd q - snd p) * ((snd p + snd q) / 2 - y0) / (fst p * fst q) / ln 10.
Proof.
  intros Hp Hq. assert (L10 := ln10_pos). assert (Hln : ln (fst p) < ln (fst q)) by (apply ln_increasing; auto).
  unfold f1, segment_of, log10, pow10. cbn. set (x := fst p) in *. set (x' := fst q) in *.
  replace (ln 10 * (1 / 2 * (ln x' / ln 10 - ln x / ln 10))) with ((ln x' - ln x) / 2) by (field; lra).
  set (r := exp ((ln x' - ln x) / 2)). assert (Hr : 0 < r) by apply exp_pos.
  assert (E : r * r = x' / x).
  { unfold r. rewrite <- exp_plus. replace ((ln x' - ln x) / 2 + (ln x' - ln x) / 2) with (ln x' + - ln x) by field. rewrite exp_plus, exp_Ropp, !exp_ln by lra. reflexivity. }
  assert (E2 : x * x' = x * r * (x * r)) by (replace (x * r * (x * r)) with (x * x * (r * r)) by ring; rewrite E; field; lra).
  rewrite E2. field. repeat split; try lra.
Qed.

(** A curve: suctions positive and increasing, water content never increasing. *)
Definition xs (c : list (R * R)) j := fst (nth j c (0, 0)).
Definition ys (c : list (R * R)) j := snd (nth j c (0, 0)).
Section Curve.
Variable c : list (R * R).
Hypothesis Hpos : 0 < xs c 0.
Hypothesis Hinc : forall j, (S j < length c)%nat -> xs c j < xs c (S j).
Hypothesis Hdec : forall j, (S j < length c)%nat -> ys c (S j) <= ys c j.
Let n := Nat.pred (length c).
Hypothesis Hlen : (2 < length c)%nat.
Hypothesis Hdrop : ys c n < ys c 1.
Lemma xs_incr i j : (i < j)%nat -> (j < length c)%nat -> xs c i < xs c j.
Proof.
  intros H Hj. revert Hj. induction H as [|j H IH]; intros Hj; [apply Hinc; lia|]. eapply Rlt_trans; [apply IH; lia|apply Hinc; lia].
Qed.
Lemma xs_pos j : (j < length c)%nat -> 0 < xs c j.
Proof. intros H. destruct j; auto. eapply Rlt_trans; [apply Hpos|apply xs_incr; lia]. Qed.
Lemma ys_decr i j : (i <= j)%nat -> (j < length c)%nat -> ys c j <= ys c i.
Proof. intros H Hj. revert Hj. induction H as [|j H IH]; intros Hj; [lra|]. eapply Rle_trans; [apply Hdec; lia|apply IH; lia]. Qed.
(** the mean water content of a segment *)
Definition ym j := (ys c j + ys c (S j)) / 2.
Definition term y0 j := (ys c (S j) - ys c j) * (ym j - y0) / (xs c j * xs c (S j)).
Lemma ym_decr i j : (i <= j)%nat -> (j < n)%nat -> ym j <= ym i.
Proof. unfold n. intros H Hj. unfold ym. pose proof (ys_decr i j H ltac:(lia)). pose proof (ys_decr (S i) (S j) ltac:(lia) ltac:(lia)). lra. Qed.
Lemma f1_term y0 j d : (j < n)%nat -> f1 y0 (nth j (segments c) d) = / ln 10 * term y0 j.
Proof.
  unfold n. intros Hj. rewrite (segments_nth c j d (0, 0)) by lia. rewrite f1_closed; [|apply (xs_pos j); lia|apply (Hinc j); lia].
  unfold term, ym, ys, xs, Rdiv. ring.
Qed.
Lemma ybar_nth j : (j < n)%nat -> nth_error (map g_ybar (segments c)) j = Some (ym j).
Proof. unfold n. intros Hj. rewrite nth_error_map, (nth_error_nth' _ (mkSegment 0 0 0 0)) by (rewrite segments_length; auto). cbn. rewrite (segments_nth c j _ (0, 0)) by lia. cbn. f_equal. unfold ym, ys. field. Qed.
(** counting the suctions not above psi *)
Lemma search_count (l : list R) k psi : (k <= length l)%nat -> (forall j, (j < k)%nat -> nth j l 0 <= psi) -> (forall j, (k <= j < length l)%nat -> psi < nth j l 0) -> searchsorted_right l psi = k.
Proof.
  clear. unfold searchsorted_right. revert k. induction l as [|x l IH]; intros k Hk H1 H2; cbn [length] in *; [cbn; lia|]. cbn [filter].
  destruct k as [|k].
  - assert (psi < x) by (apply (H2 0%nat); lia). assert (E : Rleb x psi = false) by (apply Rleb_false; auto). rewrite E.
    apply (IH 0%nat); [lia| |]; intros j Hj; [lia|]. apply (H2 (S j)). lia.
  - assert (x <= psi) by (apply (H1 0%nat); lia). assert (E : Rleb x psi = true) by (apply Rleb_true; auto). rewrite E. cbn [length]. f_equal.
    apply IH; [lia| |]; intros j Hj; [apply (H1 (S j)); lia|apply (H2 (S j)); lia].
Qed.
Lemma xs_nth j : nth j (map fst c) 0 = xs c j.
Proof. unfold xs. change 0 with (fst (0, 0)) at 1. apply map_nth. Qed.
Lemma search_in k psi : (k < n)%nat -> xs c k <= psi < xs c (S k) -> searchsorted_right (map fst c) psi = S k.
Proof.
  unfold n. intros Hk Hp. apply search_count; [rewrite map_length; lia| |]; intros j Hj; rewrite ?map_length in Hj; rewrite xs_nth.
  - destruct (Nat.eq_dec j k) as [->|N]; [lra|]. pose proof (xs_incr j k ltac:(lia) ltac:(lia)). lra.
  - destruct (Nat.eq_dec j (S k)) as [->|N]; [lra|]. pose proof (xs_incr (S k) j ltac:(lia) ltac:(lia)). lra.
Qed.
Lemma search_below psi : psi < xs c 0 -> searchsorted_right (map fst c) psi = 0%nat.
Proof.
  intros Hp. apply search_count; [lia|lia|]. intros j Hj. rewrite map_length in Hj. rewrite xs_nth. destruct j; auto. pose proof (xs_incr 0 (S j) ltac:(lia) ltac:(lia)). lra.
Qed.
Lemma search_above psi : xs c n <= psi -> searchsorted_right (map fst c) psi = length c.
Proof.
  unfold n. intros Hp. apply search_count; [rewrite map_length; lia| |]; intros j Hj; rewrite ?map_length in Hj; [|lia]. rewrite xs_nth.
  destruct (Nat.eq_dec j (Nat.pred (length c))) as [->|N]; auto. pose proof (xs_incr j (Nat.pred (length c)) ltac:(lia) ltac:(lia)). lra.
Qed.
Definition total k y0 := rsum n (fun j => if Nat.ltb j k then 0 else term y0 j).
Lemma term_nonneg y0 j : (j < n)%nat -> ym j <= y0 -> 0 <= term y0 j.
Proof.
  unfold n. intros Hj Hy. unfold term. pose proof (xs_pos j ltac:(lia)). pose proof (xs_pos (S j) ltac:(lia)). pose proof (Hdec j ltac:(lia)).
  apply Rmult_le_pos; [nra|]. left. apply Rinv_0_lt_compat. nra.
Qed.
Lemma term_mono u v j : (j < n)%nat -> u <= v -> term u j <= term v j.
Proof.
  unfold n. intros Hj Hy. unfold term. pose proof (xs_pos j ltac:(lia)). pose proof (xs_pos (S j) ltac:(lia)). pose proof (Hdec j ltac:(lia)).
  apply Rmult_le_compat_r; [left; apply Rinv_0_lt_compat; nra|nra].
Qed.
Lemma rsum_zero m : rsum m (fun _ => 0) = 0.
Proof. clear. induction m as [|m IH]; [reflexivity|rewrite rsum_S, IH; ring]. Qed.
Lemma rsum_ge0 m f : (forall i, (i < m)%nat -> 0 <= f i) -> 0 <= rsum m f.
Proof. clear. intros H. eapply Rle_trans; [|apply (rsum_le m (fun _ => 0)); auto]. rewrite rsum_zero. lra. Qed.
Lemma rsum_le0 m f : (forall i, (i < m)%nat -> f i <= 0) -> rsum m f <= 0.
Proof. clear. intros H. eapply Rle_trans; [apply (rsum_le m f (fun _ => 0)); auto|]. rewrite rsum_zero. lra. Qed.
Lemma rsum_eq0 m f : (forall i, (i < m)%nat -> f i = 0) -> rsum m f = 0.
Proof. clear. intros H. rewrite (rsum_ext m f (fun _ => 0)); auto. apply rsum_zero. Qed.
Lemma total_nonneg k : (k < n)%nat -> 0 <= total k (ym k).
Proof.
  intros Hk. unfold total. apply rsum_ge0. intros j Hj. destruct (Nat.ltb_spec j k); [lra|]. apply term_nonneg; auto. apply ym_decr; auto.
Qed.
Lemma total_mono k l : (k <= l)%nat -> (l < n)%nat -> total l (ym l) <= total k (ym k).
Proof.
  intros Hk Hl. unfold total. apply rsum_le. intros j Hj. destruct (Nat.ltb_spec j l).
  - destruct (Nat.ltb_spec j k); [lra|]. apply term_nonneg; auto. apply ym_decr; auto.
  - destruct (Nat.ltb_spec j k); [lia|]. apply term_mono; auto. apply ym_decr; auto.
Qed.
Lemma rsum_pos m f j : (forall i, (i < m)%nat -> 0 <= f i) -> (j < m)%nat -> 0 < f j -> 0 < rsum m f.
Proof.
  clear. induction m as [|m IH]; intros H Hj Hp; [lia|]. rewrite rsum_S. pose proof (H m ltac:(lia)).
  destruct (Nat.eq_dec j m) as [->|N]; [|assert (0 < rsum m f) by (apply IH; auto; lia); lra].
  assert (0 <= rsum m f) by (apply rsum_ge0; intros; apply H; lia). lra.
Qed.
Lemma drop_at m : (1 <= m)%nat -> (m < length c)%nat -> ys c m < ys c 1 -> exists j, (1 <= j < m)%nat /\ ys c (S j) < ys c j.
Proof.
  clear Hdrop. intros H1. induction H1 as [|m H1 IH]; intros Hm Hd; [lra|]. destruct (Rlt_dec (ys c (S m)) (ys c m)) as [L|N]; [exists m; split; auto; lia|].
  destruct IH as (j & Hj & E); [lia|lra|]. exists j. split; auto; lia.
Qed.
Lemma denom_pos : 0 < total 0 (ym 0).
Proof.
  destruct (drop_at n ltac:(unfold n; lia) ltac:(unfold n; lia) Hdrop) as (j & Hj & E). unfold total. apply (rsum_pos n _ j); [| lia|].
  - intros i Hi. destruct (Nat.ltb_spec i 0); [lra|]. apply term_nonneg; auto. apply ym_decr; auto; lia.
  - cbn [Nat.ltb Nat.leb]. assert (Hn : n = Nat.pred (length c)) by reflexivity. pose proof (xs_pos j ltac:(lia)). pose proof (xs_pos (S j) ltac:(lia)). unfold term. apply Rmult_lt_0_compat; [|apply Rinv_0_lt_compat; nra].
    pose proof (ys_decr 1 j ltac:(lia) ltac:(lia)). pose proof (ys_decr 0 1 ltac:(lia) ltac:(lia)). unfold ym. nra.
Qed.
Lemma np_index_in k : (k < n)%nat -> np_index (map g_ybar (segments c)) (Z.of_nat k) = Ok (ym k).
Proof.
  intros Hk. unfold np_index. assert (E : (Z.of_nat k <? 0)%Z = false) by (apply Z.ltb_ge; lia). rewrite E, E, Nat2Z.id, ybar_nth; auto.
Qed.
Lemma np_index_0 : np_index (map g_ybar (segments c)) 0 = Ok (ym 0).
Proof. apply (np_index_in 0). unfold n. lia. Qed.
Lemma rows k y0 : (k < n)%nat -> rsum (length (segments c)) (fun row => if Z.ltb (Z.of_nat row) (Z.of_nat k) then 0 else f1 y0 (nth row (segments c) (mkSegment 0 0 0 0))) = / ln 10 * total k y0.
Proof.
  intros Hk. rewrite segments_length. fold n. unfold total. rewrite <- rsum_scal. apply rsum_ext. intros j Hj.
  destruct (Nat.ltb_spec j k); destruct (Z.ltb_spec (Z.of_nat j) (Z.of_nat k)); try lia; [ring|apply f1_term; auto].
Qed.
Lemma den_eq y0 : rsum (length (segments c)) (fun row => f1 y0 (nth row (segments c) (mkSegment 0 0 0 0))) = / ln 10 * total 0 y0.
Proof.
  rewrite segments_length. fold n. unfold total. rewrite <- rsum_scal. apply rsum_ext. intros j Hj. apply f1_term; auto.
Qed.
Lemma quot a b : 0 < b -> fdiv (/ ln 10 * a) (/ ln 10 * b) = Ok (a / b).
Proof.
  clear. intros Hb. pose proof ln10_pos. assert (0 < / ln 10) by (apply Rinv_0_lt_compat; auto). unfold fdiv. assert (E : Reqb (/ ln 10 * b) 0 = false) by (apply Reqb_false; nra). rewrite E. f_equal. field. lra.
Qed.
Theorem kwrel_inside k psi : (k < n)%nat -> xs c k <= psi < xs c (S k) -> kwrel_from_discrete_swcc psi c = Ok (total k (ym k) / total 0 (ym 0)).
Proof.
  intros Hk Hp. unfold kwrel_from_discrete_swcc. rewrite (search_in k psi Hk Hp). replace (Z.of_nat (S k) - 1)%Z with (Z.of_nat k) by lia.
  rewrite (np_index_in k Hk). cbn [bind]. rewrite (rows k _ Hk). rewrite np_index_0. cbn [bind].
  rewrite den_eq. apply quot, denom_pos.
Qed.
Theorem kwrel_above psi : xs c n <= psi -> kwrel_from_discrete_swcc psi c = Err IndexError.
Proof.
  intros Hp. unfold kwrel_from_discrete_swcc. rewrite (search_above psi Hp). unfold np_index. destruct (Z.ltb_spec (Z.of_nat (length c) - 1) 0); [lia|].
  destruct (Z.ltb_spec (Z.of_nat (length c) - 1) 0); [lia|]. rewrite (proj2 (nth_error_None _ _)); [reflexivity|]. rewrite map_length, segments_length. lia.
Qed.
Theorem kwrel_below psi : psi < xs c 0 -> exists k, kwrel_from_discrete_swcc psi c = Ok k /\ k <= 0 /\ (ys c (Nat.pred n) < ys c 0 -> k < 0).
Proof.
  intros Hp. unfold kwrel_from_discrete_swcc. rewrite (search_below psi Hp). change (Z.of_nat 0 - 1)%Z with (-1)%Z.
  assert (E : np_index (map g_ybar (segments c)) (-1) = Ok (ym (Nat.pred n))).
  { rewrite <- (np_index_in (Nat.pred n)) by (unfold n; lia). unfold np_index. change (-1 <? 0)%Z with true. cbv iota. rewrite map_length, segments_length. fold n.
    replace (-1 + Z.of_nat n)%Z with (Z.of_nat (Nat.pred n)) by (unfold n; lia). assert (E : (Z.of_nat (Nat.pred n) <? 0)%Z = false) by (apply Z.ltb_ge; lia). rewrite !E. reflexivity. }
  rewrite E. cbn [bind]. rewrite np_index_0. cbn [bind]. rewrite den_eq.
  assert (F : rsum (length (segments c)) (fun row => if (Z.of_nat row <? -1)%Z then 0 else f1 (ym (Nat.pred n)) (nth row (segments c) (mkSegment 0 0 0 0))) = / ln 10 * total 0 (ym (Nat.pred n))).
  { rewrite <- den_eq. apply rsum_ext. intros j Hj. destruct (Z.ltb_spec (Z.of_nat j) (-1)); [lia|reflexivity]. }
  rewrite F, quot by apply denom_pos. eexists. split; [reflexivity|]. pose proof denom_pos as D.
  assert (total 0 (ym (Nat.pred n)) <= 0).
  { unfold total. apply rsum_le0. intros j Hj. cbn [Nat.ltb Nat.leb]. unfold term. assert (Hn : n = Nat.pred (length c)) by reflexivity. pose proof (xs_pos j ltac:(lia)). pose proof (xs_pos (S j) ltac:(lia)). pose proof (Hdec j ltac:(lia)).
    pose proof (ym_decr j (Nat.pred n) ltac:(lia) ltac:(lia)). assert (0 < / (xs c j * xs c (S j))) by (apply Rinv_0_lt_compat; nra). unfold Rdiv. assert (0 <= (ys c j - ys c (S j)) * (ym j - ym (Nat.pred n))) by (apply Rmult_le_pos; lra). nra. }
  assert (0 < / total 0 (ym 0)) by (apply Rinv_0_lt_compat; auto). unfold Rdiv. split; [nra|]. intros Hy.
  assert (Hn : n = Nat.pred (length c)) by reflexivity.
  assert (Dr : exists j, (j < Nat.pred n)%nat /\ ys c (S j) < ys c j).
  { revert Hy. generalize (Nat.pred n). clear. intros m. induction m as [|m IH]; intros Hy; [lra|]. destruct (Rlt_dec (ys c (S m)) (ys c m)) as [L|N]; [exists m; split; auto|].
    destruct IH as (j & Hj & E); [lra|]. exists j. split; auto. }
  destruct Dr as (j & Hj & E'). assert (total 0 (ym (Nat.pred n)) < 0); [|nra].
  assert (P : 0 < rsum n (fun i => -1 * term (ym (Nat.pred n)) i)).
  { apply (rsum_pos n _ j); [|lia|].
    - intros i Hi. unfold term. pose proof (xs_pos i ltac:(lia)). pose proof (xs_pos (S i) ltac:(lia)). pose proof (Hdec i ltac:(lia)).
      pose proof (ym_decr i (Nat.pred n) ltac:(lia) ltac:(lia)). assert (0 < / (xs c i * xs c (S i))) by (apply Rinv_0_lt_compat; nra). unfold Rdiv. assert (0 <= (ys c i - ys c (S i)) * (ym i - ym (Nat.pred n))) by (apply Rmult_le_pos; lra). nra.
    - unfold term. pose proof (xs_pos j ltac:(lia)). pose proof (xs_pos (S j) ltac:(lia)). assert (0 < / (xs c j * xs c (S j))) by (apply Rinv_0_lt_compat; nra). unfold Rdiv.
      pose proof (ys_decr (S j) (Nat.pred n) ltac:(lia) ltac:(lia)). pose proof (ys_decr (S j) (S (Nat.pred n)) ltac:(lia) ltac:(lia)).
      assert (0 < (ys c j - ys c (S j)) * (ym j - ym (Nat.pred n))) by (apply Rmult_lt_0_compat; unfold ym; lra). nra. }
  rewrite (rsum_scal n (-1) (fun i => term (ym (Nat.pred n)) i)) in P. assert (Et : total 0 (ym (Nat.pred n)) = rsum n (fun i => term (ym (Nat.pred n)) i)) by (unfold total; apply rsum_ext; reflexivity). rewrite Et. lra.
Qed.
Theorem kwrel_range k : (k < n)%nat -> 0 <= total k (ym k) / total 0 (ym 0) <= 1.
Proof.
  intros Hk. pose proof denom_pos as D. pose proof (total_nonneg k Hk). pose proof (total_mono 0 k ltac:(lia) Hk).
  split; [apply Rmult_le_pos; auto; left; apply Rinv_0_lt_compat; auto|]. apply (Rmult_le_reg_r (total 0 (ym 0))); auto. unfold Rdiv. rewrite Rmult_assoc, Rinv_l; lra.
Qed.
Theorem kwrel_monotone k l : (k <= l)%nat -> (l < n)%nat -> total l (ym l) / total 0 (ym 0) <= total k (ym k) / total 0 (ym 0).
Proof.
  intros Hk Hl. pose proof denom_pos as D. pose proof (total_mono k l Hk Hl). apply Rmult_le_compat_r; auto. left. apply Rinv_0_lt_compat; auto.
Qed.
Theorem kwrel_first : total 0 (ym 0) / total 0 (ym 0) = 1.
Proof. pose proof denom_pos as D. field. lra. Qed.
Theorem kwrel_last : total (Nat.pred n) (ym (Nat.pred n)) / total 0 (ym 0) = 0.
Proof.
  assert (E : total (Nat.pred n) (ym (Nat.pred n)) = 0).
  { unfold total. apply rsum_eq0. intros j Hj. destruct (Nat.ltb_spec j (Nat.pred n)); auto. assert (j = Nat.pred n) by lia. subst j. unfold term. rewrite Rminus_eq_0. unfold Rdiv. ring. }
  rewrite E. unfold Rdiv. ring.
Qed.
(** every suction in the range lies in a segment *)
Lemma segment_exists psi : xs c 0 <= psi < xs c n -> exists k, (k < n)%nat /\ xs c k <= psi < xs c (S k).
Proof.
  intros (H0 & Hn). revert Hn. generalize (le_n n). generalize n at 1 3 4. intros m Hm. induction m as [|m IH]; intros Hn; [lra|].
  destruct (Rlt_dec psi (xs c m)) as [L|N]; [|exists m; split; [lia|lra]]. destruct IH as (k & Hk & E); [lia|auto|]. exists k. split; auto.
Qed.
End Curve.

(** ** Air *)
Theorem karel_ends q : 0 < q -> karel_air_from_saturation 0 q = 1 /\ karel_air_from_saturation 1 q = 0.
Proof.
  intros Hq. unfold karel_air_from_saturation. rewrite fpow_0, Rminus_0_r, !fpow_1, Rminus_eq_0, fpow_0. lra.
Qed.
Lemma fpow_pos' x y : 0 < x -> 0 < fpow x y. Proof. intros. rewrite fpow_pos by auto. apply exp_pos. Qed.
Theorem karel_decreasing q s1 s2 : 0 < q -> 0 <= s1 -> s1 < s2 -> s2 <= 1 -> karel_air_from_saturation s2 q < karel_air_from_saturation s1 q.
Proof.
  intros Hq H0 H1 H2. assert (Hi : 0 < 1 / q) by (apply Rmult_lt_0_compat; [lra|apply Rinv_0_lt_compat; auto]). unfold karel_air_from_saturation.
  assert (A : fpow s1 (1 / q) < fpow s2 (1 / q)) by (apply fpow_lt; lra).
  assert (B : fpow s2 (1 / q) <= 1) by (destruct H2 as [H2| ->]; [left; apply Rlt_le_trans with (fpow 1 (1 / q)); [apply fpow_lt; lra|rewrite fpow_1; lra]|rewrite fpow_1; lra]).
  assert (A' : fpow (1 - fpow s2 (1 / q)) (2 * q) < fpow (1 - fpow s1 (1 / q)) (2 * q)) by (apply fpow_lt; lra).
  assert (B' : fpow (1 - s2) (1 / 2) < fpow (1 - s1) (1 / 2)) by (apply fpow_lt; lra).
  pose proof (fpow_ge0 (1 - s2) (1 / 2)). pose proof (fpow_ge0 (1 - fpow s2 (1 / q)) (2 * q)). nra.
Qed.
Theorem karel_range q sr : 0 < q -> 0 <= sr <= 1 -> 0 <= karel_air_from_saturation sr q <= 1.
Proof.
  intros Hq (H0 & H1). destruct (karel_ends q Hq) as (E0 & E1). split.
  - unfold karel_air_from_saturation. apply Rmult_le_pos; apply fpow_ge0.
  - destruct H0 as [H0| <-]; [|lra]. left. rewrite <- E0. apply karel_decreasing; lra.
Qed.
