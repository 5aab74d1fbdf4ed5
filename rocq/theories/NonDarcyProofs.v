(** * Lemmas on the series of _g and _gbar *)
From Coq Require Import Reals List Bool Arith Lia Lra.
From Coquelicot Require Import Coquelicot.
From Verif Require Import Base NonDarcyModel.
Import ListNotations.
Local Open Scope R_scope.
Local Open Scope list_scope.

Lemma sum_to_ext m f h : (forall j, (j < m)%nat -> f j = h j) -> sum_to m f = sum_to m h.
Proof. induction m as [|m IH]; intros H; cbn [sum_to]; [reflexivity|]. rewrite IH by (intros; apply H; lia). rewrite H by lia. reflexivity. Qed.
Lemma sum_to_scal c m f : sum_to m (fun j => c * f j) = c * sum_to m f.
Proof. induction m as [|m IH]; cbn [sum_to]; [ring|]. rewrite IH. ring. Qed.
Lemma sum_to_le m f h : (forall j, (j < m)%nat -> f j <= h j) -> sum_to m f <= sum_to m h.
Proof. induction m as [|m IH]; intros H; cbn [sum_to]; [lra|]. assert (A := H m ltac:(lia)). assert (sum_to m f <= sum_to m h) by (apply IH; intros; apply H; lia). lra. Qed.
Lemma sum_to_derive m (f f' : nat -> R -> R) y : (forall j, (j < m)%nat -> is_derive (f j) y (f' j y)) -> is_derive (fun y => sum_to m (fun j => f j y)) y (sum_to m (fun j => f' j y)).
Proof.
  induction m as [|m IH]; intros H; cbn [sum_to].
  - apply (is_derive_const (K := R_AbsRing) (V := R_NormedModule)).
  - apply (is_derive_plus (K := R_AbsRing) (V := R_NormedModule)); [apply IH; intros; apply H; lia|apply H; lia].
Qed.

Lemma poch_shift x j : poch x (S j) = x * poch (x + 1) j.
Proof.
  induction j as [|j IH]; [cbn; ring|]. cbn [poch] in *. rewrite IH. rewrite S_INR. ring.
Qed.
Lemma poch_pos x j : 0 < x -> 0 < poch x j.
Proof. intros H. induction j as [|j IH]; cbn [poch]; [lra|]. apply Rmult_lt_0_compat; auto. assert (Q := pos_INR j). lra. Qed.
Lemma fact_pos j : 0 < INR (fact j).
Proof. apply lt_0_INR, lt_O_fact. Qed.
Lemma binom_sum a k : sum_to (S k) (fun j => poch (- a) j / INR (fact j)) = poch (1 - a) k / INR (fact k).
Proof.
  induction k as [|k IH]; [cbn; lra|]. change (sum_to (S (S k)) ?f) with (sum_to (S k) f + f (S k)). rewrite IH. cbv beta. rewrite poch_shift. replace (- a + 1) with (1 - a) by ring.
  change (fact (S k)) with (S k * fact k)%nat. rewrite mult_INR. cbn [poch]. rewrite S_INR. assert (Q := fact_pos k). assert (P := pos_INR k). field. split; lra.
Qed.
(** the truncated binomial series of (1 - x)^a is positive on [0,1] *)
Lemma binom_pos a m x : 0 < a < 1 -> (1 <= m)%nat -> 0 <= x <= 1 -> 0 < sum_to m (fun j => poch (- a) j / INR (fact j) * x ^ j).
Proof.
  intros Ha Hm Hx. destruct m as [|k]; [lia|]. apply Rlt_le_trans with (sum_to (S k) (fun j => poch (- a) j / INR (fact j))).
  - rewrite binom_sum. apply Rdiv_lt_0_compat; [apply poch_pos; lra|apply fact_pos].
  - apply sum_to_le. intros [|j] _; [cbn; lra|]. rewrite poch_shift. replace (- a + 1) with (1 - a) by ring.
    assert (C : - a * poch (1 - a) j / INR (fact (S j)) <= 0). { assert (P := poch_pos (1 - a) j ltac:(lra)). assert (F := fact_pos (S j)). assert (0 < a * poch (1 - a) j / INR (fact (S j))) by (apply Rdiv_lt_0_compat; [apply Rmult_lt_0_compat; lra|exact F]).
      replace (- a * poch (1 - a) j / INR (fact (S j))) with (- (a * poch (1 - a) j / INR (fact (S j)))) by (field; lra). lra. }
    assert (X : x ^ S j <= 1) by (rewrite <- (pow1 (S j)); apply pow_incr; lra). assert (0 <= x ^ S j) by (apply pow_le; lra). nra.
Qed.

Section Series.
Variables N n : R.
Hypothesis HN : 1 < N.
Hypothesis Hn : 1 < n.
Lemma D1_pos j : 0 < (2 * INR j + 1) * n - 1.
Proof. assert (P := pos_INR j). nra. Qed.
Lemma D3_pos j : 0 < (2 * INR j + 3) * n - 1.
Proof. assert (P := pos_INR j). nra. Qed.
(** slope of g: y^(-1/n) times the truncated binomial series *)
Definition dg (m : nat) (y : R) : R := Rpower y (- (1 / n)) * sum_to m (fun j => poch (- (1 / n)) j / INR (fact j) * ((y / N) ^ 2) ^ j).
Lemma term_derive A e k y : 0 < y -> is_derive (fun y => A * Rpower y (e + INR k)) y (A * ((e + INR k) * (Rpower y (e - 1) * y ^ k))).
Proof.
  intros Hy. apply is_derive_scal. replace (Rpower y (e - 1) * y ^ k) with (Rpower y (e + INR k - 1)) by (rewrite <- Rpower_pow by exact Hy; rewrite <- Rpower_plus; f_equal; ring).
  apply is_derive_Reals. apply derivable_pt_lim_power. exact Hy.
Qed.
Lemma split_pow y j e : 0 < y -> (y / N) ^ (2 * j) * Rpower y e = / N ^ (2 * j) * Rpower y (e + INR (2 * j)).
Proof.
  intros Hy. rewrite Rpower_plus, Rpower_pow by exact Hy. unfold Rdiv. rewrite Rpow_mult_distr, pow_inv. ring.
Qed.
Lemma ydiv y k : (y / N) ^ k = y ^ k / N ^ k.
Proof. unfold Rdiv. rewrite Rpow_mult_distr, pow_inv. reflexivity. Qed.
Lemma neg_div : - 1 / n = - (1 / n).
Proof. field. lra. Qed.
Lemma g_array_derive m y : 0 < y -> is_derive (fun y => g_array y N n m) y (dg m y).
Proof.
  intros Hy. set (A := fun j : nat => n * (poch (- 1 / n) j / INR (fact j) / ((2 * INR j + 1) * n - 1)) / N ^ (2 * j)).
  apply (is_derive_ext_loc (fun y => sum_to m (fun j => A j * Rpower y (1 - 1 / n + INR (2 * j))))).
  - exists (mkposreal y Hy). intros z Hz. assert (Z : 0 < z). { change (Rabs (z - y) < y) in Hz. apply Rabs_def2 in Hz. lra. }
    unfold g_array. rewrite Rmult_comm, <- sum_to_scal. apply sum_to_ext. intros j _. unfold A.
    transitivity (n * (poch (- 1 / n) j / INR (fact j) / ((2 * INR j + 1) * n - 1)) * ((z / N) ^ (2 * j) * Rpower z (1 - 1 / n))); [rewrite split_pow by exact Z; unfold Rdiv; ring|ring].
  - unfold dg. rewrite <- sum_to_scal. assert (X := sum_to_derive m (fun j y => A j * Rpower y (1 - 1 / n + INR (2 * j))) (fun j y => A j * ((1 - 1 / n + INR (2 * j)) * (Rpower y (1 - 1 / n - 1) * y ^ (2 * j)))) y).
    erewrite sum_to_ext; [apply X; intros j _; apply term_derive; exact Hy|]. intros j _. cbv beta. unfold A. rewrite neg_div. replace (1 - 1 / n - 1) with (- (1 / n)) by ring. rewrite mult_INR. change (INR 2) with 2. rewrite <- pow_mult. rewrite ydiv.
    assert (Q := D1_pos j). assert (F := fact_pos j). assert (0 < N ^ (2 * j)) by (apply pow_lt; lra). field. repeat split; lra.
Qed.
Lemma gbar_array_derive m y : 0 < y -> is_derive (fun y => gbar_array y N n m) y (y * g_array y N n m).
Proof.
  intros Hy. set (A := fun j : nat => n ^ 2 * (poch (- 1 / n) j / INR (fact j) / ((2 * INR j + 1) * n - 1) / ((2 * INR j + 3) * n - 1)) / N ^ (2 * j)).
  apply (is_derive_ext_loc (fun y => sum_to m (fun j => A j * Rpower y (3 - 1 / n + INR (2 * j))))).
  - exists (mkposreal y Hy). intros z Hz. assert (Z : 0 < z). { change (Rabs (z - y) < y) in Hz. apply Rabs_def2 in Hz. lra. }
    unfold gbar_array. rewrite Rmult_comm, <- sum_to_scal. apply sum_to_ext. intros j _. unfold A.
    transitivity (n ^ 2 * (poch (- 1 / n) j / INR (fact j) / ((2 * INR j + 1) * n - 1) / ((2 * INR j + 3) * n - 1)) * ((z / N) ^ (2 * j) * Rpower z (3 - 1 / n))); [rewrite split_pow by exact Z; unfold Rdiv; ring|ring].
  - unfold g_array. replace (y * (sum_to m (fun j => poch (- 1 / n) j / INR (fact j) / ((2 * INR j + 1) * n - 1) * (y / N) ^ (2 * j)) * (n * Rpower y (1 - 1 / n))))
      with ((n * (y * Rpower y (1 - 1 / n))) * sum_to m (fun j => poch (- 1 / n) j / INR (fact j) / ((2 * INR j + 1) * n - 1) * (y / N) ^ (2 * j))) by ring. rewrite <- sum_to_scal.
    assert (X := sum_to_derive m (fun j y => A j * Rpower y (3 - 1 / n + INR (2 * j))) (fun j y => A j * ((3 - 1 / n + INR (2 * j)) * (Rpower y (3 - 1 / n - 1) * y ^ (2 * j)))) y).
    erewrite sum_to_ext; [apply X; intros j _; apply term_derive; exact Hy|]. intros j _. cbv beta. unfold A. replace (3 - 1 / n - 1) with (1 + (1 - 1 / n)) by ring. rewrite Rpower_plus, Rpower_1 by exact Hy. rewrite mult_INR. change (INR 2) with 2. rewrite ydiv.
    assert (Q := D1_pos j). assert (Q3 := D3_pos j). assert (F := fact_pos j). assert (0 < N ^ (2 * j)) by (apply pow_lt; lra). field. repeat split; lra.
Qed.
Lemma dg_pos m y : (1 <= m)%nat -> 0 < y <= N -> 0 < dg m y.
Proof.
  intros Hm Hy. unfold dg. apply Rmult_lt_0_compat; [apply exp_pos|]. apply binom_pos; auto.
  - split; [apply Rdiv_lt_0_compat; lra|]. apply (Rmult_lt_reg_r n); [lra|]. unfold Rdiv. rewrite Rmult_assoc, Rinv_l by lra. lra.
  - assert (0 <= y / N <= 1). { split; [apply Rlt_le, Rdiv_lt_0_compat; lra|]. apply (Rmult_le_reg_r N); [lra|]. unfold Rdiv. rewrite Rmult_assoc, Rinv_l by lra. lra. } nra.
Qed.

(** *** the scalar branch *)
Lemma cumprod_terms (t : nat -> R) (r : nat -> R) : (forall j, t (S j) = t j * r (S j)) -> forall k i, total (cumprod (t i) (map r (seq (S i) k))) = sum_to (S i + k) t - sum_to (S i) t.
Proof.
  intros H. induction k as [|k IH]; intros i; cbn [seq map cumprod total fold_right].
  - rewrite Nat.add_0_r. ring.
  - rewrite <- H. change (fold_right Rplus 0 ?l) with (total l). rewrite IH. replace (S (S i) + k)%nat with (S i + S k)%nat by lia. cbn [sum_to]. ring.
Qed.
Lemma scalar_is_array c P (d : nat -> R) k : (forall j, d j <> 0) ->
  forall (t : nat -> R), (forall j, t j = poch (- 1 / n) j / INR (fact j) * d j * c ^ (2 * j) * P) ->
  total (cumprod 1 (t 0%nat :: map (fun j => c ^ 2 * (INR j * n - n - 1) / (n * INR j) * (d j / d (j - 1)%nat)) (seq 1 k))) = sum_to (S k) (fun j => poch (- 1 / n) j / INR (fact j) * d j * c ^ (2 * j)) * P.
Proof.
  intros Hd t Ht. cbn [cumprod total fold_right]. rewrite !Rmult_1_l. change (fold_right Rplus 0 ?l) with (total l).
  rewrite (cumprod_terms t (fun j => c ^ 2 * (INR j * n - n - 1) / (n * INR j) * (d j / d (j - 1)%nat))).
  - rewrite Rmult_comm, <- sum_to_scal. replace (1 + k)%nat with (S k) by lia. rewrite (sum_to_ext (S k) (fun j => P * _) t); [cbn [sum_to]; ring|]. intros j _. rewrite Ht. ring.
  - intros j. rewrite !Ht. replace (S j - 1)%nat with j by lia. cbn [poch]. change (fact (S j)) with (S j * fact j)%nat. rewrite mult_INR. replace (2 * S j)%nat with (S (S (2 * j))) by lia. cbn [pow]. rewrite !S_INR. assert (F := fact_pos j). assert (P0 := pos_INR j). specialize (Hd j). field. repeat split; try lra; exact Hd.
Qed.
Lemma g_paths y m : g_scalar y N n (S m) = Ok (g_array y N n (S m)).
Proof.
  unfold g_scalar, g_array. f_equal. set (d := fun j : nat => / ((2 * INR j + 1) * n - 1)).
  assert (HD : forall j, d j <> 0) by (intros j; apply Rinv_neq_0_compat; assert (Q := D1_pos j); lra).
  assert (X := scalar_is_array (y / N) (n * Rpower y (1 - 1 / n)) d m HD (fun j => poch (- 1 / n) j / INR (fact j) * d j * (y / N) ^ (2 * j) * (n * Rpower y (1 - 1 / n))) (fun j => eq_refl)).
  etransitivity; [|exact X]. f_equal. f_equal. f_equal.
  - unfold d. cbn. field. lra.
  - apply map_ext_in. intros j Hj. apply in_seq in Hj. unfold d. rewrite minus_INR by lia. change (INR 1) with 1. assert (1 <= INR j) by (change 1 with (INR 1); apply le_INR; lia). assert (0 < (2 * INR j + 1) * n - 1) by nra. assert (0 < (2 * (INR j - 1) + 1) * n - 1) by nra. field. repeat split; try lra; nra.
Qed.
Lemma gbar_paths y m : gbar_scalar y N n (S m) = Ok (gbar_array y N n (S m)).
Proof.
  unfold gbar_scalar, gbar_array. f_equal. set (d := fun j : nat => / ((2 * INR j + 1) * n - 1) / ((2 * INR j + 3) * n - 1)).
  assert (HD : forall j, d j <> 0) by (intros j; unfold d, Rdiv; assert (Q := D1_pos j); assert (Q3 := D3_pos j); apply Rmult_integral_contrapositive_currified; apply Rinv_neq_0_compat; lra).
  assert (X := scalar_is_array (y / N) (n ^ 2 * Rpower y (3 - 1 / n)) d m HD (fun j => poch (- 1 / n) j / INR (fact j) * d j * (y / N) ^ (2 * j) * (n ^ 2 * Rpower y (3 - 1 / n))) (fun j => eq_refl)).
  etransitivity; [|etransitivity; [exact X|]].
  - f_equal. f_equal. f_equal.
    + unfold d. cbn. field. split; lra.
    + apply map_ext_in. intros j Hj. apply in_seq in Hj. unfold d. rewrite minus_INR by lia. change (INR 1) with 1. assert (1 <= INR j) by (change 1 with (INR 1); apply le_INR; lia). assert (0 < (2 * INR j + 1) * n - 1) by nra. assert (0 < (2 * INR j + 3) * n - 1) by nra. assert (0 < (2 * (INR j - 1) + 1) * n - 1) by nra. assert (0 < (2 * (INR j - 1) + 3) * n - 1) by nra. field. repeat split; try lra; nra.
  - f_equal. apply sum_to_ext. intros j _. unfold d, Rdiv. ring.
Qed.
End Series.
