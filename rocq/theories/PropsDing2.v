(** * C146: the quadrature of DingEtAl2012; C147: clamped and free ends, output *)
From Coq Require Import Reals List Arith ZArith Bool Lia Lra Sorting.
From Coquelicot Require Import Coquelicot.
From Verif Require Import Base SpecQuadrature DingModel DingProofs PropsDing.
Import ListNotations.
Local Open Scope R_scope.

Definition dot (u v : list R) : R := sumR (map (fun p => fst p * snd p) (combine u v)).
(** np.linalg.solve: a solution, and only if it is the only one *)
Definition solves (solve : list (list R) -> list R -> result (list R)) : Prop := forall M r x, solve M r = Ok x ->
  length x = length r /\ map (fun row => dot row x) M = r /\ forall y, length y = length r -> map (fun row => dot row y) M = r -> y = x.
(** sum of weights times values *)
Definition quadr (ws xs : list R) (f : R -> R) : R := sumR (map (fun p => fst p * f (snd p)) (combine ws xs)).
Lemma quadr_plus ws xs f g : quadr ws xs (fun x => f x + g x) = quadr ws xs f + quadr ws xs g.
Proof. unfold quadr. generalize (combine ws xs) as l. induction l as [|p l IH]; [cbn; ring|]. cbn [map]. change (sumR (?a :: ?l)) with (a + sumR l). rewrite IH. ring. Qed.
Lemma quadr_scal ws xs c f : quadr ws xs (fun x => c * f x) = c * quadr ws xs f.
Proof. unfold quadr. generalize (combine ws xs) as l. induction l as [|p l IH]; [cbn; ring|]. cbn [map]. change (sumR (?a :: ?l)) with (a + sumR l). rewrite IH. ring. Qed.
Lemma quadr_ext ws xs f g : (forall x, In x xs -> f x = g x) -> quadr ws xs f = quadr ws xs g.
Proof. intros H. unfold quadr. f_equal. apply map_ext_in. intros [u x] Hp. apply in_combine_r in Hp. cbn. rewrite H by auto. reflexivity. Qed.
Lemma quadr_0 ws xs : quadr ws xs (fun _ => 0) = 0.
Proof. unfold quadr. generalize (combine ws xs) as l. induction l as [|p l IH]; [reflexivity|]. cbn [map]. change (sumR (?a :: ?l)) with (a + sumR l). rewrite IH. ring. Qed.
Lemma quadr_poly ws xs cs : forall m, quadr ws xs (fun x => x ^ m * poly cs x) = total (fun k => nth k cs 0 * quadr ws xs (fun x => x ^ (m + k))) (length cs).
Proof.
  induction cs as [|c cs IH]; intros m.
  - cbn. rewrite (quadr_ext _ _ _ (fun _ => 0)) by (intros; ring). apply quadr_0.
  - rewrite (quadr_ext _ _ _ (fun x => c * x ^ (m + 0) + x ^ S m * poly cs x)) by (intros; rewrite Nat.add_0_r; cbn; ring). rewrite quadr_plus, quadr_scal, IH.
    unfold total. cbn [length seq map]. change (sumR (?a :: ?l)) with (a + sumR l). cbn [nth]. f_equal. rewrite <- seq_shift, map_map. f_equal. apply map_ext. intros k. cbn [nth]. f_equal. f_equal. replace (S m + k)%nat with (m + S k)%nat by lia. reflexivity.
Qed.
Lemma dot_row ws xs k : dot (map (fun x => x ^ k) xs) ws = quadr ws xs (fun x => x ^ k).
Proof. unfold dot, quadr. revert ws. induction xs as [|x xs IH]; intros [|u ws]; try reflexivity. cbn [map combine fst snd]. change (sumR (?a :: ?l)) with (a + sumR l). rewrite IH. ring. Qed.
(** the exact integral of a polynomial over (0, 1) *)
Lemma poly_int cs : forall m, is_RInt (fun x => x ^ m * poly cs x) 0 1 (total (fun k => nth k cs 0 * / (INR (m + k) + 1)) (length cs)).
Proof.
  induction cs as [|c cs IH]; intros m.
  - cbn. apply (is_RInt_ext (fun _ => 0)); [intros; match goal with |- ?u = ?v => change (@eq R u v) end; ring|]. assert (D := is_RInt_const (V := R_NormedModule) 0 1 0). apply (eq_ind _ (fun v => is_RInt (fun _ => 0) 0 1 v) D). unfold scal; cbn; unfold mult; cbn. ring.
  - unfold total. cbn [length seq map]. change (sumR (?a :: ?l)) with (a + sumR l). cbn [nth]. rewrite <- seq_shift, map_map.
    apply (is_RInt_ext (fun x => plus (c * x ^ m) (x ^ S m * poly cs x))); [intros; unfold plus; cbn; ring|]. apply (is_RInt_plus (V := R_NormedModule)).
    + apply (is_RInt_scal (V := R_NormedModule) (fun x => x ^ m)). rewrite Nat.add_0_r. assert (V := rint_value (fun x => / (INR m + 1) * x ^ S m) (fun x => x ^ m) 0 1).
      assert (MP := pos_INR m). assert (Z : / (INR m + 1) * 1 ^ S m - / (INR m + 1) * 0 ^ S m = / (INR m + 1)) by (rewrite pow1, pow_i by lia; ring). cbv beta in V. rewrite Z in V. apply V.
      * intros x. auto_derive; auto. change (Nat.pred (S m)) with m. replace (match m with 0%nat => 1 | S _ => INR m + 1 end) with (INR m + 1) by (destruct m; cbn; lra). field. lra.
      * intros x. apply (ex_derive_continuous (K := R_AbsRing) (V := R_NormedModule)). auto_derive. auto.
    + specialize (IH (S m)). unfold total in IH. apply (eq_ind _ (fun v => is_RInt _ 0 1 v) IH). f_equal. apply map_ext. intros k. replace (S m + k)%nat with (m + S k)%nat by lia. reflexivity.
Qed.
Section S.
Variable roots : (R -> R) -> nat -> result (list R).
Variable solve : list (list R) -> list R -> result (list R).
Hypothesis HS : solves solve.
(** *** The weights integrate every polynomial of degree below the number of points exactly over (0, 1) *)
Theorem C146_exact xj Ij cs (v : R) : weights solve xj = Ok Ij -> (length cs <= length xj)%nat -> is_RInt (poly cs) 0 1 v -> quadr Ij xj (poly cs) = v.
Proof.
  intros HW HL HI. destruct (HS _ _ _ HW) as (_ & E & _). rewrite map_map in E.
  assert (M : forall k, (k < length xj)%nat -> quadr Ij xj (fun x => x ^ k) = / (INR k + 1)).
  { intros k Hk. apply (f_equal (fun l => nth k l 0)) in E. rewrite !nth_map_seq in E by auto. rewrite <- dot_row. exact E. }
  assert (Q := quadr_poly Ij xj cs 0). rewrite (quadr_ext Ij xj _ (poly cs)) in Q by (intros; cbn; ring). rewrite Q.
  assert (P := poly_int cs 0). apply (is_RInt_ext _ (poly cs)) in P; [|intros; cbn; match goal with |- ?u = ?v => change (@eq R u v) end; ring].
  rewrite <- (is_RInt_unique _ _ _ _ HI). rewrite (is_RInt_unique _ _ _ _ P). apply total_ext. intros k Hk. cbn [Nat.add]. rewrite M by lia. reflexivity.
Qed.
Lemma sum_abs_pos l : 0 <= sumR (map Rabs l).
Proof. induction l as [|a l IH]; cbn [map]; [cbn; lra|]. change (sumR (?a :: ?l)) with (a + sumR l). assert (A := Rabs_pos a). lra. Qed.
(** *** so the integral of any f is missed by at most 1 + sum |Ij| times its distance from such a polynomial *)
Theorem C146_error xj Ij cs (f : R -> R) (v delta : R) : weights solve xj = Ok Ij -> (length cs <= length xj)%nat -> (forall x, In x xj -> 0 <= x <= 1) -> is_RInt f 0 1 v ->
  (forall x, 0 <= x <= 1 -> Rabs (f x - poly cs x) <= delta) -> Rabs (quadr Ij xj f - v) <= delta * (1 + sumR (map Rabs Ij)).
Proof.
  intros HW HL HX HI HD. assert (P := poly_int cs 0). apply (is_RInt_ext _ (poly cs)) in P; [|intros; cbn; match goal with |- ?u = ?v => change (@eq R u v) end; ring]. set (p := total _ _) in P.
  assert (E := C146_exact xj Ij cs p HW HL P). assert (D0 : 0 <= delta) by (apply Rle_trans with (2 := HD 0 ltac:(lra)); apply Rabs_pos).
  assert (B1 : Rabs (v - p) <= delta).
  { assert (J := is_RInt_minus (V := R_NormedModule) _ _ _ _ _ _ HI P). replace delta with ((1 - 0) * delta) by ring. apply (norm_RInt_le_const (V := R_NormedModule) (fun x => minus (f x) (poly cs x)) 0 1 (minus v p) delta); auto. lra. }
  assert (B2 : Rabs (quadr Ij xj f - quadr Ij xj (poly cs)) <= delta * sumR (map Rabs Ij)).
  { replace (quadr Ij xj f - quadr Ij xj (poly cs)) with (quadr Ij xj (fun x => f x + (-1) * poly cs x)) by (rewrite (quadr_plus Ij xj f (fun x => (-1) * poly cs x)), quadr_scal; ring).
    clear - HX HD D0. revert xj HX. induction Ij as [|u l IH]; intros xj HX; [cbn; rewrite Rabs_R0; lra|]. destruct xj as [|x xj].
    - unfold quadr. cbn [combine map]. change (sumR []) with 0. rewrite Rabs_R0. apply Rmult_le_pos; auto. apply (sum_abs_pos (u :: l)).
    - unfold quadr in *. cbn [combine map fst snd]. change (sumR (?a :: ?l)) with (a + sumR l). specialize (IH xj ltac:(intros; apply HX; right; auto)). eapply Rle_trans; [apply Rabs_triang|]. rewrite Rabs_mult.
      specialize (HD x (HX x (or_introl eq_refl))). replace (f x + -1 * poly cs x) with (f x - poly cs x) by ring. assert (A := Rabs_pos u). nra. }
  replace (quadr Ij xj f - v) with ((quadr Ij xj f - quadr Ij xj (poly cs)) + (p - v)) by (rewrite E; ring). eapply Rle_trans; [apply Rabs_triang|]. rewrite (Rabs_minus_sym p v). lra.
Qed.
(** *** The points for a simply supported beam rise from 0 to 1 *)
Theorem C146_points n : (2 <= n)%nat -> StronglySorted Rlt (points_SS n) /\ nth 0 (points_SS n) 0 = 0 /\ last (points_SS n) 0 = 1 /\ length (points_SS n) = n /\ forall x, In x (points_SS n) -> 0 <= x <= 1.
Proof.
  intros Hn. assert (P := PI_RGT_0). assert (N1 : 0 < INR n - 1) by (assert (K := le_INR 2 n Hn); cbn in K; lra).
  assert (A : forall j, (j < n)%nat -> 0 <= PI * INR j / (INR n - 1) <= PI).
  { intros j Hj. assert (J := pos_INR j). assert (J2 : INR j <= INR n - 1) by (assert (X := le_INR (S j) n Hj); rewrite S_INR in X; lra). split; [apply Rmult_le_pos; [nra|left; apply Rinv_0_lt_compat; auto]|].
    apply (Rmult_le_reg_r (INR n - 1)); auto. unfold Rdiv. rewrite Rmult_assoc, Rinv_l by lra. nra. }
  split; [|split; [|split; [|split]]].
  - unfold points_SS. assert (G : forall m j, (j + m <= n)%nat -> StronglySorted Rlt (map (fun j => 1 / 2 * (1 - cos (PI * INR j / (INR n - 1)))) (seq j m))).
    { induction m as [|m IH]; intros j Hj; [constructor|]. cbn [seq map]. constructor; [apply IH; lia|]. rewrite List.Forall_forall. intros y Hy. apply in_map_iff in Hy. destruct Hy as (k & <- & Hk). apply in_seq in Hk.
      assert (C : cos (PI * INR k / (INR n - 1)) < cos (PI * INR j / (INR n - 1))).
      { apply cos_decreasing_1; try (apply A; lia). apply Rmult_lt_compat_r; [apply Rinv_0_lt_compat; auto|]. apply Rmult_lt_compat_l; auto. apply lt_INR. lia. } lra. }
    apply (G n 0%nat). lia.
  - unfold points_SS. rewrite nth_map_seq by lia. cbn [INR]. rewrite Rmult_0_r. unfold Rdiv. rewrite Rmult_0_l, cos_0. ring.
  - unfold points_SS. destruct n as [|n]; [lia|]. rewrite seq_S, map_app. cbn [map]. rewrite last_last. rewrite Nat.add_0_l, S_INR. rewrite S_INR in N1. replace (PI * INR n / (INR n + 1 - 1)) with PI by (field; lra). rewrite cos_PI. field.
  - apply len_map_seq.
  - intros x Hx. unfold points_SS in Hx. apply in_map_iff in Hx. destruct Hx as (j & <- & _). assert (C := COS_bound (PI * INR j / (INR n - 1))). lra.
Qed.
(** *** and for different points no other weights do it (the equations are not singular) *)
Fixpoint with_roots (l : list R) : list R := match l with [] => [1] | r :: t => let cs := with_roots t in map (fun p => fst p + snd p) (combine (0 :: cs) (map (fun c => - r * c) cs ++ [0])) end.
Lemma with_roots_length l : length (with_roots l) = S (length l).
Proof. induction l as [|r t IH]; [reflexivity|]. cbn [with_roots length]. rewrite map_length, combine_length, app_length, map_length. cbn [length]. lia. Qed.
Lemma poly_add u : forall v x, length u = length v -> poly (map (fun p => fst p + snd p) (combine u v)) x = poly u x + poly v x.
Proof. induction u as [|a u IH]; intros [|b v] x H; try discriminate; cbn; [ring|]. rewrite IH by (cbn in H; lia). ring. Qed.
Lemma poly_sc c u x : poly (map (fun a => c * a) u ++ [0]) x = c * poly u x.
Proof. induction u as [|a u IH]; cbn; [ring|]. rewrite IH. ring. Qed.
Lemma with_roots_value l x : poly (with_roots l) x = fold_right (fun r a => (x - r) * a) 1 l.
Proof.
  induction l as [|r t IH]; [cbn; ring|]. cbn [with_roots fold_right]. rewrite poly_add by (cbn [length]; rewrite app_length, map_length; cbn; lia). rewrite poly_sc. cbn [poly]. rewrite IH. ring.
Qed.
Lemma prod_zero l x : In x l -> fold_right (fun r a => (x - r) * a) 1 l = 0.
Proof. induction l as [|r t IH]; intros H; [destruct H|]. cbn [fold_right]. destruct H as [->|H]; [ring|]. rewrite IH by auto. ring. Qed.
Lemma prod_nz l x : ~ In x l -> fold_right (fun r a => (x - r) * a) 1 l <> 0.
Proof.
  induction l as [|r t IH]; intros H; [cbn; lra|]. cbn [fold_right]. intros X. apply Rmult_integral in X. destruct X as [X|X]; [apply H; left; lra|]. apply IH; auto. intros Y. apply H. right. auto.
Qed.
Theorem C146_independent xj y : NoDup xj -> length y = length xj -> (forall k, (k < length xj)%nat -> quadr y xj (fun x => x ^ k) = 0) -> y = repeat 0 (length xj).
Proof.
  intros ND HL H. assert (P : forall cs, (length cs <= length xj)%nat -> quadr y xj (poly cs) = 0).
  { intros cs Hc. assert (Q := quadr_poly y xj cs 0). rewrite (quadr_ext y xj _ (poly cs)) in Q by (intros; cbn; ring). rewrite Q. rewrite (total_ext _ (fun _ => 0)); [|intros k Hk; cbn [Nat.add]; rewrite H by lia; ring].
    clear. induction (length cs) as [|n IH]; [reflexivity|]. rewrite total_S, IH. ring. }
  apply (nth_ext _ _ 0 0); [rewrite repeat_length; auto|]. intros j Hj. rewrite nth_repeat. rewrite HL in Hj.
  destruct (nth_split xj 0 Hj) as (l1 & l2 & EX & EL). set (x := nth j xj 0) in *. assert (NX : ~ In x (l1 ++ l2)) by (rewrite EX in ND; apply NoDup_remove_2 in ND; exact ND).
  specialize (P (with_roots (l1 ++ l2))). rewrite with_roots_length in P. assert (LX : length xj = S (length (l1 ++ l2))) by (rewrite EX, !app_length; cbn; lia). specialize (P ltac:(lia)).
  rewrite (quadr_ext y xj _ (fun z => fold_right (fun r a => (z - r) * a) 1 (l1 ++ l2))) in P by (intros; apply with_roots_value).
  assert (Y : exists y1 y2 c, y = y1 ++ c :: y2 /\ length y1 = length l1 /\ nth j y 0 = c).
  { destruct (nth_split y 0 (ltac:(lia) : (j < length y)%nat)) as (y1 & y2 & EY & EYL). exists y1, y2, (nth j y 0). split; auto. split; auto. lia. }
  destruct Y as (y1 & y2 & c & EY & L1 & Ec). rewrite Ec. unfold quadr in P. rewrite EX, EY in P.
  assert (CB : combine (y1 ++ c :: y2) (l1 ++ x :: l2) = combine y1 l1 ++ (c, x) :: combine y2 l2). { clear - L1. revert l1 L1. induction y1 as [|u y1 IH]; intros [|z l1] L1; try discriminate; [reflexivity|]. cbn [app combine]. rewrite IH by (cbn in L1; lia). reflexivity. }
  rewrite CB, map_app, sumR_app in P. cbn [map fst snd] in P. change (sumR (?a :: ?l)) with (a + sumR l) in P.
  assert (Z : forall (u v : list R), (forall z, In z v -> In z (l1 ++ l2)) -> sumR (map (fun p => fst p * fold_right (fun r a => (snd p - r) * a) 1 (l1 ++ l2)) (combine u v)) = 0).
  { intros u v. revert u. induction v as [|z v IH]; intros [|w u] Hz; try reflexivity. cbn [combine map fst snd]. change (sumR (?a :: ?l)) with (a + sumR l). rewrite IH by (intros; apply Hz; right; auto). rewrite prod_zero by (apply Hz; left; auto). ring. }
  rewrite !Z in P by (intros; apply in_app_iff; auto). assert (P' : c * fold_right (fun r a => (x - r) * a) 1 (l1 ++ l2) = 0) by lra. apply Rmult_integral in P'. destruct P' as [P'|P']; auto. exfalso. apply (prod_nz _ _ NX). exact P'.
Qed.
End S.
