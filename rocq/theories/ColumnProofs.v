(** * Block matrices of the program for stone columns *)
From Coq Require Import Reals List Arith ZArith Lia Lra Bool Sorted.
From Coquelicot Require Import Coquelicot.
From Verif Require Import Base PiecewiseModel LayersModel SpecPiecewise SpecPiecewiseApi PolyLineModel SpecPolyLine PolyLineProofs7 SpectralModel SpecSpectral
  WrapModel SpecWrap PropsWrap LoadModel LoadTrigModel SpecLoad SpecSpeccon SpecconModel SpecconProofs SpecconProofs2 SpecconProofs3 SpecconProofs4 SpecconProofs5 SpecGalerkin SpecconProofs6 SpecconProofs7 SpecconProofs8 SpecconProofs9
  WellModel SpecWell WellProofs WellProofs2 WellProofs3 ColumnModel SpecColumn.
Import ListNotations.
Open Scope R_scope.
Local Notation entry := SpecSpectral.entry.
Local Notation RI f := (RInt f 0 1).

Lemma Sg_app a b f : Sg (a + b) f = Sg a f + Sg b (fun k => f (a + k)%nat).
Proof.
  revert f. induction a as [|a IH]; intros f; [cbn [Nat.add]; change (Sg 0 f) with 0; rewrite Rplus_0_l; reflexivity|].
  cbn [Nat.add]. rewrite !Sg_S, IH. cbn [Nat.add]. ring.
Qed.
Lemma Sg3 n f : Sg (3 * n) f = Sg n (fun k => f (0 * n + k)%nat) + Sg n (fun k => f (1 * n + k)%nat) + Sg n (fun k => f (2 * n + k)%nat).
Proof.
  replace (3 * n)%nat with (n + (n + n))%nat by lia. rewrite !Sg_app. rewrite Rplus_assoc. cbn [Nat.mul Nat.add]. rewrite Nat.add_0_r. f_equal. f_equal. apply Sg_ext; intros; f_equal; lia.
Qed.
Lemma split_index n r i : (i < n)%nat -> ((r * n + i) / n = r /\ (r * n + i) mod n = i)%nat.
Proof.
  intros H. split; [rewrite Nat.div_add_l by lia; rewrite Nat.div_small; lia|rewrite Nat.add_comm, Nat.mod_add by lia; apply Nat.mod_small; lia].
Qed.
Lemma cell_bmat3 n bl r c i j : (r < 3)%nat -> (c < 3)%nat -> (i < n)%nat -> (j < n)%nat ->
  cell (bmat3 n bl) (r * n + i) (c * n + j) = cell (nth c (nth r bl []) []) i j.
Proof.
  intros Hr Hc Hi Hj. unfold bmat3. rewrite cell_table by nia. destruct (split_index n r i Hi) as (-> & ->). destruct (split_index n c j Hj) as (-> & ->). reflexivity.
Qed.
Lemma cell_diag n x i j : (i < n)%nat -> (j < n)%nat -> cell (diag n x) i j = if Nat.eqb i j then x else 0.
Proof. intros. unfold diag. apply cell_table; auto. Qed.
Lemma Sg_diag n x i f : (i < n)%nat -> Sg n (fun j => cell (diag n x) i j * f j) = x * f i.
Proof.
  intros Hi. rewrite (Sg_ext n _ (fun j => x * ((if Nat.eqb i j then 1 else 0) * f j))).
  - rewrite Sg_scal, Sg_pick; auto.
  - intros j Hj. rewrite cell_diag by auto. destruct (Nat.eqb i j); ring.
Qed.
Lemma cell_block n A r c i j : (i < n)%nat -> (j < n)%nat -> cell (block n A r c) i j = cell A (r * n + i) (c * n + j).
Proof. intros. unfold block. rewrite cell_table; auto. Qed.

(** ** Elimination of the pressures in soil, column and interface *)
Section Elimination.
Variables (n : nat) (al : R) (sv sh cv ch bet : list (list R)).
Let A := make_Ibet n al sv sh cv ch.
Hypothesis HN : forall i j, (i < 3 * n)%nat -> (j < 3 * n)%nat -> Sg (3 * n) (fun k => cell A i k * cell bet k j) = if Nat.eqb i j then 1 else 0.
Definition response (r : nat) (u g : nat -> R) (j : nat) : R :=
  Sg n (fun k => cell (block n bet r 0) j k * u k) + Sg n (fun k => cell (drive_block n al bet r) j k * g k).
Let y (u g : nat -> R) (k : nat) : R := if (k <? n)%nat then u k else if (k <? 2 * n)%nat then g (k - n)%nat else al * g (k - 2 * n)%nat.
Lemma response_y r u g j : (j < n)%nat -> Sg (3 * n) (fun k => cell bet (r * n + j) k * y u g k) = response r u g j.
Proof using.
  intros Hj. rewrite Sg3. unfold response.
  rewrite (Sg_ext n (fun k => cell bet (r * n + j) (0 * n + k) * y u g (0 * n + k)) (fun k => cell (block n bet r 0) j k * u k)).
  2:{ intros k Hk. rewrite cell_block by auto. f_equal. unfold y. replace (0 * n + k <? n)%nat with true by (symmetry; apply Nat.ltb_lt; lia). f_equal. }
  rewrite (Sg_ext n (fun k => cell bet (r * n + j) (1 * n + k) * y u g (1 * n + k)) (fun k => cell (block n bet r 1) j k * g k)).
  2:{ intros k Hk. rewrite cell_block by auto. f_equal. unfold y. replace (1 * n + k <? n)%nat with false by (symmetry; apply Nat.ltb_ge; lia).
      replace (1 * n + k <? 2 * n)%nat with true by (symmetry; apply Nat.ltb_lt; lia). f_equal. lia. }
  rewrite (Sg_ext n (fun k => cell bet (r * n + j) (2 * n + k) * y u g (2 * n + k)) (fun k => al * cell (block n bet r 2) j k * g k)).
  2:{ intros k Hk. rewrite (cell_block n bet r 2) by auto. unfold y. replace (2 * n + k <? n)%nat with false by (symmetry; apply Nat.ltb_ge; lia).
      replace (2 * n + k <? 2 * n)%nat with false by (symmetry; apply Nat.ltb_ge; lia). replace (2 * n + k - 2 * n)%nat with k by lia. ring. }
  rewrite Rplus_assoc, <- Sg_plus. f_equal. apply Sg_ext. intros k Hk. unfold drive_block. rewrite cell_table by auto. ring.
Qed.
Lemma row r u g i : (r < 3)%nat -> (i < n)%nat ->
  Sg n (fun j => cell A (r * n + i) (0 * n + j) * response 0 u g j) + Sg n (fun j => cell A (r * n + i) (1 * n + j) * response 1 u g j) +
  Sg n (fun j => cell A (r * n + i) (2 * n + j) * response 2 u g j) = y u g (r * n + i).
Proof using HN.
  intros Hr Hi. rewrite <- (solve_drain (3 * n) (cell bet) (cell A) HN (y u g) (r * n + i)%nat) by nia. rewrite Sg3.
  f_equal; [f_equal|]; apply Sg_ext; intros j Hj; rewrite response_y by auto; reflexivity.
Qed.
Lemma mixture u g i : (i < n)%nat -> (1 - al) * response 0 u g i + al * response 1 u g i = u i.
Proof using HN.
  intros Hi. pose proof (row 0 u g i ltac:(lia) Hi) as E. unfold A, make_Ibet in E.
  rewrite (Sg_ext n (fun j => _ * response 0 u g j) (fun j => cell (diag n (1 - al)) i j * response 0 u g j)) in E by (intros j Hj; rewrite cell_bmat3 by (auto; lia); reflexivity).
  rewrite (Sg_ext n (fun j => _ * response 1 u g j) (fun j => cell (diag n al) i j * response 1 u g j)) in E by (intros j Hj; rewrite cell_bmat3 by (auto; lia); reflexivity).
  rewrite (Sg_ext n (fun j => _ * response 2 u g j) (fun j => 0)) in E by (intros j Hj; rewrite cell_bmat3 by (auto; lia); cbn [nth]; unfold zero_table; rewrite cell_table by auto; ring).
  rewrite !Sg_diag, Sg_zero in E by auto. unfold y in E. replace (0 * n + i <? n)%nat with true in E by (symmetry; apply Nat.ltb_lt; lia). cbn [Nat.mul Nat.add] in E. lra.
Qed.
Let ap (M : list (list R)) (x : nat -> R) (i : nat) : R := Sg n (fun j => cell M i j * x j).
Lemma equal_loss u g i : (i < n)%nat ->
  (ap sh (response 0 u g) i - ap sv (response 0 u g) i) - (ap ch (response 1 u g) i - ap cv (response 1 u g) i) + (ap ch (response 2 u g) i - ap sh (response 2 u g) i) = g i.
Proof using HN.
  intros Hi. pose proof (row 1 u g i ltac:(lia) Hi) as E. unfold A, make_Ibet in E.
  rewrite (Sg_ext n (fun j => _ * response 0 u g j) (fun j => cell sh i j * response 0 u g j - cell sv i j * response 0 u g j)) in E by (intros j Hj; rewrite cell_bmat3 by (auto; lia); cbn [nth]; rewrite cell_table by auto; ring).
  rewrite (Sg_ext n (fun j => _ * response 1 u g j) (fun j => cell cv i j * response 1 u g j - cell ch i j * response 1 u g j)) in E by (intros j Hj; rewrite cell_bmat3 by (auto; lia); cbn [nth]; rewrite !cell_table by auto; ring).
  rewrite (Sg_ext n (fun j => _ * response 2 u g j) (fun j => cell ch i j * response 2 u g j - cell sh i j * response 2 u g j)) in E by (intros j Hj; rewrite cell_bmat3 by (auto; lia); cbn [nth]; rewrite cell_table by auto; ring).
  rewrite !Sg_minus in E. unfold y in E. replace (1 * n + i <? n)%nat with false in E by (symmetry; apply Nat.ltb_ge; lia).
  replace (1 * n + i <? 2 * n)%nat with true in E by (symmetry; apply Nat.ltb_lt; lia). replace (1 * n + i - n)%nat with i in E by lia. unfold ap. lra.
Qed.
Lemma interface u g i : (i < n)%nat ->
  (ap sh (response 0 u g) i - al * ap sv (response 0 u g) i) + al * ap cv (response 1 u g) i - ap sh (response 2 u g) i = al * g i.
Proof using HN.
  intros Hi. pose proof (row 2 u g i ltac:(lia) Hi) as E. unfold A, make_Ibet in E.
  rewrite (Sg_ext n (fun j => _ * response 0 u g j) (fun j => cell sh i j * response 0 u g j - al * (cell sv i j * response 0 u g j))) in E by (intros j Hj; rewrite cell_bmat3 by (auto; lia); cbn [nth]; rewrite cell_table by auto; ring).
  rewrite (Sg_ext n (fun j => _ * response 1 u g j) (fun j => al * (cell cv i j * response 1 u g j))) in E by (intros j Hj; rewrite cell_bmat3 by (auto; lia); cbn [nth]; rewrite !cell_table by auto; ring).
  rewrite (Sg_ext n (fun j => _ * response 2 u g j) (fun j => (-1) * (cell sh i j * response 2 u g j))) in E by (intros j Hj; rewrite cell_bmat3 by (auto; lia); cbn [nth]; rewrite cell_table by auto; ring).
  rewrite !Sg_minus, !Sg_scal in E. unfold y in E. replace (2 * n + i <? n)%nat with false in E by (symmetry; apply Nat.ltb_ge; lia).
  replace (2 * n + i <? 2 * n)%nat with false in E by (symmetry; apply Nat.ltb_ge; lia). replace (2 * n + i - 2 * n)%nat with i in E by lia. unfold ap. lra.
Qed.
End Elimination.
