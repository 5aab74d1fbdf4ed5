(** The implementations agree; symmetry. *)
From Coq Require Import Reals List Arith ZArith Lia Lra.
From Verif Require Import Base PiecewiseModel
  IntegralsGen SpectralModel SpecSpectral SpectralProofs SpectralProofs2 SpectralProofs3 SpectralProofs4.
Import ListNotations.
Open Scope R_scope.

Lemma matrix_of_ext m slabs d1 d2 o1 o2 : eigenvalues m ->
  (forall s mi, mi <> 0 -> d1 s mi = d2 s mi) ->
  (forall s mi mj, mi <> 0 -> mi ^ 2 <> mj ^ 2 -> o1 s mi mj = o2 s mi mj) ->
  matrix_of m slabs d1 o1 = matrix_of m slabs d2 o2.
Proof.
  intros (Hn & Hd) H1 H2. unfold matrix_of, sym_matrix.
  apply map_ext_in. intros i Hi. apply in_seq in Hi. apply map_ext_in. intros j Hj. apply in_seq in Hj.
  assert (N : forall k, (k < length m)%nat -> nth k m 0 <> 0) by (intros; apply Hn, nth_In; auto).
  destruct (Nat.eqb_spec i j).
  - f_equal. apply map_ext. intros; apply H1, N; lia.
  - destruct (Nat.ltb i j); f_equal; apply map_ext; intros; apply H2; try (apply N; lia); apply Hd; lia.
Qed.
Lemma vector_of_ext m slabs f g : (forall x, In x m -> x <> 0) -> (forall s mi, mi <> 0 -> f s mi = g s mi) ->
  vector_of m slabs f = vector_of m slabs g.
Proof.
  intros Hn H. unfold vector_of. apply map_ext_in. intros mi Hmi. f_equal. apply map_ext. intros; apply H, Hn; auto.
Qed.
Lemma matrix_sym m slabs d o i j : (i < length m)%nat -> (j < length m)%nat ->
  entry (matrix_of m slabs d o) i j = entry (matrix_of m slabs d o) j i.
Proof.
  intros Hi Hj. unfold matrix_of. rewrite !entry_sym by auto. rewrite (Nat.eqb_sym j i).
  destruct (Nat.eqb_spec i j) as [->|H]; auto.
  destruct (Nat.ltb_spec i j); destruct (Nat.ltb_spec j i); auto; lia.
Qed.
Lemma matrix_shape m slabs d o : length (matrix_of m slabs d o) = length m /\
  forall row, In row (matrix_of m slabs d o) -> length row = length m.
Proof.
  unfold matrix_of, sym_matrix. rewrite map_length, seq_length. split; auto.
  intros row H. apply in_map_iff in H as (i & <- & _). rewrite map_length, seq_length. auto.
Qed.
Local Opaque matrix_of.

Lemma af_agree m slabs : eigenvalues m -> dim1sin_af_linear scalar m slabs = dim1sin_af_linear vectorized m slabs.
Proof.
  intros He. apply matrix_of_ext; auto; intros s mi; intros.
  - rewrite af_sd, af_vd by auto. reflexivity.
  - erewrite af_so, af_vo by (apply iQ_exists; auto). reflexivity.
Qed.
Lemma DaDf_agree m slabs : eigenvalues m -> dim1sin_D_aDf_linear scalar m slabs = dim1sin_D_aDf_linear vectorized m slabs.
Proof.
  intros He. apply matrix_of_ext; auto; intros s mi; intros.
  - rewrite DaDf_sd, DaDf_vd by auto. reflexivity.
  - erewrite DaDf_so, DaDf_vo by (apply iQ_exists; auto). reflexivity.
Qed.
Lemma abf_agree m slabs : eigenvalues m -> dim1sin_abf_linear scalar m slabs = dim1sin_abf_linear vectorized m slabs.
Proof.
  intros He. apply matrix_of_ext; auto; intros s mi; intros.
  - rewrite abf_sd, abf_vd by auto. reflexivity.
  - erewrite abf_so, abf_vo by (apply iQ_exists; auto). reflexivity.
Qed.
Lemma DDabDDf_agree m slabs : eigenvalues m -> dim1sin_DD_abDDf_linear scalar m slabs = dim1sin_DD_abDDf_linear vectorized m slabs.
Proof.
  intros He. apply matrix_of_ext; auto; intros s mi; intros.
  - rewrite DDabDDf_sd, DDabDDf_vd by auto. reflexivity.
  - erewrite DDabDDf_so, DDabDDf_vo by (apply iQ_exists; auto). reflexivity.
Qed.
Lemma ab_agree m slabs : (forall x, In x m -> x <> 0) -> dim1sin_ab_linear scalar m slabs = dim1sin_ab_linear vectorized m slabs.
Proof. intros He. apply vector_of_ext; auto. intros. rewrite ab_s, ab_v by auto. reflexivity. Qed.
Lemma abc_agree m slabs : (forall x, In x m -> x <> 0) -> dim1sin_abc_linear scalar m slabs = dim1sin_abc_linear vectorized m slabs.
Proof. intros He. apply vector_of_ext; auto. intros. rewrite abc_s, abc_v by auto. reflexivity. Qed.
Lemma DaDb_agree m slabs : (forall x, In x m -> x <> 0) -> dim1sin_D_aDb_linear scalar m slabs = dim1sin_D_aDb_linear vectorized m slabs.
Proof.
  intros He. unfold dim1sin_D_aDb_linear. destruct (get slabs 0); cbn [bind]; auto. destruct (get_last slabs); cbn [bind]; auto.
  rewrite (vector_of_ext m slabs _ (fun s mi => DaDb_vectorized (a_slope s) (b_slope s) (at_ s) (zt s) (zb s) mi)); auto.
  intros. rewrite DaDb_scalar_eq, DaDb_vectorized_eq by auto. reflexivity.
Qed.

Lemma linear_in_exists (top bot : slab -> R) z0 z1 slabs : stack z0 z1 slabs -> exists a, linear_in top bot slabs a.
Proof.
  induction 1 as [z|s z1 l Hs Hst (a & Ha)].
  - exists (fun _ => 0). intros s z' [].
  - exists (fun z => if Rlt_dec z (zb s) then top s + (bot s - top s) * ((z - zt s) / (zb s - zt s)) else a z).
    intros s' z Hin Hz. destruct Hin as [->|Hin].
    + destruct (Rlt_dec z (zb s')); [reflexivity|lra].
    + assert (zb s <= zt s').
      { clear - Hst Hin. induction Hst; cbn in Hin; [tauto|]. destruct Hin as [->|Hin]; [lra|]. apply Rle_trans with (zb s0); [lra|]. auto. }
      destruct (Rlt_dec z (zb s)); [lra|]. apply Ha; auto.
Qed.
