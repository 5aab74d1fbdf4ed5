From Coq Require Import Reals List Arith Lia Lra.
From Coquelicot Require Import Coquelicot.
From Verif Require Import Base PiecewiseModel
  SpecPiecewise SpecPiecewiseApi PiecewiseProofs LayersProofs IntegralsGen SpectralModel SpecSpectral SpectralProofs SpectralProofs2.
Import ListNotations.
Open Scope R_scope.

Lemma stack_RInt (f : R -> R) (G : slab -> R) slabs z0 z1 : stack z0 z1 slabs ->
  (forall s, In s slabs -> zt s < zb s -> is_RInt f (zt s) (zb s) (G s)) ->
  is_RInt f z0 z1 (sumn (map G slabs)).
Proof.
  induction 1 as [z|s z1 l Hs Hst IH]; intros H; cbn [map sumn].
  - apply (is_RInt_point f).
  - apply (is_RInt_Chasles f _ (zb s)); [apply H; [left|]; auto|]. apply IH. intros; apply H; [right|]; auto.
Qed.

Lemma map_seq_nth {T} (f : nat -> T) n i d : (i < n)%nat -> nth i (map f (seq 0 n)) d = f i.
Proof.
  intros H. rewrite (nth_indep _ d (f 0%nat)) by (rewrite map_length, seq_length; auto).
  rewrite map_nth, seq_nth by auto. reflexivity.
Qed.
Lemma entry_sym n d o i j : (i < n)%nat -> (j < n)%nat ->
  entry (sym_matrix n d o) i j = if Nat.eqb i j then d i else if Nat.ltb i j then o i j else o j i.
Proof. intros Hi Hj. unfold entry, sym_matrix. rewrite map_seq_nth by auto. rewrite map_seq_nth by auto. reflexivity. Qed.

Lemma matrix_RInt (fam : R -> R -> R -> R) m slabs diag off z0 z1 i j :
  stack z0 z1 slabs -> (i < length m)%nat -> (j < length m)%nat ->
  nth i m 0 <> 0 -> (i <> j -> nth i m 0 ^ 2 <> nth j m 0 ^ 2) ->
  (forall mi mj z, fam mi mj z = fam mj mi z) ->
  (forall s mi, In s slabs -> zt s < zb s -> mi <> 0 -> is_RInt (fam mi mi) (zt s) (zb s) (diag s mi)) ->
  (forall s mi mj, In s slabs -> zt s < zb s -> mi ^ 2 <> mj ^ 2 -> is_RInt (fam mi mj) (zt s) (zb s) (off s mi mj)) ->
  is_RInt (fam (nth i m 0) (nth j m 0)) z0 z1 (entry (matrix_of m slabs diag off) i j).
Proof.
  intros Hst Hi Hj Hmi Hne Hsym Hd Ho. unfold matrix_of. rewrite entry_sym by auto.
  destruct (Nat.eqb_spec i j) as [->|Hij].
  - apply stack_RInt; auto.
  - specialize (Hne Hij). destruct (Nat.ltb i j).
    + apply stack_RInt; auto.
    + apply is_RInt_ext with (f := fam (nth j m 0) (nth i m 0)); [intros; apply Hsym|].
      apply stack_RInt; auto.
Qed.

(** Linear profile inside a slab. *)
Lemma profile_eq (top bot : slab -> R) slabs a s z : linear_in top bot slabs a -> In s slabs -> zt s < z < zb s ->
  a z = (top s - (bot s - top s) / (zb s - zt s) * zt s) + (bot s - top s) / (zb s - zt s) * z.
Proof. intros H Hin Hz. rewrite (H s z Hin Hz). field. lra. Qed.

Lemma iQ_exists mi mj : mi ^ 2 <> mj ^ 2 -> (/ (mi ^ 2 - mj ^ 2) ^ 3) * (mi ^ 2 - mj ^ 2) ^ 3 = 1.
Proof. intros H. apply Rinv_l. apply pow_nonzero. lra. Qed.

Ltac ext_slab Hs := let z := fresh "z" in let Hz := fresh "Hz" in
  intros z; rewrite Rmin_left, Rmax_right by lra; intros Hz.

(* The closed forms are only used through the equalities of SpectralProofs2. *)
Local Opaque af_scalar_diag af_scalar_off af_vectorized_diag af_vectorized_off DaDf_scalar_diag DaDf_scalar_off DaDf_vectorized_diag DaDf_vectorized_off abf_scalar_diag abf_scalar_off abf_vectorized_diag abf_vectorized_off DDabDDf_scalar_diag DDabDDf_scalar_off DDabDDf_vectorized_diag DDabDDf_vectorized_off ab_scalar ab_vectorized abc_scalar abc_vectorized DaDb_scalar DaDb_vectorized a_between_both a_between_z1_only a_between_between a_between_z2_only.

Section Entries.
Variables (slabs : list slab) (z0 z1 : R) (m : list R) (i j : nat) (a b c : R -> R).
Hypothesis Hst : stack z0 z1 slabs.
Hypothesis Hi : (i < length m)%nat.
Hypothesis Ha : linear_in at_ ab slabs a.
Hypothesis Hmi : nth i m 0 <> 0.

Lemma af_diag_RInt s mi p : In s slabs -> zt s < zb s -> mi <> 0 ->
  p = F_s2 (at_ s - a_slope s * zt s) (a_slope s) 0 mi (zb s) - F_s2 (at_ s - a_slope s * zt s) (a_slope s) 0 mi (zt s) ->
  is_RInt (fun z => a z * sin (mi * z) * sin (mi * z)) (zt s) (zb s) p.
Proof.
  intros Hin Hs Hm ->.
  eapply is_RInt_ext; [|apply RInt_s2; auto].
  ext_slab Hs. rewrite (profile_eq _ _ _ _ s z Ha Hin Hz). unfold a_slope.
  match goal with |- ?a = ?b => change (@eq R a b) end. ring.
Qed.
Lemma af_off_RInt s mi mj p : In s slabs -> zt s < zb s -> mi ^ 2 <> mj ^ 2 ->
  p = F_ss (at_ s - a_slope s * zt s) (a_slope s) 0 (/ (mi ^ 2 - mj ^ 2) ^ 3) mi mj (zb s) -
      F_ss (at_ s - a_slope s * zt s) (a_slope s) 0 (/ (mi ^ 2 - mj ^ 2) ^ 3) mi mj (zt s) ->
  is_RInt (fun z => a z * sin (mi * z) * sin (mj * z)) (zt s) (zb s) p.
Proof.
  intros Hin Hs Hm ->.
  eapply is_RInt_ext; [|apply RInt_ss, iQ_exists; auto].
  ext_slab Hs. rewrite (profile_eq _ _ _ _ s z Ha Hin Hz). unfold a_slope.
  match goal with |- ?a = ?b => change (@eq R a b) end. ring.
Qed.

Hypothesis Hj : (j < length m)%nat.
Hypothesis Hmij : i <> j -> nth i m 0 ^ 2 <> nth j m 0 ^ 2.

Lemma af_entry im :
  is_RInt (fun z => a z * sin (nth i m 0 * z) * sin (nth j m 0 * z)) z0 z1
          (entry (dim1sin_af_linear im m slabs) i j).
Proof.
  unfold dim1sin_af_linear; destruct im;
    (apply (matrix_RInt (fun mi mj z => a z * sin (mi * z) * sin (mj * z))); auto;
     [intros; ring| | ]); intros.
  1,3,5: apply af_diag_RInt; auto; first [apply af_sd|apply af_vd]; auto.
  all: apply af_off_RInt; auto; first [apply af_so|apply af_vo]; apply iQ_exists; auto.
Qed.

Lemma DaDf_diag_RInt s mi p : In s slabs -> zt s < zb s -> mi <> 0 ->
  p = - mi ^ 2 * (F_c2 (at_ s - a_slope s * zt s) (a_slope s) 0 mi (zb s) - F_c2 (at_ s - a_slope s * zt s) (a_slope s) 0 mi (zt s)) ->
  is_RInt (fun z => - (a z * (mi * cos (mi * z)) * (mi * cos (mi * z)))) (zt s) (zb s) p.
Proof.
  intros Hin Hs Hm ->.
  eapply is_RInt_ext; [|apply (is_RInt_scal (V := R_NormedModule)), RInt_c2; auto].
  ext_slab Hs. rewrite (profile_eq _ _ _ _ s z Ha Hin Hz). unfold a_slope.
  match goal with |- ?a = ?b => change (@eq R a b) end. unfold scal; cbn; unfold mult; cbn. ring.
Qed.
Lemma DaDf_off_RInt s mi mj p : In s slabs -> zt s < zb s -> mi ^ 2 <> mj ^ 2 ->
  p = - (mi * mj) * (F_cc (at_ s - a_slope s * zt s) (a_slope s) 0 (/ (mi ^ 2 - mj ^ 2) ^ 3) mi mj (zb s) -
      F_cc (at_ s - a_slope s * zt s) (a_slope s) 0 (/ (mi ^ 2 - mj ^ 2) ^ 3) mi mj (zt s)) ->
  is_RInt (fun z => - (a z * (mi * cos (mi * z)) * (mj * cos (mj * z)))) (zt s) (zb s) p.
Proof.
  intros Hin Hs Hm ->.
  eapply is_RInt_ext; [|apply (is_RInt_scal (V := R_NormedModule)), RInt_cc, iQ_exists; auto].
  ext_slab Hs. rewrite (profile_eq _ _ _ _ s z Ha Hin Hz). unfold a_slope.
  match goal with |- ?a = ?b => change (@eq R a b) end. unfold scal; cbn; unfold mult; cbn. ring.
Qed.
Lemma DaDf_entry im :
  is_RInt (fun z => - (a z * (nth i m 0 * cos (nth i m 0 * z)) * (nth j m 0 * cos (nth j m 0 * z)))) z0 z1
          (entry (dim1sin_D_aDf_linear im m slabs) i j).
Proof.
  unfold dim1sin_D_aDf_linear; destruct im;
    (apply (matrix_RInt (fun mi mj z => - (a z * (mi * cos (mi * z)) * (mj * cos (mj * z))))); auto;
     [intros; ring| | ]); intros.
  1,3,5: apply DaDf_diag_RInt; auto; first [apply DaDf_sd|apply DaDf_vd]; auto.
  all: apply DaDf_off_RInt; auto; first [apply DaDf_so|apply DaDf_vo]; apply iQ_exists; auto.
Qed.

Hypothesis Hb : linear_in bt bb slabs b.
Lemma abf_diag_RInt k s mi p : In s slabs -> zt s < zb s -> mi <> 0 ->
  p = k * (F_s2 ((at_ s - a_slope s * zt s) * (bt s - b_slope s * zt s))
          ((at_ s - a_slope s * zt s) * b_slope s + (bt s - b_slope s * zt s) * a_slope s)
          (a_slope s * b_slope s) mi (zb s) -
      F_s2 ((at_ s - a_slope s * zt s) * (bt s - b_slope s * zt s))
          ((at_ s - a_slope s * zt s) * b_slope s + (bt s - b_slope s * zt s) * a_slope s)
          (a_slope s * b_slope s) mi (zt s)) ->
  is_RInt (fun z => k * (a z * b z * sin (mi * z) * sin (mi * z))) (zt s) (zb s) p.
Proof.
  intros Hin Hs Hm ->.
  eapply is_RInt_ext; [|apply (is_RInt_scal (V := R_NormedModule)), RInt_s2; auto].
  ext_slab Hs. rewrite (profile_eq _ _ _ _ s z Ha Hin Hz), (profile_eq _ _ _ _ s z Hb Hin Hz). unfold a_slope, b_slope.
  match goal with |- ?a = ?b => change (@eq R a b) end. unfold scal; cbn; unfold mult; cbn. ring.
Qed.
Lemma abf_off_RInt k s mi mj p : In s slabs -> zt s < zb s -> mi ^ 2 <> mj ^ 2 ->
  p = k * (F_ss ((at_ s - a_slope s * zt s) * (bt s - b_slope s * zt s))
          ((at_ s - a_slope s * zt s) * b_slope s + (bt s - b_slope s * zt s) * a_slope s)
          (a_slope s * b_slope s) (/ (mi ^ 2 - mj ^ 2) ^ 3) mi mj (zb s) -
      F_ss ((at_ s - a_slope s * zt s) * (bt s - b_slope s * zt s))
          ((at_ s - a_slope s * zt s) * b_slope s + (bt s - b_slope s * zt s) * a_slope s)
          (a_slope s * b_slope s) (/ (mi ^ 2 - mj ^ 2) ^ 3) mi mj (zt s)) ->
  is_RInt (fun z => k * (a z * b z * sin (mi * z) * sin (mj * z))) (zt s) (zb s) p.
Proof.
  intros Hin Hs Hm ->.
  eapply is_RInt_ext; [|apply (is_RInt_scal (V := R_NormedModule)), RInt_ss, iQ_exists; auto].
  ext_slab Hs. rewrite (profile_eq _ _ _ _ s z Ha Hin Hz), (profile_eq _ _ _ _ s z Hb Hin Hz). unfold a_slope, b_slope.
  match goal with |- ?a = ?b => change (@eq R a b) end. unfold scal; cbn; unfold mult; cbn. ring.
Qed.
Lemma abf_entry im :
  is_RInt (fun z => a z * b z * sin (nth i m 0 * z) * sin (nth j m 0 * z)) z0 z1
          (entry (dim1sin_abf_linear im m slabs) i j).
Proof.
  unfold dim1sin_abf_linear; destruct im;
    (apply (matrix_RInt (fun mi mj z => a z * b z * sin (mi * z) * sin (mj * z))); auto;
     [intros; ring| | ]); intros.
  all: eapply is_RInt_ext; [intros; apply Rmult_1_l|].
  1,3,5: apply (abf_diag_RInt 1); auto; rewrite Rmult_1_l; first [apply abf_sd|apply abf_vd]; auto.
  all: apply (abf_off_RInt 1); auto; rewrite Rmult_1_l; first [apply abf_so|apply abf_vo]; apply iQ_exists; auto.
Qed.
Lemma DDabDDf_entry im :
  is_RInt (fun z => a z * b z * (- nth i m 0 ^ 2 * sin (nth i m 0 * z)) * (- nth j m 0 ^ 2 * sin (nth j m 0 * z))) z0 z1
          (entry (dim1sin_DD_abDDf_linear im m slabs) i j).
Proof.
  unfold dim1sin_DD_abDDf_linear; destruct im;
    (apply (matrix_RInt (fun mi mj z => a z * b z * (- mi ^ 2 * sin (mi * z)) * (- mj ^ 2 * sin (mj * z)))); auto;
     [intros; ring| | ]); intros.
  1,3,5: apply (is_RInt_ext (fun z => mi ^ 4 * (a z * b z * sin (mi * z) * sin (mi * z)))); [intros; cbn; ring|];
     apply abf_diag_RInt; auto; first [apply DDabDDf_sd|apply DDabDDf_vd]; auto.
  all: apply (is_RInt_ext (fun z => (mi ^ 2 * mj ^ 2) * (a z * b z * sin (mi * z) * sin (mj * z)))); [intros; cbn; ring|];
     apply abf_off_RInt; auto; first [apply DDabDDf_so|apply DDabDDf_vo]; apply iQ_exists; auto.
Qed.

Lemma vector_coord f : coord (vector_of m slabs f) i = sumn (map (fun s => f s (nth i m 0)) slabs).
Proof.
  unfold coord, vector_of. rewrite (nth_indep _ 0 ((fun mi => sumn (map (fun s => f s mi) slabs)) 0)) by (rewrite map_length; auto).
  rewrite (map_nth (fun mi => sumn (map (fun s => f s mi) slabs))). reflexivity.
Qed.

Lemma ab_RInt s mi p : In s slabs -> zt s < zb s -> mi <> 0 ->
  p = PS (a_slope s) (b_slope s) (at_ s) (bt s) (zt s) mi (zb s) - PS (a_slope s) (b_slope s) (at_ s) (bt s) (zt s) mi (zt s) ->
  is_RInt (fun z => a z * b z * sin (mi * z)) (zt s) (zb s) p.
Proof.
  intros Hin Hs Hm ->. unfold PS.
  eapply is_RInt_ext; [|apply RInt_sin; auto].
  ext_slab Hs. rewrite (profile_eq _ _ _ _ s z Ha Hin Hz), (profile_eq _ _ _ _ s z Hb Hin Hz). unfold P, a_slope, b_slope.
  match goal with |- ?a = ?b => change (@eq R a b) end. ring.
Qed.
Lemma ab_coord im :
  is_RInt (fun z => a z * b z * sin (nth i m 0 * z)) z0 z1 (coord (dim1sin_ab_linear im m slabs) i).
Proof.
  unfold dim1sin_ab_linear; destruct im; rewrite vector_coord; apply stack_RInt; auto; intros;
    apply ab_RInt; auto; first [apply ab_s|apply ab_v]; auto.
Qed.
Hypothesis Hc : linear_in ct cb slabs c.
Lemma abc_coord im :
  is_RInt (fun z => a z * b z * c z * sin (nth i m 0 * z)) z0 z1 (coord (dim1sin_abc_linear im m slabs) i).
Proof.
  unfold dim1sin_abc_linear; destruct im; rewrite vector_coord; apply stack_RInt; auto; intros s Hin Hs;
    [rewrite abc_s by auto|rewrite abc_v by auto|rewrite abc_v by auto];
    (eapply is_RInt_ext; [|apply RInt_sin; auto]);
    ext_slab Hs; rewrite (profile_eq _ _ _ _ s z Ha Hin Hz), (profile_eq _ _ _ _ s z Hb Hin Hz), (profile_eq _ _ _ _ s z Hc Hin Hz);
    unfold P, a_slope, b_slope, c_slope;
    match goal with |- ?a = ?b => change (@eq R a b) end; ring.
Qed.
End Entries.
