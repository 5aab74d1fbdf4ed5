(** Strong form of dim1sin_D_aDf_linear; the eigenvalues; orthogonality. *)
From Coq Require Import Reals List Arith ZArith Lia Lra.
From Coquelicot Require Import Coquelicot.
From Verif Require Import Base PiecewiseModel
  IntegralsGen SpectralModel SpecSpectral SpectralProofs SpectralProofs3 SpectralProofs4.
Import ListNotations.
Open Scope R_scope.

Lemma joined_telescope_gen (w : R -> R) slabs z0 z1 f l : stack z0 z1 slabs -> joined slabs ->
  get slabs 0 = Ok f -> get_last slabs = Ok l ->
  sumn (map (fun s => ab s * w (zb s) - at_ s * w (zt s)) slabs) = ab l * w z1 - at_ f * w z0.
Proof.
  intros H. revert f. induction H as [z|s z1 r Hs Hst IH]; intros f Hj Hf Hl; [discriminate|].
  assert (s = f) by (unfold get in Hf; cbn in Hf; congruence). subst f.
  destruct r as [|s' r].
  - inversion Hst; subst. cbn in Hl. assert (s = l) by congruence. subst. cbn [map sumn nadd n0 NumR]. ring.
  - destruct Hj as (E & Hj).
    assert (Hl' : get_last (s' :: r) = Ok l).
    { unfold get_last in *. cbn in *. destruct (rev r); cbn in *; exact Hl. }
    specialize (IH s' Hj eq_refl Hl'). cbn [map sumn] in *. rewrite IH. cbn [nadd NumR]. rewrite E. inversion Hst; subst. ring.
Qed.

Lemma DaDf_strong im m slabs z0 z1 a da i j : stack z0 z1 slabs -> slabs <> [] -> joined slabs ->
  linear_in at_ ab slabs a ->
  (forall s z, In s slabs -> zt s < z < zb s -> da z = (ab s - at_ s) / (zb s - zt s)) ->
  (i < length m)%nat -> (j < length m)%nat -> nth i m 0 <> 0 -> (i <> j -> nth i m 0 ^ 2 <> nth j m 0 ^ 2) ->
  sin (nth i m 0 * z0) * cos (nth j m 0 * z0) = 0 -> sin (nth i m 0 * z1) * cos (nth j m 0 * z1) = 0 ->
  is_RInt (fun z => (da z * (nth j m 0 * cos (nth j m 0 * z)) + a z * (- nth j m 0 ^ 2 * sin (nth j m 0 * z))) * sin (nth i m 0 * z))
    z0 z1 (entry (dim1sin_D_aDf_linear im m slabs) i j).
Proof.
  intros Hst Hne Hjn Ha Hda Hi Hj Hmi Hmij B0 B1.
  pose proof (DaDf_entry slabs z0 z1 m i j a Hst Hi Ha Hmi Hj Hmij im) as HE.
  set (mi := nth i m 0) in *. set (mj := nth j m 0) in *.
  set (w z := mj * cos (mj * z) * sin (mi * z)).
  destruct (stack_last _ _ _ Hst Hne) as (f & l & Hf & Hl & If & Il & Zf & Zl).
  assert (HS : is_RInt (fun z => (da z * (mj * cos (mj * z)) + a z * (- mj ^ 2 * sin (mj * z))) * sin (mi * z)
                 + a z * (mi * cos (mi * z)) * (mj * cos (mj * z))) z0 z1
               (sumn (map (fun s => ab s * w (zb s) - at_ s * w (zt s)) slabs))).
  { apply stack_RInt; auto. intros s Hin Hs.
    set (A z := (at_ s - a_slope s * zt s) + a_slope s * z).
    apply is_RInt_ext with (f := fun z => (a_slope s * (mj * cos (mj * z)) + A z * (- mj ^ 2 * sin (mj * z))) * sin (mi * z)
                 + A z * (mi * cos (mi * z)) * (mj * cos (mj * z))).
    - intros z. rewrite Rmin_left, Rmax_right by lra. intros Hz.
      rewrite (Hda s z Hin Hz), (profile_eq _ _ _ _ s z Ha Hin Hz). reflexivity.
    - eapply is_RInt_eq; [apply (RInt_by_antiderivative (fun z => A z * w z))|].
      + intros z. unfold A, w. auto_derive; auto. ring.
      + unfold A. cont.
      + unfold A, a_slope. cbv beta. match goal with |- ?a = ?b => change (@eq R a b) end. field. lra. }
  rewrite (joined_telescope_gen w slabs z0 z1 f l) in HS by auto.
  pose proof (is_RInt_plus _ _ _ _ _ _ HS HE) as HP.
  eapply is_RInt_eq; [eapply is_RInt_ext; [|exact HP]|].
  - intros z _. unfold plus; cbn [AbelianGroup.plus]. cbn. ring.
  - unfold plus; cbn. replace (w z1) with (mj * (sin (mi * z1) * cos (mj * z1))) by (unfold w; ring).
    replace (w z0) with (mj * (sin (mi * z0) * cos (mj * z0))) by (unfold w; ring).
    rewrite B0, B1. ring.
Qed.

(** ** Eigenvalues *)
Lemma sin_nat_PI i : sin (PI * INR i) = 0.
Proof.
  induction i; [cbn; rewrite Rmult_0_r; apply sin_0|].
  rewrite S_INR. replace (PI * (INR i + 1)) with (PI * INR i + PI) by ring. rewrite neg_sin, IHi. ring.
Qed.
Lemma cos_half_PI i : cos (PI * (INR i + / 2)) = 0.
Proof.
  induction i.
  - cbn. replace (PI * (0 + / 2)) with (PI / 2) by field. apply cos_PI2.
  - rewrite S_INR. replace (PI * (INR i + 1 + / 2)) with (PI * (INR i + / 2) + PI) by ring. rewrite neg_cos, IHi. ring.
Qed.
Lemma m_from_0 i : m_from_sin_mx i 0 = Ok (PI * INR (S i)).
Proof. unfold m_from_sin_mx. change (orb _ _) with true. cbv iota. apply f_equal. rewrite S_INR. field. Qed.
Lemma m_from_1 i : m_from_sin_mx i 1 = Ok (PI * (INR i + / 2)).
Proof. unfold m_from_sin_mx. change (orb _ _) with true. cbv iota. apply f_equal. field. Qed.

(** ** Orthogonality *)
Lemma ones_linear slabs z0 z1 : stack z0 z1 slabs -> (forall s, In s slabs -> at_ s = 1 /\ ab s = 1) ->
  linear_in at_ ab slabs (fun _ => 1).
Proof.
  intros Hst H s z Hin Hz. destruct (H s Hin) as (-> & ->). replace (1 - 1) with 0 by lra. rewrite Rmult_0_l. cbv beta. lra.
Qed.
Lemma orth_diag mi : mi <> 0 -> sin mi * cos mi = 0 -> is_RInt (fun z => 1 * sin (mi * z) * sin (mi * z)) 0 1 (/ 2).
Proof.
  intros Hm H0. eapply is_RInt_ext; [|refine (is_RInt_eq _ _ _ _ _ (RInt_s2 1 0 0 mi 0 1 Hm) _)].
  - intros z _. cbv beta. match goal with |- ?a = ?b => change (@eq R a b) end. ring.
  - unfold F_s2, G2. cbv zeta. rewrite (Rmult_0_r mi), (Rmult_1_r mi), sin_0, H0. match goal with |- ?a = ?b => change (@eq R a b) end. field. auto.
Qed.
Lemma orth_off mi mj : mi ^ 2 <> mj ^ 2 -> mj * sin mi * cos mj - mi * cos mi * sin mj = 0 ->
  is_RInt (fun z => 1 * sin (mi * z) * sin (mj * z)) 0 1 0.
Proof.
  intros Hm H0. eapply is_RInt_ext; [|refine (is_RInt_eq _ _ _ _ _ (RInt_ss 1 0 0 _ mi mj 0 1 (iQ_exists mi mj Hm)) _)].
  - intros z _. cbv beta. match goal with |- ?a = ?b => change (@eq R a b) end. ring.
  - unfold F_ss. cbv zeta. rewrite (Rmult_0_r mi), (Rmult_0_r mj), (Rmult_1_r mi), (Rmult_1_r mj), sin_0, H0. match goal with |- ?a = ?b => change (@eq R a b) end. ring.
Qed.

Lemma mass_matrix im m slabs i j : stack 0 1 slabs -> (forall s, In s slabs -> at_ s = 1 /\ ab s = 1) ->
  (i < length m)%nat -> (j < length m)%nat -> nth i m 0 <> 0 -> (i <> j -> nth i m 0 ^ 2 <> nth j m 0 ^ 2) ->
  sin (nth i m 0) * cos (nth i m 0) = 0 ->
  (nth j m 0 * sin (nth i m 0) * cos (nth j m 0) - nth i m 0 * cos (nth i m 0) * sin (nth j m 0) = 0) ->
  entry (dim1sin_af_linear im m slabs) i j = if Nat.eqb i j then / 2 else 0.
Proof.
  intros Hst H1 Hi Hj Hm Hmij Hd Ho.
  pose proof (af_entry slabs 0 1 m i j (fun _ => 1) Hst Hi (ones_linear _ _ _ Hst H1) Hm Hj Hmij im) as HE.
  apply (is_RInt_unique (V := R_CompleteNormedModule)) in HE. rewrite <- HE. apply (is_RInt_unique (V := R_CompleteNormedModule)).
  destruct (Nat.eqb_spec i j) as [<-|Hij]; [apply orth_diag|apply orth_off]; auto.
Qed.

Lemma m_from_ok bnd n ms : mapM (fun i => m_from_sin_mx i bnd) (seq 0 n) = Ok ms -> (0 < n)%nat ->
  length ms = n /\
  ((bnd = 0%Z /\ forall i, (i < n)%nat -> nth i ms 0 = PI * INR (S i)) \/
   (bnd = 1%Z /\ forall i, (i < n)%nat -> nth i ms 0 = PI * (INR i + / 2))).
Proof.
  intros H Hn.
  assert (Hb : bnd = 0%Z \/ bnd = 1%Z).
  { destruct n; [lia|]. cbn in H. unfold m_from_sin_mx in H. destruct (Z.eqb_spec bnd 0); auto. destruct (Z.eqb_spec bnd 1); auto. discriminate. }
  destruct Hb as [->| ->].
  - rewrite (mapM_map _ (fun i => PI * INR (S i))) in H by (intros; apply m_from_0).
    assert (E : ms = map (fun i => PI * INR (S i)) (seq 0 n)) by congruence. subst.
    split; [rewrite map_length, seq_length; auto|]. left. split; auto. intros i Hi.
    rewrite (map_nth_f _ (seq 0 n) i 0 0%nat) by (rewrite seq_length; auto). rewrite seq_nth by auto. reflexivity.
  - rewrite (mapM_map _ (fun i => PI * (INR i + / 2))) in H by (intros; apply m_from_1).
    assert (E : ms = map (fun i => PI * (INR i + / 2)) (seq 0 n)) by congruence. subst.
    split; [rewrite map_length, seq_length; auto|]. right. split; auto. intros i Hi.
    rewrite (map_nth_f _ (seq 0 n) i 0 0%nat) by (rewrite seq_length; auto). rewrite seq_nth by auto. reflexivity.
Qed.
Lemma sq_ne u v : 0 < u -> 0 < v -> u <> v -> u ^ 2 <> v ^ 2.
Proof. intros Hu Hv Hne H. assert ((u - v) * (u + v) = 0) by (ring_simplify; lra). apply Rmult_integral in H0. lra. Qed.
Lemma eig_facts bnd n ms : mapM (fun i => m_from_sin_mx i bnd) (seq 0 n) = Ok ms ->
  forall i j, (i < length ms)%nat -> (j < length ms)%nat ->
   0 < nth i ms 0 /\ (i <> j -> nth i ms 0 ^ 2 <> nth j ms 0 ^ 2) /\
   sin (nth i ms 0 * 1) * cos (nth j ms 0 * 1) = 0 /\
   nth j ms 0 * sin (nth i ms 0) * cos (nth j ms 0) - nth i ms 0 * cos (nth i ms 0) * sin (nth j ms 0) = 0.
Proof.
  intros H i j Hi Hj. rewrite !Rmult_1_r.
  destruct n. { cbn in H. assert (ms = []) by congruence. subst. cbn in Hi. lia. }
  destruct (m_from_ok bnd (S n) ms H ltac:(lia)) as (L & HH).
  pose proof PI_RGT_0. pose proof (pos_INR i). pose proof (pos_INR j).
  assert (NE : i <> j -> INR i <> INR j) by (intros A B; apply A, INR_eq, B).
  destruct HH as [(-> & E)|(-> & E)]; rewrite (E i), (E j) by lia; rewrite ?sin_nat_PI, ?cos_half_PI.
  - rewrite !S_INR. split; [nra|]. split; [|split; ring].
    intros Hij. specialize (NE Hij). apply sq_ne; [nra|nra|]. intros C. apply Rmult_eq_reg_l in C; lra.
  - split; [nra|]. split; [|split; ring].
    intros Hij. specialize (NE Hij). apply sq_ne; [nra|nra|]. intros C. apply Rmult_eq_reg_l in C; lra.
Qed.
