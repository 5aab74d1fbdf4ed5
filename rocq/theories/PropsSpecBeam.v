(** * C153: SpecBeam solves the beam equation in the sense of Galerkin *)
From Coq Require Import Reals List Arith ZArith Bool Lia Lra.
From Coquelicot Require Import Coquelicot.
From Verif Require Import Base PiecewiseModel PolyLineModel SpecWrap SpecPolyLine SpectralModel SpecSpectral SpectralProofs6 WrapModel PropsWrap BeamModel DingModel DingProofs PropsDing PropsBeam6 SpecBeamModel SpecBeamSpec SpecBeamProofs1 SpecBeamProofs2.
Import ListNotations.
Local Open Scope R_scope.

Lemma dot_total u v n : length u = n -> length v = n -> dot u v = total (fun j => nth j u 0 * nth j v 0) n.
Proof.
  intros H1 H2. unfold dot, total. f_equal. apply nth_ext with (d := 0) (d' := 0); [rewrite !map_length, combine_length, seq_length; lia|]. intros j Hj. rewrite map_length, combine_length in Hj.
  rewrite (nth_combine_map _ _ j (0, 0)) by (rewrite combine_length; lia). rewrite combine_nth by lia. rewrite (nth_map_seq (fun j => nth j u 0 * nth j v 0)) by lia. reflexivity.
Qed.
Definition square (M : list (list R)) (n : nat) : Prop := length M = n /\ forall row, In row M -> length row = n.
Lemma square_row M n i : square M n -> (i < n)%nat -> length (nth i M []) = n.
Proof. intros [H1 H2] Hi. apply H2. apply nth_In. lia. Qed.
Lemma nth_map_row (f : list R -> list R) (M : list (list R)) i : (i < length M)%nat -> nth i (map f M) [] = f (nth i M []).
Proof. intros H. rewrite (nth_indep _ [] (f [])) by (rewrite map_length; auto). apply map_nth. Qed.
Lemma square_mscal c M n : square M n -> square (mscal c M) n.
Proof. intros [H1 H2]. split; [unfold mscal; rewrite map_length; auto|]. intros row H. apply in_map_iff in H as (r & <- & Hr). rewrite map_length. auto. Qed.
Lemma entry_mscal c M n i j : square M n -> (i < n)%nat -> (j < n)%nat -> entry (mscal c M) i j = c * entry M i j.
Proof. intros H Hi Hj. unfold entry, mscal. rewrite nth_map_row by (destruct H; lia). apply (nth_map1 (fun x => c * x)). rewrite (square_row M n i H Hi). auto. Qed.
Lemma nth_msub M N n i : square M n -> square N n -> (i < n)%nat -> nth i (msub M N) [] = map (fun q => fst q - snd q) (combine (nth i M []) (nth i N [])).
Proof.
  intros [H1 H2] [H3 H4] Hi. unfold msub. set (f := fun p : list R * list R => _). rewrite (nth_indep _ [] (f ([], []))) by (rewrite map_length, combine_length; lia). rewrite map_nth, combine_nth by lia. reflexivity.
Qed.
Lemma square_msub M N n : square M n -> square N n -> square (msub M N) n.
Proof.
  intros HM HN. split; [unfold msub; rewrite map_length, combine_length; destruct HM, HN; lia|]. intros row H. apply In_nth with (d := []) in H as (i & Hi & <-).
  assert (i < n)%nat by (unfold msub in Hi; rewrite map_length, combine_length in Hi; destruct HM, HN; lia). rewrite (nth_msub M N n i HM HN H), map_length, combine_length, (square_row M n i HM H), (square_row N n i HN H). lia.
Qed.
Lemma entry_msub M N n i j : square M n -> square N n -> (i < n)%nat -> (j < n)%nat -> entry (msub M N) i j = entry M i j - entry N i j.
Proof.
  intros HM HN Hi Hj. unfold entry. rewrite (nth_msub M N n i HM HN Hi). rewrite (nth_combine_map _ _ j (0, 0)) by (rewrite combine_length, (square_row M n i HM Hi), (square_row N n i HN Hi); lia). rewrite combine_nth by (rewrite (square_row M n i HM Hi), (square_row N n i HN Hi); lia). reflexivity.
Qed.
Lemma square_of m s d o : square (matrix_of m s d o) (length m).
Proof. apply matrix_shape. Qed.
Lemma square_af im m a : square (pdim1sin_af_linear im m a) (length m).
Proof. unfold pdim1sin_af_linear, dim1sin_af_linear. destruct im; apply square_of. Qed.
Lemma square_abf im m a b M : pdim1sin_abf_linear im m a b = Ok M -> square M (length m).
Proof. unfold pdim1sin_abf_linear. intros H. unbind H. injection H as <-. unfold dim1sin_abf_linear. destruct im; apply square_of. Qed.
Lemma square_DD im m a b M : pdim1sin_DD_abDDf_linear im m a b = Ok M -> square M (length m).
Proof. unfold pdim1sin_DD_abDDf_linear. intros H. unbind H. injection H as <-. unfold dim1sin_DD_abDDf_linear. destruct im; apply square_of. Qed.
Lemma beta_eigenvalues n : eigenvalues (map (fun k => PI * (INR k + 1)) (seq 0 n)).
Proof.
  assert (PP := PI_RGT_0). split.
  - intros x H. apply in_map_iff in H as (k & <- & _). assert (0 <= INR k) by apply pos_INR. apply Rmult_integral_contrapositive_currified; lra.
  - intros i j Hi Hj Hij. rewrite len_map_seq in Hi, Hj. rewrite !nth_map_seq by auto. assert (0 <= INR i) by apply pos_INR. assert (0 <= INR j) by apply pos_INR. intros HH. apply Hij, INR_eq.
    assert (0 < PI ^ 2) by nra. assert (M : PI ^ 2 * ((INR i + 1) ^ 2 - (INR j + 1) ^ 2) = 0) by lra. apply Rmult_integral in M as [M|M]; [lra|]. assert (Z : (INR i - INR j) * (INR i + INR j + 2) = 0) by lra. apply Rmult_integral in Z as [Z|Z]; lra.
Qed.
Lemma interp_values P l r : interp_x_y (px P) (py P) l false = Ok r -> r = map (value_at P) l.
Proof.
  intros H. unfold value_at, interp_x_y in *. destruct (negb _); [discriminate|]. revert r H. induction l as [|a l IH]; intros r H; cbn [mapM] in H; [injection H as <-; reflexivity|]. unbind H. injection H as <-. cbn [map mapM]. rewrite Q. cbn [bind]. f_equal. apply IH. reflexivity.
Qed.
Lemma sum_combine4 (Ij xj : list R) (K F g : R -> R) : length Ij = length xj ->
  sumR (map (fun p => let '(w, kj, x) := p in w * F x * kj * g x) (combine (combine Ij (map K xj)) xj)) = sumR (map (fun p => fst p * (K (snd p) * F (snd p) * g (snd p))) (combine Ij xj)).
Proof.
  revert xj. induction Ij as [|a l IH]; intros [|x xj] H; try reflexivity; try discriminate. cbn [map combine fst snd]. change (sumR (?a :: ?l)) with (a + sumR l). rewrite IH by (cbn in H; lia). ring.
Qed.

Section S.
Variable solve : list (list R) -> list R -> result (list R).
Hypothesis solve_ok : solves solve.
(** the right hand side, as equations for each row *)
Lemma field_rows o M n N Ij (q qd : nat -> R) T d : b_nterms (s_in o) = n -> s_beta o = map (fun k => PI * (INR k + 1)) (seq 0 n) -> s_quad o = Some (points_SS N, Ij) -> length Ij = N ->
  time_independant_matrices o = Ok M -> square (lam_qdotdot M) n -> square (psi_q M) n -> square (psi_qdot M) n ->
  sb_field solve o M (map q (seq 0 n) ++ map qd (seq 0 n)) T = Ok d ->
  exists acc, d = map qd (seq 0 n) ++ acc /\ length acc = n /\ k3barj M = map (value_at (b_k1bar (s_in o))) (points_SS N) /\ forall k, (k < n)%nat -> exists f, loads o (PI * (INR k + 1)) T = Ok f /\
    total (fun j => entry (lam_qdotdot M) k j * nth j acc 0) n = total (fun j => entry (psi_q M) k j * q j) n + total (fun j => entry (psi_qdot M) k j * qd j) n + f
      - s_k3 o * sumR (map (fun p => fst p * (value_at (b_k1bar (s_in o)) (snd p) * total (fun j => q j * sin (PI * (INR j + 1) * snd p)) n ^ 3 * sin (PI * (INR k + 1) * snd p))) (combine Ij (points_SS N))).
Proof.
  intros Hn HB HQ HI HM S1 S2 S3 H. unfold sb_field in H. rewrite Hn, HQ in H.
  assert (L1 : firstn n (map q (seq 0 n) ++ map qd (seq 0 n)) = map q (seq 0 n)) by (rewrite firstn_app, len_map_seq, Nat.sub_diag, firstn_O, app_nil_r; apply firstn_all2; rewrite len_map_seq; lia).
  assert (L2 : skipn n (map q (seq 0 n) ++ map qd (seq 0 n)) = map qd (seq 0 n)) by (rewrite skipn_app, len_map_seq, Nat.sub_diag; rewrite skipn_all2 by (rewrite len_map_seq; lia); reflexivity).
  rewrite L1, L2 in H. unbind H. injection H as <-. exists a0. split; [reflexivity|].
  assert (KJ : k3barj M = map (value_at (b_k1bar (s_in o))) (points_SS N)).
  { clear - HM HQ. unfold time_independant_matrices in HM. unbind HM. rewrite HQ in HM. unbind HM. injection HM as <-. cbn [k3barj]. apply interp_values. assumption. }
  apply solve_ok in Q0 as [LA EQ]. assert (LR : length a = n) by (apply mapM_Ok_Forall2, Forall2_length' in Q; rewrite seq_length in Q; auto). split; [lia|]. split; [exact KJ|].
  intros k Hk. apply mapM_Ok_Forall2 in Q. assert (RK : nth k (map (fun row => dot row a0) (lam_qdotdot M)) 0 = nth k a 0) by (rewrite EQ; reflexivity).
  rewrite (nth_combine_map _ _ k []) in RK by (destruct S1; lia). rewrite (dot_total _ _ n) in RK by (try apply square_row; auto; lia).
  assert (G : forall (F : nat -> result R) n' b l, Forall2 (fun k v => F k = Ok v) (seq b n') l -> forall k, (k < n')%nat -> F (b + k)%nat = Ok (nth k l 0)).
  { clear. intros F. induction n' as [|n' IH]; intros b l FF k Hk; [lia|]. inversion FF as [|? f ? fs' F1 F2]; subst. destruct k as [|k]; [rewrite Nat.add_0_r; exact F1|]. replace (b + Datatypes.S k)%nat with (Datatypes.S b + k)%nat by lia. apply (IH (Datatypes.S b) fs' F2). lia. }
  apply (G _ n 0%nat a) with (k := k) in Q; auto. cbn [Nat.add] in Q. rewrite HB in Q. rewrite nth_map_seq in Q by auto. unbind Q. exists a1. split; [reflexivity|]. injection Q as Q.
  unfold entry. rewrite RK, <- Q. clear Q. rewrite (dot_total _ _ n) by (try apply square_row; auto; apply len_map_seq). rewrite (dot_total _ (map qd (seq 0 n)) n) by (try apply square_row; auto; apply len_map_seq). f_equal.
  - f_equal. f_equal; apply total_ext; intros j Hj; rewrite nth_map_seq by auto; reflexivity.
  - f_equal. rewrite KJ. assert (LP : length Ij = length (points_SS N)) by (unfold points_SS; rewrite len_map_seq; auto). etransitivity; [exact (sum_combine4 Ij (points_SS N) (value_at (b_k1bar (s_in o))) (fun x => sb_w o (map q (seq 0 n)) x ^ 3) (fun x => sin (PI * (INR k + 1) * x)) LP)|].
    f_equal. apply map_ext. intros p. do 4 f_equal. unfold sb_w, total. rewrite HB, combine_maps, map_map. reflexivity.
Qed.

(** *** C153: the coefficients followed by the equations SpecBeam gives odeint make a deflection that satisfies
      (E I w'')'' + rho A w_tt + mu w_t + k1 w + k3 w^3 = loads
    with all coefficients varying along the beam: for each mode, the weak form, the cubic term by the object's quadrature. *)
Theorem C153_galerkin i o M N E I rho A L k1 k3 mu V S (fE fI fr fA fk fm : R -> R) (q qd : nat -> R -> R) (T0 T1 : R) :
  0 < E -> 0 < I -> 0 < rho -> 0 < A -> 0 < L ->
  beam_of i E I rho A L k1 k3 mu -> vehicles_of i V -> standing_of i S -> b_nquad i = Some N ->
  depth_profile 0 1 (b_Ebar i) fE -> depth_profile 0 1 (b_Ibar i) fI -> depth_profile 0 1 (b_rhobar i) fr -> depth_profile 0 1 (b_Abar i) fA -> depth_profile 0 1 (b_k1bar i) fk -> depth_profile 0 1 (b_mubar i) fm ->
  well_separated [b_Ebar i; b_Ibar i] -> well_separated [b_rhobar i; b_Abar i] -> (b_k3bar i = b_k1bar i \/ k3 = 0) ->
  sb_init solve i = Ok o -> time_independant_matrices o = Ok M -> let n := b_nterms i in
  (* q and its rate follow vectorfield in normalised time *)
  (forall T, T0 < T < T1 -> exists d, sb_field solve o M (map (fun k => q k T) (seq 0 n) ++ map (fun k => qd k T) (seq 0 n)) T = Ok d /\
     forall k, (k < n)%nat -> is_derive (q k) T (nth k d 0) /\ is_derive (qd k) T (nth (n + k) d 0)) ->
  let defl := fun x t => L * total (fun k => q k (t / L * sqrt (E / rho)) * mode L k x) n in
  let now := fun t => T0 < t / L * sqrt (E / rho) < T1 in
  forall (wt wtt : R -> R -> R) (w1 w2 : R -> R) (t : R), now t ->
  (forall x t, now t -> is_derive (fun t => defl x t) t (wt x t)) -> (forall x t, now t -> is_derive (fun t => wt x t) t (wtt x t)) ->
  (forall x, is_derive (fun x => defl x t) x (w1 x)) -> (forall x, is_derive w1 x (w2 x)) ->
  exists Ij, weights solve (points_SS N) = Ok Ij /\ forall k, (k < n)%nat ->
  is_RInt (fun x => E * fE (x / L) * (I * fI (x / L)) * w2 x * mode2 L k x + (rho * fr (x / L) * (A * fA (x / L)) * wtt x t + mu * fm (x / L) * wt x t + k1 * fk (x / L) * defl x t) * mode L k x) 0 L
    (force L t (mode L k) V S - k3 * (L * sumR (map (fun p => fst p * (value_at (b_k3bar i) (snd p) * defl (L * snd p) t ^ 3 * mode L k (L * snd p))) (combine Ij (points_SS N))))).
Proof.
  intros HE HI Hr HA HL HB HV HS HN PE PI' Pr PA Pk Pm WS1 WS2 HK HO HM n HQ defl now wt wtt w1 w2 t Ht D1 D2 X1 X2.
  destruct (init_phys solve E I rho A L k1 k3 mu i o HB HO) as (I1 & I2 & I3 & I4 & I5 & I6 & I7 & I8 & I9 & I10). rewrite HN in I10. destruct I10 as (Ij & EW & EQ). exists Ij. split; [exact EW|].
  assert (LI : length Ij = N). { unfold weights in EW. apply solve_ok in EW as [EW _]. rewrite EW, len_map_seq. unfold points_SS. apply len_map_seq. }
  fold n in I7. set (m := map (fun k => PI * (INR k + 1)) (seq 0 n)) in *. assert (Lm : length m = n) by apply len_map_seq. assert (Ev : eigenvalues m) by apply beta_eigenvalues.
  (* the matrices *)
  pose proof (C97_abf (b_impl i) m 0 1 (b_rhobar i) (b_Abar i) fr fA Pr PA WS2 Ev) as (LM & EL & IL).
  pose proof (C97_DD_abDDf (b_impl i) m 0 1 (b_Ebar i) (b_Ibar i) fE fI PE PI' WS1 Ev) as (BM & EB & IB).
  pose proof (fun a b => C97_af (b_impl i) m 0 1 (b_k1bar i) fk a b Pk Ev) as IK. pose proof (fun a b => C97_af (b_impl i) m 0 1 (b_mubar i) fm a b Pm Ev) as IM.
  rewrite Lm in IL, IB, IK, IM. assert (SL := square_abf _ _ _ _ _ EL). assert (SB := square_DD _ _ _ _ _ EB). assert (SK := square_af (b_impl i) m (b_k1bar i)). assert (SM := square_af (b_impl i) m (b_mubar i)). rewrite Lm in SL, SB, SK, SM.
  assert (MM : exists kj, M = mkMats LM (msub (mscal (- s_kf o ^ 2) BM) (mscal (s_k1 o) (pdim1sin_af_linear (b_impl i) m (b_k1bar i)))) (mscal (- s_mu o) (pdim1sin_af_linear (b_impl i) m (b_mubar i))) kj).
  { pose proof HM as HM'. unfold time_independant_matrices in HM'. rewrite I2, I7, EL, EB, EQ in HM'. cbn [bind] in HM'. unbind HM'. injection HM' as <-. eauto. }
  destruct MM as (kj & MM). 
  assert (FR : forall T d, sb_field solve o M (map (fun k => q k T) (seq 0 n) ++ map (fun k => qd k T) (seq 0 n)) T = Ok d -> _) by
   (intros T d; apply (field_rows o M n N Ij (fun k => q k T) (fun k => qd k T) T d ltac:(rewrite I2; reflexivity) I7 EQ LI HM);
    [rewrite MM; exact SL|rewrite MM; cbn [psi_q]; apply square_msub; apply square_mscal; auto|rewrite MM; cbn [psi_qdot]; apply square_mscal; auto]).
  set (c := sqrt (E / rho) / L). assert (CT : forall s, s / L * sqrt (E / rho) = c * s) by (intros s; unfold c; field; lra).
  assert (Hc : 0 < c) by (apply Rdiv_lt_0_compat; auto; apply sqrt_lt_R0, Rdiv_lt_0_compat; lra).
  unfold now in *. rewrite CT in Ht.
  destruct (HQ (c * t) Ht) as (d & Ed & Hd). destruct (FR _ _ Ed) as (acc & Eacc & LA & KJ & Rows).
  assert (DQ : forall T k, T0 < T < T1 -> (k < n)%nat -> is_derive (q k) T (qd k T)).
  { intros T k HT Hk. destruct (HQ T HT) as (d' & Ed' & Hd'). destruct (FR _ _ Ed') as (acc' & Eacc' & _). destruct (Hd' k Hk) as [A1 _]. rewrite Eacc' in A1. rewrite app_nth1 in A1 by (rewrite len_map_seq; auto). rewrite (nth_map_seq (fun k => qd k T)) in A1 by auto. exact A1. }
  assert (DA : forall k, (k < n)%nat -> is_derive (qd k) (c * t) (nth k acc 0)).
  { intros k Hk. destruct (Hd k Hk) as [_ A2]. rewrite Eacc in A2. rewrite app_nth2 in A2 by (rewrite len_map_seq; lia). rewrite len_map_seq in A2. replace (n + k - n)%nat with k in A2 by lia. exact A2. }
  assert (W1 : forall x s, T0 < c * s < T1 -> wt x s = L * total (fun k => c * qd k (c * s) * mode L k x) n).
  { intros x s Hs. assert (U := is_derive_unique _ _ _ (D1 x s ltac:(rewrite CT; exact Hs))). rewrite <- U. apply is_derive_unique. unfold defl. apply (is_derive_scal (fun s => total (fun k => q k (s / L * sqrt (E / rho)) * mode L k x) n)).
    apply (total_derive (fun k s => q k (s / L * sqrt (E / rho)) * mode L k x)). intros k Hk. apply (is_derive_ext (fun s => mode L k x * q k (c * s))); [intros; rewrite CT; apply Rmult_comm|].
    replace (c * qd k (c * s) * mode L k x) with (mode L k x * (c * qd k (c * s))) by ring. apply (is_derive_scal (fun s => q k (c * s))). apply (is_derive_comp (V := R_NormedModule) (q k) (fun s => c * s)); [apply DQ; auto|]. auto_derive; auto. ring. }
  assert (W2 : forall x, wtt x t = L * total (fun k => c ^ 2 * nth k acc 0 * mode L k x) n).
  { intros x. assert (U := is_derive_unique _ _ _ (D2 x t ltac:(rewrite CT; exact Ht))). rewrite <- U. apply is_derive_unique. apply (is_derive_ext_loc (fun s => L * total (fun k => c * qd k (c * s) * mode L k x) n)).
    { assert (OP : open (fun s => T0 < c * s < T1)).
      { apply open_and. - apply (open_comp (fun s => c * s) (fun y => T0 < y)); [intros y _; apply (continuous_scal_r (K := R_AbsRing) (V := R_NormedModule)), continuous_id|apply open_gt].
        - apply (open_comp (fun s => c * s) (fun y => y < T1)); [intros y _; apply (continuous_scal_r (K := R_AbsRing) (V := R_NormedModule)), continuous_id|apply open_lt]. }
      specialize (OP t Ht). destruct OP as [eps He]. exists eps. intros y Hy. symmetry. apply W1. apply He. exact Hy. }
    apply (is_derive_scal (fun s => total (fun k => c * qd k (c * s) * mode L k x) n)). apply (total_derive (fun k s => c * qd k (c * s) * mode L k x)). intros k Hk.
    apply (is_derive_ext (fun s => (c * mode L k x) * qd k (c * s))); [intros; match goal with |- ?u = ?v => change (@eq R u v) end; ring|]. replace (c ^ 2 * nth k acc 0 * mode L k x) with ((c * mode L k x) * (c * nth k acc 0)) by ring.
    apply (is_derive_scal (fun s => qd k (c * s))). apply (is_derive_comp (V := R_NormedModule) (qd k) (fun s => c * s)); [apply DA; auto|]. auto_derive; auto. ring. }
  set (b := fun k => (INR k + 1) * PI / L). assert (MB : forall k x, mode L k x = sin (b k * x)) by (intros k x; unfold mode, b; f_equal; field; lra).
  assert (V0 : forall x, defl x t = L * total (fun k => q k (c * t) * mode L k x) n) by (intros x; unfold defl; f_equal; apply total_ext; intros k _; rewrite CT; reflexivity).
  assert (V1 : forall x, w1 x = L * total (fun k => q k (c * t) * (b k * cos (b k * x))) n).
  { intros x. assert (U := is_derive_unique _ _ _ (X1 x)). rewrite <- U. apply is_derive_unique. apply (is_derive_ext (fun x => L * total (fun k => q k (c * t) * mode L k x) n)); [intros; rewrite V0; auto|]. apply (is_derive_scal (fun x => total (fun k => q k (c * t) * mode L k x) n)).
    apply (total_derive (fun k x => q k (c * t) * mode L k x)). intros k _. apply (is_derive_scal (fun x => mode L k x)). apply (is_derive_ext (fun x => sin (b k * x))); [intros; rewrite MB; auto|]. auto_derive; auto. ring. }
  assert (V2 : forall x, w2 x = L * total (fun k => q k (c * t) * mode2 L k x) n).
  { intros x. assert (U := is_derive_unique _ _ _ (X2 x)). rewrite <- U. apply is_derive_unique. apply (is_derive_ext (fun x => L * total (fun k => q k (c * t) * (b k * cos (b k * x))) n)); [intros; rewrite V1; auto|]. apply (is_derive_scal (fun x => total (fun k => q k (c * t) * (b k * cos (b k * x))) n)).
    apply (total_derive (fun k x => q k (c * t) * (b k * cos (b k * x)))). intros k _. apply (is_derive_scal (fun x => b k * cos (b k * x))). unfold mode2. rewrite MB. fold (b k). auto_derive; auto. ring. }
  intros k Hk. destruct (Rows k Hk) as (f & EF & ROW). clear Rows.
  assert (FF := loads_phys solve E I rho A L k1 k3 mu HE Hr HA HL i o V S k t f HB HV HS HO ltac:(rewrite CT; exact EF)).
  (* the integral over 0..1 *)
  assert (Nm : forall j, (j < n)%nat -> nth j m 0 = PI * (INR j + 1)) by (intros j Hj; apply (nth_map_seq (fun k => PI * (INR k + 1))); auto).
  set (be := fun j : nat => PI * (INR j + 1)).
  set (G := fun z => total (fun j => nth j acc 0 * (fr z * fA z * sin (be k * z) * sin (be j * z)) + s_kf o ^ 2 * q j (c * t) * (fE z * fI z * (- be k ^ 2 * sin (be k * z)) * (- be j ^ 2 * sin (be j * z)))
     + s_mu o * qd j (c * t) * (fm z * sin (be k * z) * sin (be j * z)) + s_k1 o * q j (c * t) * (fk z * sin (be k * z) * sin (be j * z))) n).
  set (Y := sumR (map (fun p => fst p * (value_at (b_k1bar (s_in o)) (snd p) * total (fun j => q j (c * t) * sin (PI * (INR j + 1) * snd p)) n ^ 3 * sin (PI * (INR k + 1) * snd p))) (combine Ij (points_SS N)))) in *.
  assert (IG : is_RInt G 0 1 (f - s_k3 o * Y)).
  { apply (eq_ind (total (fun j => nth j acc 0 * entry LM k j + s_kf o ^ 2 * q j (c * t) * entry BM k j + s_mu o * qd j (c * t) * entry (pdim1sin_af_linear (b_impl i) m (b_mubar i)) k j + s_k1 o * q j (c * t) * entry (pdim1sin_af_linear (b_impl i) m (b_k1bar i)) k j) n) (fun v => is_RInt G 0 1 v)).
    - apply (total_RInt (fun j z => nth j acc 0 * (fr z * fA z * sin (be k * z) * sin (be j * z)) + s_kf o ^ 2 * q j (c * t) * (fE z * fI z * (- be k ^ 2 * sin (be k * z)) * (- be j ^ 2 * sin (be j * z)))
     + s_mu o * qd j (c * t) * (fm z * sin (be k * z) * sin (be j * z)) + s_k1 o * q j (c * t) * (fk z * sin (be k * z) * sin (be j * z)))). intros j Hj.
      specialize (IL k j Hk Hj). specialize (IB k j Hk Hj). specialize (IK k j Hk Hj). specialize (IM k j Hk Hj). rewrite !Nm in IL, IB, IK, IM by auto. fold (be k) in IL, IB, IK, IM. fold (be j) in IL, IB, IK, IM.
      apply (is_RInt_plus (V := R_NormedModule)); [apply (is_RInt_plus (V := R_NormedModule)); [apply (is_RInt_plus (V := R_NormedModule))|]|]; apply (is_RInt_scal (V := R_NormedModule)); assumption.
    - rewrite MM in ROW. cbn [lam_qdotdot psi_q psi_qdot] in ROW.
      rewrite (total_ext (fun j => entry (msub _ _) k j * q j (c * t)) (fun j => - (s_kf o ^ 2) * (q j (c * t) * entry BM k j) + - s_k1 o * (q j (c * t) * entry (pdim1sin_af_linear (b_impl i) m (b_k1bar i)) k j))) in ROW
        by (intros j Hj; rewrite (entry_msub _ _ n) by (auto; apply square_mscal; auto); rewrite !(entry_mscal _ _ n) by auto; ring).
      rewrite (total_ext (fun j => entry (mscal _ _) k j * qd j (c * t)) (fun j => - s_mu o * (qd j (c * t) * entry (pdim1sin_af_linear (b_impl i) m (b_mubar i)) k j))) in ROW by (intros j Hj; rewrite (entry_mscal _ _ n) by auto; ring).
      rewrite total_plus, !total_scal in ROW.
      rewrite (total_ext _ (fun j => entry LM k j * nth j acc 0 + s_kf o ^ 2 * (q j (c * t) * entry BM k j) + s_mu o * (qd j (c * t) * entry (pdim1sin_af_linear (b_impl i) m (b_mubar i)) k j) + s_k1 o * (q j (c * t) * entry (pdim1sin_af_linear (b_impl i) m (b_k1bar i)) k j))) by (intros j Hj; ring).
      rewrite !total_plus, !total_scal, ROW. ring. }
  assert (IGL : is_RInt (fun x => E * A / L * G (x / L)) 0 L (E * A * (f - s_k3 o * Y))).
  { replace (E * A * (f - s_k3 o * Y)) with (E * A / L * (L * (f - s_k3 o * Y))) by (field; lra). apply (is_RInt_scal (V := R_NormedModule) (fun x => G (x / L))).
    apply (is_RInt_ext (fun x => scal L (scal (/ L) (G (/ L * x + 0))))). { intros x _. change (L * (/ L * G (/ L * x + 0)) = G (x / L)). replace (/ L * x + 0) with (x / L) by (unfold Rdiv; ring). field. lra. }
    apply (is_RInt_scal (V := R_NormedModule)). apply (is_RInt_comp_lin (V := R_NormedModule) G). replace (/ L * 0 + 0) with 0 by ring. replace (/ L * L + 0) with 1 by (field; lra). exact IG. }
  assert (C2 : c ^ 2 = E / (rho * L ^ 2)) by (unfold c; replace ((sqrt (E / rho) / L) ^ 2) with (sqrt (E / rho) ^ 2 / L ^ 2) by (field; lra); rewrite pow2_sqrt by (apply Rlt_le, Rdiv_lt_0_compat; lra); field; lra).
  assert (KF : s_kf o ^ 2 = I / (A * L ^ 2)) by (rewrite I3, Rpow_mult_distr; rewrite pow2_sqrt by (apply Rlt_le, Rdiv_lt_0_compat; lra); field; lra).
  assert (MU : sqrt (L ^ 2 / (rho * E)) * E = c * (L ^ 2)).
  { unfold c. replace (L ^ 2 / (rho * E)) with ((L / E) ^ 2 * (E / rho)) by (field; lra). rewrite sqrt_mult by (try (apply Rlt_le, Rdiv_lt_0_compat; lra); apply pow2_ge_0). rewrite sqrt_pow2 by (apply Rlt_le, Rdiv_lt_0_compat; lra). field. lra. }
  assert (MU2 : E * A / L * s_mu o = mu * c * L). { rewrite I4. replace (E * A / L * (mu / A * sqrt (L ^ 2 / (rho * E)))) with (mu / L * (sqrt (L ^ 2 / (rho * E)) * E)) by (field; lra). rewrite MU. field. lra. }
  assert (K1 : E * A / L * s_k1 o = k1 * L) by (rewrite I5; field; lra).
  assert (KF2 : E * A / L * s_kf o ^ 2 = E * I / L ^ 3) by (rewrite KF; field; lra).
  assert (C3 : rho * A * L * c ^ 2 = E * A / L) by (rewrite C2; field; lra).
  apply (is_RInt_ext (fun x => E * A / L * G (x / L))).
  { intros x _. rewrite V0, V2, W2, W1 by auto. unfold G. rewrite <- total_scal.
    set (mk := mode L k x). 
    replace (E * fE (x / L) * (I * fI (x / L)) * (L * total (fun k0 => q k0 (c * t) * mode2 L k0 x) n) * mode2 L k x) with (total (fun j => E * fE (x / L) * (I * fI (x / L)) * L * mode2 L k x * (q j (c * t) * mode2 L j x)) n) by (rewrite total_scal; ring).
    match goal with |- _ = ?u + ?v => replace v with (total (fun j => (rho * fr (x / L) * (A * fA (x / L)) * L * mk) * (c ^ 2 * nth j acc 0 * mode L j x) + (mu * fm (x / L) * L * mk) * (c * qd j (c * t) * mode L j x) + (k1 * fk (x / L) * L * mk) * (q j (c * t) * mode L j x)) n) by (rewrite !total_plus, !total_scal; ring) end.
    rewrite <- total_plus. apply total_ext. intros j _.
    assert (SJ : forall j, sin (be j * (x / L)) = mode L j x) by (intros j'; unfold mode, be; f_equal; field; lra). rewrite !SJ. fold mk.
    assert (B2 : forall j, mode2 L j x = - (be j ^ 2 / L ^ 2) * mode L j x) by (intros j'; unfold mode2, be; field; lra). rewrite !B2. fold mk.
    set (mj := mode L j x). set (aj := nth j acc 0). set (qj := q j (c * t)). set (qdj := qd j (c * t)). set (X := x / L).
    transitivity (E * A / L * (aj * (fr X * fA X * mk * mj)) + (E * A / L * s_kf o ^ 2) * qj * (fE X * fI X * (- be k ^ 2 * mk) * (- be j ^ 2 * mj)) + (E * A / L * s_mu o) * qdj * (fm X * mk * mj) + (E * A / L * s_k1 o) * qj * (fk X * mk * mj)); [ring|].
    rewrite KF2, MU2, K1, <- C3. field. lra. }
  apply (eq_ind _ (fun v => is_RInt _ 0 L v) IGL). rewrite Rmult_minus_distr_l, FF. f_equal. rewrite I6.
  assert (SY : sumR (map (fun p => fst p * (value_at (b_k1bar (s_in o)) (snd p) * defl (L * snd p) t ^ 3 * mode L k (L * snd p))) (combine Ij (points_SS N))) = L ^ 3 * Y).
  { unfold Y. rewrite sumR_scal, map_map. f_equal. apply map_ext. intros p. rewrite V0, mode_scale by auto. rewrite (total_ext (fun k => q k (c * t) * mode L k (L * snd p)) (fun j => q j (c * t) * sin (PI * (INR j + 1) * snd p))) by (intros j _; rewrite mode_scale by auto; reflexivity). ring. }
  destruct HK as [HK | HK]; [|rewrite HK; unfold Rdiv; ring]. rewrite HK, <- I2, SY. field. lra.
Qed.
End S.
