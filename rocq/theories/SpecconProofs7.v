(** * The matrices of the spectral program, and the weak form of the consolidation equation *)
From Coq Require Import Reals List Arith ZArith Lia Lra Bool Sorted.
From Coquelicot Require Import Coquelicot.
From Verif Require Import Base PiecewiseModel LayersModel SpecPiecewise SpecPiecewiseApi PolyLineModel SpecPolyLine SpectralModel SpecSpectral SpectralProofs5 SpectralProofs6 PropsSpectral
  WrapModel SpecWrap PropsWrap LoadModel LoadTrigModel SpecLoad SpecSpeccon SpecconModel SpecconProofs SpecconProofs2 SpecconProofs4 SpecconProofs5 SpecGalerkin SpecconProofs6.
Import ListNotations.
Open Scope R_scope.
Local Notation entry := SpecSpectral.entry.

(** ** Cutting small numbers *)
Definition cutv (x : R) : R := if Rltb (Rabs x) (/ 100000000) then 0 else x.
Lemma cutv_neglected x : neglected x (x - cutv x).
Proof.
  unfold neglected, cutv. destruct (Rltb (Rabs x) (/ 100000000)) eqn:E.
  - apply Rltb_true in E. rewrite Rminus_0_r. split; auto. intros [H|H]; [auto|lra].
  - unfold Rminus. rewrite Rplus_opp_r. split; [rewrite Rabs_R0; lra|auto].
Qed.
Lemma cell_cut A i j : cell (cut A) i j = cutv (cell A i j).
Proof.
  assert (Z : cutv 0 = 0) by (unfold cutv; destruct (Rltb (Rabs 0) (/ 100000000)); auto).
  unfold cell, cut. destruct (Nat.lt_ge_cases i (length A)) as [H|H].
  - rewrite (nth_map_in _ _ _ _ []) by auto. destruct (Nat.lt_ge_cases j (length (nth i A []))) as [H'|H'].
    + rewrite (nth_map_in _ _ _ _ 0) by auto. reflexivity.
    + rewrite !nth_overflow; auto. rewrite map_length. auto.
  - rewrite (nth_overflow (map _ A)) by (rewrite map_length; auto). rewrite (nth_overflow A) by auto. destruct j; cbn; auto.
Qed.
Lemma cut_square n A : square n A -> square n (cut A).
Proof.
  intros (L & H). split; [unfold cut; rewrite map_length; auto|]. intros row Hr. unfold cut in Hr. apply in_map_iff in Hr.
  destruct Hr as (r & <- & Hr). rewrite map_length. auto.
Qed.
Lemma table_square n f : square n (table n n f).
Proof. apply table_shape. Qed.
Lemma square_hd n A : square n A -> (1 <= n)%nat -> length (hd [] A) = n.
Proof. intros (L & H) Hn. destruct A as [|r A]; [cbn in L; lia|]. apply H. left; auto. Qed.
Lemma square_dot n A B : square n A -> square n B -> (1 <= n)%nat -> square n (dot_mm A B).
Proof. intros (LA & HA) SB Hn. pose proof (dot_mm_shape A B) as S'. rewrite LA, (square_hd n B SB Hn) in S'. exact S'. Qed.
Lemma cell_dot n A B i j : square n A -> square n B -> (1 <= n)%nat -> (i < n)%nat -> (j < n)%nat ->
  cell (dot_mm A B) i j = Sg n (fun k => cell A i k * cell B k j).
Proof. intros (LA & HA) SB Hn Hi Hj. rewrite cell_dot_mm by (rewrite ?(square_hd n B SB Hn); lia). destruct SB as (LB & _). rewrite LB. reflexivity. Qed.

Section Matrices.
Variables (P : problem) (ph : physics) (T0 : R) (m : list R).
Let n := neig P.
Hypothesis HR : represents T0 P ph.
Hypothesis Em : make_m P = Ok m.
Hypothesis Hn : (1 <= n)%nat.
Let phi (k : nat) (z : R) := sin (nth k m 0 * z).
Let dphi (k : nat) (z : R) := nth k m 0 * cos (nth k m 0 * z).

Lemma m_facts : length m = n /\ (forall x, In x m -> x <> 0) /\ eigenvalues m /\ (drn P = 0%Z \/ drn P = 1%Z) /\
  forall i j, (i < n)%nat -> (j < n)%nat -> dphi j 1 * phi i 1 = 0.
Proof using Em Hn.
  destruct (m_from_ok _ _ _ Em Hn) as (L & H). pose proof (eig_facts _ _ _ Em) as F. fold n in L. rewrite L in F.
  split; auto. split; [|split; [|split]].
  - intros x Hx. destruct (In_nth _ _ 0 Hx) as (i & Hi & <-). rewrite L in Hi. destruct (F i i Hi Hi) as (F1 & _). lra.
  - unfold eigenvalues. rewrite L. split.
    + intros x Hx. destruct (In_nth _ _ 0 Hx) as (i & Hi & <-). rewrite L in Hi. destruct (F i i Hi Hi) as (F1 & _). lra.
    + intros i j Hi Hj Hij. destruct (F i j Hi Hj) as (_ & F2 & _). auto.
  - destruct H as [(H & _)|(H & _)]; auto.
  - intros i j Hi Hj. destruct (F i j Hi Hj) as (_ & _ & F3 & _). unfold dphi, phi.
    replace (nth j m 0 * cos (nth j m 0 * 1) * sin (nth i m 0 * 1)) with (nth j m 0 * (sin (nth i m 0 * 1) * cos (nth j m 0 * 1))) by ring.
    rewrite F3. ring.
Qed.
Lemma gam_square : square n (make_gam P m).
Proof using Em Hn.
  destruct m_facts as (L & _). apply cut_square. unfold pdim1sin_af_linear, dim1sin_af_linear. rewrite <- L. destruct (pim P); apply matrix_shape.
Qed.
Lemma gam_cell i j : (i < n)%nat -> (j < n)%nat -> exists x, storage_entry ph m i j x /\ cell (make_gam P m) i j = cutv x.
Proof using Em Hn HR.
  intros Hi Hj. destruct m_facts as (L & _ & Ev & _). destruct HR as (_ & Pm & _). exists (cell (pdim1sin_af_linear (pim P) m (mv P)) i j). split.
  - apply (C97_af (pim P) m 0 1 (mv P) (f_mv ph) i j Pm Ev); lia.
  - unfold make_gam. apply cell_cut.
Qed.
(** The contribution of the points with fixed pressure. *)
Lemma fixed_fold (l : list (R * R * option points)) psi : dT P <> 0 -> square n psi ->
  let psi' := fold_left (fun psi f => let '(z, k, _) := f in
      table n n (fun i j => cell psi i j + k / dT P * sin (item m i * z) * sin (item m j * z))) l psi in
  square n psi' /\ forall i j, (i < n)%nat -> (j < n)%nat ->
    dT P * cell psi' i j = dT P * cell psi i j + fold_right Rplus 0 (map (fun f => snd (fst f) * phi i (fst (fst f)) * phi j (fst (fst f))) l).
Proof using.
  intros Hd. revert psi. induction l as [|[[z k] o] l IH]; intros psi Sq psi'.
  - split; [exact Sq|]. intros i j _ _. unfold psi'. cbn [fold_left map fold_right]. ring.
  - destruct (IH _ (table_square n (fun i j => cell psi i j + k / dT P * sin (item m i * z) * sin (item m j * z)))) as (I1 & I2). split; [exact I1|].
    intros i j Hi Hj. unfold psi'. cbn [fold_left]. rewrite I2 by auto. rewrite cell_table by auto. cbn [map fold_right fst snd]. unfold phi, item. field. auto.
Qed.
Lemma zero_RInt (f : R -> R) : (forall z, f z = 0) -> is_RInt f 0 1 0.
Proof using.
  intros H. apply (RInt_eq (fun _ => 0) f 0 1 0 0); auto.
  pose proof (is_RInt_const (V := R_NormedModule) 0 1 0) as X. unfold scal in X; cbn in X; unfold Hierarchy.mult in X; cbn in X.
  replace ((1 - 0) * 0) with 0 in X by ring. exact X.
Qed.
Lemma psi_ok : dT P <> 0 -> exists psi, make_psi P m = Ok psi /\ square n psi /\
  forall i j, (i < n)%nat -> (j < n)%nat -> exists x, outflow_entry P ph m i j x /\ cell psi i j = cutv x.
Proof using Em Hn HR.
  intros Hd. destruct m_facts as (L & _ & Ev & _). pose proof HR as (W & _ & Hkv & Hkh & _ & _ & _ & _ & Lf & Ff & _).
  unfold make_psi. cbv zeta. fold n.
  (* vertical *)
  assert (A1 : exists psi1, match kv P, dTv P with
             | Some k, Some d => table n n (fun i j => cell (zero_table n n) i j - d / dT P * cell (pdim1sin_D_aDf_linear (pim P) m k) i j)
             | _, _ => zero_table n n
             end = psi1 /\ square n psi1 /\ forall i j, (i < n)%nat -> (j < n)%nat -> exists V,
     is_RInt (fun z => f_kv ph z * dphi i z * dphi j z) 0 1 V /\ dT P * cell psi1 i j = d_v ph * V).
  { eexists. split; [reflexivity|].
    destruct (kv P) as [k|]; [destruct (dTv P) as [d|]|].
    - destruct Hkv as (Pk & _ & ->). split; [apply table_square|]. intros i j Hi Hj.
      exists (- cell (pdim1sin_D_aDf_linear (pim P) m k) i j). split.
      + pose proof (C97_D_aDf (pim P) m 0 1 k (f_kv ph) i j Pk Ev ltac:(lia) ltac:(lia)) as X.
        apply (RInt_mull _ 0 1 (-1)) in X. eapply RInt_eq; [exact X| |].
        * intros z. cbv beta. unfold dphi. ring.
        * change (cell (pdim1sin_D_aDf_linear (pim P) m k) i j) with (entry (pdim1sin_D_aDf_linear (pim P) m k) i j). ring.
      + unfold zero_table. rewrite !cell_table by auto. field. auto.
    - destruct Hkv as (E1 & ->). split; [apply table_square|]. intros i j Hi Hj. exists 0. split; [apply zero_RInt; intros; rewrite E1; ring|].
      unfold zero_table. rewrite cell_table by auto. ring.
    - destruct Hkv as (E1 & ->). split; [apply table_square|]. intros i j Hi Hj. exists 0. split; [apply zero_RInt; intros; rewrite E1; ring|].
      unfold zero_table. rewrite cell_table by auto. ring. }
  destruct A1 as (psi1 & -> & S1 & H1).
  assert (A2 : exists psi2, match kh P, et P, dTh P with
         | Some k, Some e, Some d =>
             _ <- polyline_make_x_common [k; e] ;;
             A <- pdim1sin_abf_linear (pim P) m k e ;;
             Ok (table n n (fun i j => cell psi1 i j + d / dT P * cell A i j))
         | _, _, _ => Ok psi1
         end = Ok psi2 /\ square n psi2 /\ forall i j, (i < n)%nat -> (j < n)%nat -> exists X,
     is_RInt (fun z => f_kh ph z * f_et ph z * phi i z * phi j z) 0 1 X /\ dT P * cell psi2 i j = dT P * cell psi1 i j + d_h ph * X).
  { assert (Z0 : f_kh ph = (fun _ => 0) /\ f_et ph = (fun _ => 0) /\ d_h ph = 0 -> exists psi2, Ok psi1 = Ok psi2 /\ square n psi2 /\ forall i j, (i < n)%nat -> (j < n)%nat -> exists X,
     is_RInt (fun z => f_kh ph z * f_et ph z * phi i z * phi j z) 0 1 X /\ dT P * cell psi2 i j = dT P * cell psi1 i j + d_h ph * X).
    { intros (E1 & E2 & ->). exists psi1. split; auto. split; auto. intros i j Hi Hj. exists 0. split; [apply zero_RInt; intros; rewrite E1; ring|ring]. }
    destruct (kh P) as [k|] eqn:Ek; [destruct (et P) as [e|] eqn:Ee; [destruct (dTh P) as [d|] eqn:Ed|]|]; try (apply Z0; auto; fail).
    destruct Hkh as (Pk & Pe & ->).
    assert (W2 : well_separated [k; e]).
    { apply (sep_sub P ph T0 HR). intros p [<-|[<-|[]]]; apply profiles_in; auto. }
    destruct (C97_abf (pim P) m 0 1 k e (f_kh ph) (f_et ph) Pk Pe W2 Ev) as (A & EA & HA).
    assert (EC : exists q, polyline_make_x_common [k; e] = Ok q).
    { unfold pdim1sin_abf_linear, common2 in EA. destruct (polyline_make_x_common [k; e]) as [q|]; [exists q; auto|discriminate]. }
    destruct EC as (q & ->). cbn [bind]. rewrite EA. cbn [bind]. eexists. split; [reflexivity|]. split; [apply table_square|].
    intros i j Hi Hj. exists (cell A i j). split; [apply HA; lia|]. rewrite cell_table by auto. field. auto. }
  destruct A2 as (psi2 & -> & S2 & H2). cbn [bind].
  assert (A3 : square n (fixed_psi P m psi2) /\ forall i j, (i < n)%nat -> (j < n)%nat ->
    dT P * cell (fixed_psi P m psi2) i j = dT P * cell psi2 i j + fold_right Rplus 0 (map (fun f => snd (fst f) * phi i (fst (fst f)) * phi j (fst (fst f))) (f_fixed ph))).
  { assert (EF : forall i j, fold_right Rplus 0 (map (fun f => snd (fst f) * phi i (fst (fst f)) * phi j (fst (fst f))) (f_fixed ph)) =
      fold_right Rplus 0 (map (fun f => snd (fst f) * phi i (fst (fst f)) * phi j (fst (fst f))) (listed (fixed_ppress P)))).
    { intros i j. generalize dependent (modulations (length (listed (fixed_ppress P))) (fixed_ppress_omega_phase P)). generalize (listed (fixed_ppress P)).
      clear. intros l o Lo F. revert o Lo F. generalize (f_fixed ph). induction l as [|f l IH]; intros fs o Lo F; destruct o as [|x o]; cbn in Lo; try discriminate; cbn [combine] in F; inversion F as [|q g c gs (H1 & H2) F']; subst; [reflexivity|].
      cbn [map fold_right]. cbn [fst] in H1. rewrite <- H1. f_equal. apply (IH gs o); auto. }
    unfold fixed_psi. fold n. destruct (fixed_ppress P) as [l|]; cbn [listed] in EF.
    - destruct (fixed_fold l psi2 Hd S2) as (F1 & F2). split; [exact F1|]. intros i j Hi Hj. rewrite F2, EF by auto. reflexivity.
    - split; auto. intros i j Hi Hj. rewrite EF. cbn. ring. }
  destruct A3 as (S3 & H3). eexists. split; [reflexivity|]. split; [apply cut_square; auto|]. intros i j Hi Hj.
  exists (cell (fixed_psi P m psi2) i j). split; [|apply cell_cut].
  destruct (H1 i j Hi Hj) as (V & HV & E1). destruct (H2 i j Hi Hj) as (X & HX & E2). exists V, X. split; [exact HV|]. split; [exact HX|].
  rewrite H3, E2, E1 by auto. reflexivity.
Qed.
End Matrices.
