(** * Matrices of the spectral program with well resistance *)
From Coq Require Import Reals List Arith ZArith Lia Lra Bool Sorted.
From Coquelicot Require Import Coquelicot.
From Verif Require Import Base PiecewiseModel LayersModel SpecPiecewise SpecPiecewiseApi PolyLineModel SpecPolyLine PolyLineProofs2 PolyLineProofs6 PolyLineProofs7 PolyLineProofs4 SpectralModel SpecSpectral
  WrapModel SpecWrap PropsWrap LoadModel LoadTrigModel SpecLoad SpecSpeccon SpecconModel SpecconProofs SpecconProofs2 SpecconProofs3 SpecconProofs4 SpecconProofs5 SpecGalerkin SpecconProofs6 SpecconProofs7 SpecconProofs8 SpecconProofs9 WellModel SpecWell.
Import ListNotations.
Open Scope R_scope.
Local Notation entry := SpecSpectral.entry.
Local Notation RI f := (RInt f 0 1).

Section WellMatrices.
Variables (W : wproblem) (ph : physics) (dr : drain) (T0 : R) (m : list R).
Let B := bare (soil W).
Let P := soil W.
Let n := neig P.
Hypothesis HW : represents_well T0 W ph dr.
Hypothesis Em : make_m P = Ok m.
Hypothesis Hn : (1 <= n)%nat.
Hypothesis Hd : dT P <> 0.
Let phi (k : nat) (z : R) := sin (nth k m 0 * z).
Let dphi (k : nat) (z : R) := nth k m 0 * cos (nth k m 0 * z).
Definition KX i j : R := RI (fun z => f_dkh dr z * f_det dr z * phi i z * phi j z).
Definition KW i j : R := RI (fun z => f_kw dr z * dphi i z * dphi j z).

Lemma HB : represents T0 B ph. Proof using HW. exact (proj1 HW). Qed.
Lemma EmB : make_m B = Ok m. Proof using Em. exact Em. Qed.
Lemma wsep l : (forall p, In p l -> In p [wkh W; wet W; wkw W] \/ In p (profiles B)) -> well_separated l.
Proof using HW.
  intros H. destruct HW as (_ & S & _). eapply sep_from; [exact S|]. intros p x Hp Hx. exists p. split; auto. apply in_or_app. auto.
Qed.
Lemma is_unique (f : R -> R) a b I : is_RInt f a b I -> RInt f a b = I.
Proof using. intros H. apply (is_RInt_unique (V := R_CompleteNormedModule)). exact H. Qed.
Lemma psi_s_ok : exists psi_s, make_psi_s W m = Ok psi_s /\ square n psi_s /\
  forall i j, (i < n)%nat -> (j < n)%nat -> is_RInt (fun z => f_dkh dr z * f_det dr z * phi i z * phi j z) 0 1 (KX i j) /\ dT P * cell psi_s i j = d_dh dr * KX i j.
Proof using HW Em Hn Hd.
  destruct (m_facts P m Em Hn) as (L & _ & Ev & _). pose proof HW as (_ & _ & Pk & Pe & _ & _ & Ed & _). fold n in L.
  assert (W2 : well_separated [wkh W; wet W]) by (apply wsep; intros p [<-|[<-|[]]]; left; cbn; auto).
  destruct (C97_abf (pim P) m 0 1 (wkh W) (wet W) (f_dkh dr) (f_det dr) Pk Pe W2 Ev) as (A & EA & HA).
  assert (EC : exists q, polyline_make_x_common [wkh W; wet W] = Ok q).
  { unfold pdim1sin_abf_linear, common2 in EA. destruct (polyline_make_x_common [wkh W; wet W]) as [q|]; [exists q; auto|discriminate]. }
  destruct EC as (q & EC). unfold make_psi_s. rewrite EC. cbn [bind]. fold P. rewrite EA. cbn [bind]. eexists. split; [reflexivity|]. split; [apply table_square|].
  intros i j Hi Hj. assert (X : is_RInt (fun z => f_dkh dr z * f_det dr z * phi i z * phi j z) 0 1 (cell A i j)) by (apply HA; lia).
  pose proof (is_unique _ _ _ _ X) as U. unfold KX. rewrite U. split; [exact X|]. rewrite cell_table by auto. rewrite Ed. field. auto.
Qed.
Lemma psi_w_ok psi_s : square n psi_s -> (forall i j, (i < n)%nat -> (j < n)%nat -> dT P * cell psi_s i j = d_dh dr * KX i j) ->
  square n (make_psi_w W m psi_s) /\ forall i j, (i < n)%nat -> (j < n)%nat ->
    is_RInt (fun z => f_kw dr z * dphi i z * dphi j z) 0 1 (KW i j) /\ dT P * cell (make_psi_w W m psi_s) i j = d_w dr * KW i j + d_dh dr * KX i j.
Proof using HW Em Hn Hd.
  intros S1 H1. destruct (m_facts P m Em Hn) as (L & _ & Ev & _). pose proof HW as (_ & _ & _ & _ & Pk & _ & _ & Ed). fold n in L.
  unfold make_psi_w. cbv zeta. fold P n. split; [apply table_square|]. intros i j Hi Hj.
  assert (X : is_RInt (fun z => f_kw dr z * dphi i z * dphi j z) 0 1 (- cell (pdim1sin_D_aDf_linear (pim P) m (wkw W)) i j)).
  { pose proof (C97_D_aDf (pim P) m 0 1 (wkw W) (f_kw dr) i j Pk Ev ltac:(lia) ltac:(lia)) as X.
    apply (RInt_mull _ 0 1 (-1)) in X. eapply RInt_eq; [exact X| |].
    - intros z. cbv beta. unfold dphi. ring.
    - change (cell (pdim1sin_D_aDf_linear (pim P) m (wkw W)) i j) with (entry (pdim1sin_D_aDf_linear (pim P) m (wkw W)) i j). ring. }
  pose proof (is_unique _ _ _ _ X) as U. unfold KW. rewrite U. split; [exact X|].
  unfold zero_table. rewrite !cell_table by auto. rewrite Rmult_plus_distr_l, (H1 i j Hi Hj). rewrite Ed. field. auto.
Qed.
Lemma psi1_ok psi_s : square n (make_psi1 W m psi_s) /\
  forall i j, (i < n)%nat -> (j < n)%nat -> exists x0, outflow_entry B ph m i j x0 /\ cell (make_psi1 W m psi_s) i j = x0 + cell psi_s i j.
Proof using HW Em Hn Hd.
  destruct (m_facts P m Em Hn) as (L & _ & Ev & _). fold n in L. pose proof HB as (W' & _ & Hkv & Hkh & _ & _ & _ & _ & Lf & Ff & _).
  cbn [kh B bare] in Hkh. destruct Hkh as (Hkh & Het & Hdh). change (kv B) with (kv P) in Hkv. change (dTv B) with (dTv P) in Hkv. change (fixed_ppress B) with (fixed_ppress P) in Lf, Ff. change (fixed_ppress_omega_phase B) with (fixed_ppress_omega_phase P) in Lf, Ff.
  unfold make_psi1. cbv zeta. fold P n.
  assert (A1 : exists psi1, match kv P, dTv P with
             | Some k, Some d => table n n (fun i j => cell (zero_table n n) i j - d / dT P * cell (pdim1sin_D_aDf_linear (pim P) m k) i j)
             | _, _ => zero_table n n
             end = psi1 /\ forall i j, (i < n)%nat -> (j < n)%nat -> exists V,
     is_RInt (fun z => f_kv ph z * dphi i z * dphi j z) 0 1 V /\ dT P * cell psi1 i j = d_v ph * V).
  { eexists. split; [reflexivity|].
    destruct (kv P) as [k|]; [destruct (dTv P) as [d|]|].
    - destruct Hkv as (Pk & _ & ->). intros i j Hi Hj.
      exists (- cell (pdim1sin_D_aDf_linear (pim P) m k) i j). split.
      + pose proof (C97_D_aDf (pim P) m 0 1 k (f_kv ph) i j Pk Ev ltac:(lia) ltac:(lia)) as X.
        apply (RInt_mull _ 0 1 (-1)) in X. eapply RInt_eq; [exact X| |].
        * intros z. cbv beta. unfold dphi. ring.
        * change (cell (pdim1sin_D_aDf_linear (pim P) m k) i j) with (entry (pdim1sin_D_aDf_linear (pim P) m k) i j). ring.
      + unfold zero_table. rewrite !cell_table by auto. field. auto.
    - destruct Hkv as (E1 & ->). intros i j Hi Hj. exists 0. split; [apply zero_RInt; intros; rewrite E1; ring|].
      unfold zero_table. rewrite cell_table by auto. ring.
    - destruct Hkv as (E1 & ->). intros i j Hi Hj. exists 0. split; [apply zero_RInt; intros; rewrite E1; ring|].
      unfold zero_table. rewrite cell_table by auto. ring. }
  destruct A1 as (psi1 & -> & H1). set (psi2 := table n n (fun i j => cell psi1 i j + cell psi_s i j)).
  assert (S2 : square n psi2) by apply table_square.
  assert (A3 : square n (fixed_psi P m psi2) /\ forall i j, (i < n)%nat -> (j < n)%nat ->
    dT P * cell (fixed_psi P m psi2) i j = dT P * cell psi2 i j + fold_right Rplus 0 (map (fun f => snd (fst f) * phi i (fst (fst f)) * phi j (fst (fst f))) (f_fixed ph))).
  { assert (EF : forall i j, fold_right Rplus 0 (map (fun f => snd (fst f) * phi i (fst (fst f)) * phi j (fst (fst f))) (f_fixed ph)) =
      fold_right Rplus 0 (map (fun f => snd (fst f) * phi i (fst (fst f)) * phi j (fst (fst f))) (listed (fixed_ppress P)))).
    { intros i j. generalize dependent (modulations (length (listed (fixed_ppress P))) (fixed_ppress_omega_phase P)). generalize (listed (fixed_ppress P)).
      clear. intros l o Lo F. revert o Lo F. generalize (f_fixed ph). induction l as [|f l IH]; intros fs o Lo F; destruct o as [|x o]; cbn in Lo; try discriminate; cbn [combine] in F; inversion F as [|q g c gs (H1 & H2) F']; subst; [reflexivity|].
      cbn [map fold_right]. cbn [fst] in H1. rewrite <- H1. f_equal. apply (IH gs o); auto. }
    unfold fixed_psi. fold n. destruct (fixed_ppress P) as [l|]; cbn [listed] in EF.
    - destruct (fixed_fold P m l psi2 Hd S2) as (F1 & F2). split; [exact F1|]. intros i j Hi Hj. rewrite EF. apply F2; auto.
    - split; auto. intros i j Hi Hj. rewrite EF. cbn. ring. }
  destruct A3 as (S3 & H3). split; [exact S3|]. intros i j Hi Hj.
  exists (cell (fixed_psi P m psi2) i j - cell psi_s i j). split; [|ring].
  destruct (H1 i j Hi Hj) as (V & HV & E1). exists V, 0. split; [exact HV|]. split; [apply zero_RInt; intros; rewrite Hkh; ring|].
  change (dT B) with (dT P). rewrite Rmult_minus_distr_l, H3 by auto. unfold psi2. rewrite cell_table by auto. rewrite Rmult_plus_distr_l, E1, Hdh. unfold phi. ring.
Qed.
End WellMatrices.
