(** * The equations of soil and column, from their matrix form *)
From Coq Require Import Reals List Arith ZArith Lia Lra Bool Sorted.
From Coquelicot Require Import Coquelicot.
From Verif Require Import Base PiecewiseModel LayersModel SpecPiecewise SpecPiecewiseApi PolyLineModel SpecPolyLine PolyLineProofs7 SpectralModel SpecSpectral
  WrapModel SpecWrap PropsWrap LoadModel LoadTrigModel SpecLoad SpecSpeccon SpecconModel SpecconProofs SpecconProofs2 SpecconProofs3 SpecconProofs4 SpecconProofs5 SpecGalerkin SpecconProofs6 SpecconProofs7 SpecconProofs8 SpecconProofs9
  WellModel SpecWell WellProofs WellProofs2 WellProofs3 ColumnModel SpecColumn ColumnProofs.
Import ListNotations.
Open Scope R_scope.
Local Notation entry := SpecSpectral.entry.
Local Notation RI f := (RInt f 0 1).

Section ColumnMatrices.
Variables (W : cproblem) (ph : physics) (co : column) (T0 : R) (m : list R).
Let P := cbase W.
Let B := frame P.
Let n := neig P.
Hypothesis HW : represents_column T0 W ph co.
Hypothesis Em : make_m P = Ok m.
Hypothesis Hn : (1 <= n)%nat.
Hypothesis Hd : dT P <> 0.
Let phi (k : nat) (z : R) := sin (nth k m 0 * z).
Let dphi (k : nat) (z : R) := nth k m 0 * cos (nth k m 0 * z).
Let st : R := if Z.eqb (drn P) 1 then 0 else -1.
Definition KV (k : R -> R) i j : R := RI (fun z => k z * dphi i z * dphi j z).
Definition KX (x : R -> R) i j : R := RI (fun z => x z * phi i z * phi j z).
Definition tht (k : R -> R) (bottom : R) i : R := st * bottom * phi i 1 - RI (fun z => k z * st * dphi i z).
Definition thb (k : R -> R) (bottom : R) i : R := 1 * bottom * phi i 1 - RI (fun z => k z * 1 * dphi i z).

Lemma HF : represents T0 B ph. Proof using HW. exact (proj1 HW). Qed.
Lemma csep l : (forall p, In p l -> In p [ckv W; ckh W; cet W; ckvc W; ckhc W] \/ In p (profiles B)) -> well_separated l.
Proof using HW.
  intros H. destruct HW as (_ & S & _). eapply sep_from; [exact S|]. intros p x Hp Hx. exists p. split; auto. apply in_or_app. auto.
Qed.
Lemma psi_vertical_ok d k f : depth_profile 0 1 k f -> square n (psi_vertical P m d k) /\ forall i j, (i < n)%nat -> (j < n)%nat ->
  is_RInt (fun z => f z * dphi i z * dphi j z) 0 1 (KV f i j) /\ dT P * cell (psi_vertical P m d k) i j = - (d * KV f i j).
Proof using Em Hn Hd.
  intros Pk. destruct (m_facts P m Em Hn) as (L & _ & Ev & _). fold n in L. split; [apply table_square|]. intros i j Hi Hj.
  assert (X : is_RInt (fun z => f z * dphi i z * dphi j z) 0 1 (- cell (pdim1sin_D_aDf_linear (pim P) m k) i j)).
  { pose proof (C97_D_aDf (pim P) m 0 1 k f i j Pk Ev ltac:(lia) ltac:(lia)) as X.
    apply (RInt_mull _ 0 1 (-1)) in X. eapply RInt_eq; [exact X| |].
    - intros z. cbv beta. unfold dphi. ring.
    - change (cell (pdim1sin_D_aDf_linear (pim P) m k) i j) with (entry (pdim1sin_D_aDf_linear (pim P) m k) i j). ring. }
  pose proof (is_unique _ _ _ _ X) as U. unfold KV. rewrite U. split; [exact X|].
  unfold psi_vertical. cbv zeta. fold n. rewrite cell_table by auto. field. auto.
Qed.
Lemma psi_sh_ok : exists psi_sh, make_psi_sh W m = Ok psi_sh /\ square n psi_sh /\ forall i j, (i < n)%nat -> (j < n)%nat ->
  is_RInt (fun z => s_kh co z * s_et co z * phi i z * phi j z) 0 1 (KX (fun z => s_kh co z * s_et co z) i j) /\
  dT P * cell psi_sh i j = s_dh co * KX (fun z => s_kh co z * s_et co z) i j.
Proof using HW Em Hn Hd.
  destruct (m_facts P m Em Hn) as (L & _ & Ev & _). pose proof HW as (_ & _ & _ & Pk & Pe & _ & _ & _ & _ & _ & Ed & _). fold n in L.
  assert (W2 : well_separated [ckh W; cet W]) by (apply csep; intros p [<-|[<-|[]]]; left; cbn; auto).
  destruct (C97_abf (pim P) m 0 1 (ckh W) (cet W) (s_kh co) (s_et co) Pk Pe W2 Ev) as (A & EA & HA).
  assert (EC : exists q, polyline_make_x_common [ckh W; cet W] = Ok q).
  { unfold pdim1sin_abf_linear, common2 in EA. destruct (polyline_make_x_common [ckh W; cet W]) as [q|]; [exists q; auto|discriminate]. }
  destruct EC as (q & EC). unfold make_psi_sh. rewrite EC. cbn [bind]. fold P. rewrite EA. cbn [bind]. eexists. split; [reflexivity|]. split; [apply table_square|].
  intros i j Hi Hj. assert (X : is_RInt (fun z => s_kh co z * s_et co z * phi i z * phi j z) 0 1 (cell A i j)) by (apply HA; lia).
  pose proof (is_unique _ _ _ _ X) as U. unfold KX. rewrite U. split; [exact X|]. fold n. rewrite cell_table by auto. rewrite Ed. field. auto.
Qed.
Lemma psi_ch_ok : square n (make_psi_ch W m) /\ forall i j, (i < n)%nat -> (j < n)%nat ->
  is_RInt (fun z => c_kh co z * phi i z * phi j z) 0 1 (KX (c_kh co) i j) /\ dT P * cell (make_psi_ch W m) i j = c_dh co * KX (c_kh co) i j.
Proof using HW Em Hn Hd.
  destruct (m_facts P m Em Hn) as (L & _ & Ev & _). pose proof HW as (_ & _ & _ & _ & _ & _ & Pk & _ & _ & _ & _ & _ & Ed & _). fold n in L.
  split; [apply table_square|]. intros i j Hi Hj.
  assert (X : is_RInt (fun z => c_kh co z * phi i z * phi j z) 0 1 (cell (pdim1sin_af_linear (pim P) m (ckhc W)) i j)) by (apply (C97_af (pim P) m 0 1 (ckhc W) (c_kh co)); auto; lia).
  pose proof (is_unique _ _ _ _ X) as U. unfold KX. rewrite U. split; [exact X|]. unfold make_psi_ch. cbv zeta. fold P n. rewrite cell_table by auto. rewrite Ed. field. auto.
Qed.

Lemma weighted_sum n' (g : R -> R) (f : nat -> R -> R) (K c : nat -> R) : (forall j, (j < n')%nat -> is_RInt (fun z => g z * f j z) 0 1 (K j)) ->
  is_RInt (fun z => g z * Sg n' (fun j => c j * f j z)) 0 1 (Sg n' (fun j => K j * c j)).
Proof using.
  intros H. eapply RInt_eq; [apply (Sg_RInt n' (fun j z => c j * (g z * f j z)) (fun j => c j * K j))| |].
  - intros j Hj. apply RInt_mull. auto.
  - intros z. cbv beta. rewrite <- Sg_scal. apply Sg_ext. intros; ring.
  - apply Sg_ext. intros; ring.
Qed.
Lemma vertical_ok f bottom (b : nat -> R) pt pb pz i : (i < n)%nat ->
  (forall j, (j < n)%nat -> is_RInt (fun z => f z * dphi i z * dphi j z) 0 1 (KV f i j)) ->
  ex_RInt (fun z => f z * st * dphi i z) 0 1 -> ex_RInt (fun z => f z * 1 * dphi i z) 0 1 ->
  (forall z, pz z = Sg n (fun j => b j * dphi j z) + pt * st + pb) ->
  vertical m f bottom pz i (Sg n (fun j => KV f i j * b j) - (tht f bottom i * pt + thb f bottom i * pb)).
Proof using Em Hn.
  intros Hi HK I1 I2 E. destruct (m_facts P m Em Hn) as (_ & _ & _ & _ & Hb).
  pose proof (weighted_sum n (fun z => f z * dphi i z) dphi (fun j => KV f i j) b HK) as X1.
  pose proof (RInt_mulr _ 0 1 pt _ (RI_is _ I1)) as X2. pose proof (RInt_mulr _ 0 1 pb _ (RI_is _ I2)) as X3.
  eexists. split.
  - eapply RInt_eq; [exact (RInt_add _ _ _ _ _ _ (RInt_add _ _ _ _ _ _ X1 X2) X3)| |reflexivity].
    intros z. cbv beta. rewrite E. unfold dphi. ring.
  - rewrite E. change (sin (nth i m 0 * 1)) with (phi i 1).
    assert (B0 : Sg n (fun j => b j * dphi j 1) * phi i 1 = 0).
    { rewrite Rmult_comm, <- Sg_scal. rewrite (Sg_ext n _ (fun _ => 0)); [apply Sg_zero|]. intros j Hj. pose proof (Hb i j Hi Hj) as E'.
      change (dphi j 1 * phi i 1 = 0) in E'. replace (phi i 1 * (b j * dphi j 1)) with (b j * (dphi j 1 * phi i 1)) by ring. rewrite E'. ring. }
    unfold tht, thb. replace (bottom * (Sg n (fun j => b j * dphi j 1) + pt * st + pb) * phi i 1)
      with (bottom * (Sg n (fun j => b j * dphi j 1) * phi i 1) + bottom * (pt * st + pb) * phi i 1) by ring.
    rewrite B0. match goal with |- ?u = ?v => change (@eq R u v) end. ring.
Qed.
Lemma radial_ok x (b d : nat -> R) p q i : (i < n)%nat -> (forall j, (j < n)%nat -> is_RInt (fun z => x z * phi i z * phi j z) 0 1 (KX x i j)) ->
  (forall z, p z - q z = Sg n (fun j => (b j - d j) * phi j z)) -> radial m x p q i (Sg n (fun j => KX x i j * b j) - Sg n (fun j => KX x i j * d j)).
Proof using.
  intros Hi HK E. pose proof (weighted_sum n (fun z => x z * phi i z) phi (fun j => KX x i j) (fun j => b j - d j) HK) as X1.
  eapply RInt_eq; [exact X1| |].
  - intros z. cbv beta. rewrite E. unfold phi. ring.
  - match goal with |- ?u = ?v => change (@eq R u v) end. rewrite <- Sg_minus. apply Sg_ext. intros; ring.
Qed.

(** The equations, from their matrix form. *)
Variables (sv sh cv ch : list (list R)).
Hypothesis Hsv : forall i j, (i < n)%nat -> (j < n)%nat -> is_RInt (fun z => s_k co z * dphi i z * dphi j z) 0 1 (KV (s_k co) i j) /\ dT P * cell sv i j = - (s_dv co * KV (s_k co) i j).
Hypothesis Hcv : forall i j, (i < n)%nat -> (j < n)%nat -> is_RInt (fun z => c_k co z * dphi i z * dphi j z) 0 1 (KV (c_k co) i j) /\ dT P * cell cv i j = - (c_dv co * KV (c_k co) i j).
Hypothesis Hsh : forall i j, (i < n)%nat -> (j < n)%nat -> is_RInt (fun z => s_kh co z * s_et co z * phi i z * phi j z) 0 1 (KX (fun z => s_kh co z * s_et co z) i j) /\
  dT P * cell sh i j = s_dh co * KX (fun z => s_kh co z * s_et co z) i j.
Hypothesis Hch : forall i j, (i < n)%nat -> (j < n)%nat -> is_RInt (fun z => c_kh co z * phi i z * phi j z) 0 1 (KX (c_kh co) i j) /\ dT P * cell ch i j = c_dh co * KX (c_kh co) i j.
Hypothesis Hxs : forall i, (i < n)%nat -> ex_RInt (fun z => s_k co z * st * dphi i z) 0 1 /\ ex_RInt (fun z => s_k co z * 1 * dphi i z) 0 1.
Hypothesis Hxc : forall i, (i < n)%nat -> ex_RInt (fun z => c_k co z * st * dphi i z) 0 1 /\ ex_RInt (fun z => c_k co z * 1 * dphi i z) 0 1.
Let al := share co.
Let ap (M : list (list R)) (x : nat -> R) (i : nat) : R := Sg n (fun j => cell M i j * x j).
Definition ths (pt pb : R) i := tht (s_k co) (s_bottom co) i * pt + thb (s_k co) (s_bottom co) i * pb.
Definition thc (pt pb : R) i := tht (c_k co) (c_bottom co) i * pt + thb (c_k co) (c_bottom co) i * pb.
(** what drives the difference of the pressures in soil and column *)
Definition drive (pt pb : R) i := (s_dv co * ths pt pb i - c_dv co * thc pt pb i) / dT P.
Definition loss (pt pb : R) (us uc : nat -> R) i : R :=
  - dT P * ((1 - al) * ap sv us i + al * ap cv uc i) - ((1 - al) * (s_dv co * ths pt pb i) + al * (c_dv co * thc pt pb i)).
Lemma scaled d K M x i : (forall j, (j < n)%nat -> dT P * cell M i j = d * K i j) -> dT P * ap M x i = d * Sg n (fun j => K i j * x j).
Proof using. intros H. unfold ap. rewrite <- !Sg_scal. apply Sg_ext. intros j Hj. rewrite <- Rmult_assoc, H by auto. ring. Qed.
Lemma together_ok (us uc ui : nat -> R) pt pb ps psz pc pcz pi i : (i < n)%nat ->
  (ap sh us i - ap sv us i) - (ap ch uc i - ap cv uc i) + (ap ch ui i - ap sh ui i) = drive pt pb i ->
  (ap sh us i - al * ap sv us i) + al * ap cv uc i - ap sh ui i = al * drive pt pb i ->
  (forall z, psz z = Sg n (fun j => us j * dphi j z) + pt * st + pb) -> (forall z, pcz z = Sg n (fun j => uc j * dphi j z) + pt * st + pb) ->
  (forall z, ps z - pi z = Sg n (fun j => (us j - ui j) * phi j z)) -> (forall z, pc z - pi z = Sg n (fun j => (uc j - ui j) * phi j z)) ->
  together co m ps psz pc pcz pi i (loss pt pb us uc i).
Proof using Em Hn Hd Hsv Hcv Hsh Hch Hxs Hxc.
  intros Hi E1 E2 Es Ec Fs Fc. destruct (Hxs i Hi) as (Ys1 & Ys2). destruct (Hxc i Hi) as (Yc1 & Yc2).
  do 4 eexists. split; [apply (vertical_ok (s_k co) (s_bottom co) us pt pb); auto; intros; apply Hsv; auto|].
  split; [apply (radial_ok _ us ui); auto; intros; apply Hsh; auto|].
  split; [apply (vertical_ok (c_k co) (c_bottom co) uc pt pb); auto; intros; apply Hcv; auto|].
  split; [apply (radial_ok _ uc ui); auto; intros; apply Hch; auto|].
  pose proof (fun x => scaled (- s_dv co) (KV (s_k co)) sv x i ltac:(intros j Hj; rewrite (proj2 (Hsv i j Hi Hj)); ring)) as Q1.
  pose proof (fun x => scaled (- c_dv co) (KV (c_k co)) cv x i ltac:(intros j Hj; rewrite (proj2 (Hcv i j Hi Hj)); ring)) as Q2.
  pose proof (fun x => scaled (s_dh co) (KX (fun z => s_kh co z * s_et co z)) sh x i ltac:(intros j Hj; rewrite (proj2 (Hsh i j Hi Hj)); ring)) as Q3.
  pose proof (fun x => scaled (c_dh co) (KX (c_kh co)) ch x i ltac:(intros j Hj; rewrite (proj2 (Hch i j Hi Hj)); ring)) as Q4.
  assert (Dr : dT P * drive pt pb i = s_dv co * ths pt pb i - c_dv co * thc pt pb i) by (unfold drive; field; auto).
  apply (f_equal (Rmult (dT P))) in E1, E2.
  assert (E1' : (dT P * ap sh us i - dT P * ap sv us i) - (dT P * ap ch uc i - dT P * ap cv uc i) + (dT P * ap ch ui i - dT P * ap sh ui i) = dT P * drive pt pb i) by (rewrite <- E1; ring).
  assert (E2' : (dT P * ap sh us i - al * (dT P * ap sv us i)) + al * (dT P * ap cv uc i) - dT P * ap sh ui i = al * (dT P * drive pt pb i)) by (transitivity (dT P * (al * drive pt pb i)); [rewrite <- E2; ring|ring]).
  rewrite Q1, Q2, !Q3, !Q4, Dr in E1'. rewrite Q1, Q2, !Q3, Dr in E2'.
  unfold loss. replace (- dT P * ((1 - al) * ap sv us i + al * ap cv uc i)) with (- ((1 - al) * (dT P * ap sv us i) + al * (dT P * ap cv uc i))) by ring. rewrite Q1, Q2.
  set (a1 := Sg n (fun j => KV (s_k co) i j * us j)) in *. set (a2 := Sg n (fun j => KV (c_k co) i j * uc j)) in *.
  set (a3 := Sg n (fun j => KX (fun z => s_kh co z * s_et co z) i j * us j)) in *. set (a4 := Sg n (fun j => KX (fun z => s_kh co z * s_et co z) i j * ui j)) in *.
  set (a5 := Sg n (fun j => KX (c_kh co) i j * uc j)) in *. set (a6 := Sg n (fun j => KX (c_kh co) i j * ui j)) in *.
  fold (ths pt pb i) (thc pt pb i). set (t1 := ths pt pb i) in *. set (t2 := thc pt pb i) in *.
  clearbody a1 a2 a3 a4 a5 a6 t1 t2.
  change (share co) with al.
  assert (G : (1 - al) * (s_dh co * (a3 - a4)) + al * (c_dh co * (a5 - a6)) = 0).
  { replace ((1 - al) * (s_dh co * (a3 - a4)) + al * (c_dh co * (a5 - a6))) with
      ((s_dh co * a3 - al * (- s_dv co * a1) + al * (- c_dv co * a2) - s_dh co * a4) - al * ((s_dh co * a3 - - s_dv co * a1) - (c_dh co * a5 - - c_dv co * a2) + (c_dh co * a6 - s_dh co * a4))) by ring.
    rewrite E1', E2'. ring. }
  repeat split; [| |exact G].
  - replace (s_dv co * (a1 - t1) + s_dh co * (a3 - a4)) with
      ((- ((1 - al) * (- s_dv co * a1) + al * (- c_dv co * a2)) - ((1 - al) * (s_dv co * t1) + al * (c_dv co * t2))) +
       ((s_dh co * a3 - al * (- s_dv co * a1) + al * (- c_dv co * a2) - s_dh co * a4) - al * (s_dv co * t1 - c_dv co * t2))) by ring.
    rewrite E2'. ring.
  - replace (c_dv co * (a2 - t2) + c_dh co * (a5 - a6)) with
      ((- ((1 - al) * (- s_dv co * a1) + al * (- c_dv co * a2)) - ((1 - al) * (s_dv co * t1) + al * (c_dv co * t2))) +
       ((s_dh co * a3 - al * (- s_dv co * a1) + al * (- c_dv co * a2) - s_dh co * a4) - al * (s_dv co * t1 - c_dv co * t2)) -
       ((s_dh co * a3 - - s_dv co * a1) - (c_dh co * a5 - - c_dv co * a2) + (c_dh co * a6 - s_dh co * a4) - (s_dv co * t1 - c_dv co * t2))) by ring.
    rewrite E1', E2'. ring.
Qed.
End ColumnMatrices.
