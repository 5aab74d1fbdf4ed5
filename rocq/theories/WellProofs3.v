(** * The weak form of the consolidation equation with well resistance *)
From Coq Require Import Reals List Arith ZArith Lia Lra Bool Sorted.
From Coquelicot Require Import Coquelicot.
From Verif Require Import Base PiecewiseModel LayersModel SpecPiecewise SpecPiecewiseApi PolyLineModel SpecPolyLine PolyLineProofs2 PolyLineProofs6 PolyLineProofs7 PolyLineProofs4 SpectralModel SpecSpectral
  WrapModel SpecWrap PropsWrap LoadModel LoadTrigModel SpecLoad SpecSpeccon SpecconModel SpecconProofs SpecconProofs2 SpecconProofs3 SpecconProofs4 SpecconProofs5 SpecGalerkin SpecconProofs6 SpecconProofs7 SpecconProofs8 SpecconProofs9 WellModel SpecWell WellProofs WellProofs2.
Import ListNotations.
Open Scope R_scope.
Local Notation entry := SpecSpectral.entry.
Local Notation RI f := (RInt f 0 1).

(** ** Elimination of the drain *)
Section Elimination.
Variables (n : nat) (S N Wm : nat -> nat -> R).
Hypothesis HN : forall i j, (i < n)%nat -> (j < n)%nat -> Sg n (fun k => Wm i k * N k j) = if Nat.eqb i j then 1 else 0.
Lemma solve_drain (y : nat -> R) i : (i < n)%nat -> Sg n (fun j => Wm i j * Sg n (fun k => N j k * y k)) = y i.
Proof using HN.
  intros Hi. rewrite <- (massoc n (Wm i) y N). rewrite (Sg_ext n _ (fun k => (if Nat.eqb i k then 1 else 0) * y k)) by (intros k Hk; rewrite HN; auto).
  apply Sg_pick; auto.
Qed.
Lemma two_products (a : nat -> R) i : Sg n (fun p => S i p * Sg n (fun k => N p k * Sg n (fun l => S k l * a l))) =
  Sg n (fun l => Sg n (fun k => Sg n (fun p => S i p * N p k) * S k l) * a l).
Proof using.
  rewrite (massoc n (fun k => Sg n (fun p => S i p * N p k)) a S). rewrite <- (massoc n (S i) (fun k => Sg n (fun l => S k l * a l)) N). reflexivity.
Qed.
End Elimination.

Section WellWeak.
Variables (W : wproblem) (ph : physics) (dr : drain) (T0 : R) (m : list R).
Let B := bare (soil W).
Let P := soil W.
Let n := neig P.
Hypothesis HW : represents_well T0 W ph dr.
Hypothesis Em : make_m P = Ok m.
Hypothesis Hn : (1 <= n)%nat.
Hypothesis HH : Hh P <> 0.
Hypothesis Hd : dT P <> 0.
Let phi (k : nat) (z : R) := sin (nth k m 0 * z).
Let dphi (k : nat) (z : R) := nth k m 0 * cos (nth k m 0 * z).
Let st : R := if Z.eqb (drn P) 1 then 0 else -1.
Let kx := KX dr m.
Let kwm := KW dr m.
Hypothesis HKX : forall i j, (i < n)%nat -> (j < n)%nat -> is_RInt (fun z => f_dkh dr z * f_det dr z * phi i z * phi j z) 0 1 (kx i j).
Hypothesis HKW : forall i j, (i < n)%nat -> (j < n)%nat -> is_RInt (fun z => f_kw dr z * dphi i z * dphi j z) 0 1 (kwm i j).
Let tT l := st * kw_bottom dr * phi l 1 - RI (fun z => f_kw dr z * st * dphi l z).
Let tB l := 1 * kw_bottom dr * phi l 1 - RI (fun z => f_kw dr z * 1 * dphi l z).
Hypothesis Hex : forall k, (k < n)%nat -> ex_RInt (fun z => f_kw dr z * st * dphi k z) 0 1 /\ ex_RInt (fun z => f_kw dr z * 1 * dphi k z) 0 1.
Let th k t := tT k * p_top ph t + tB k * p_bot ph t.
Variables (S Wm : nat -> nat -> R).
Hypothesis HS : forall i j, (i < n)%nat -> (j < n)%nat -> dT P * S i j = d_dh dr * kx i j.
Hypothesis HWm : forall i j, (i < n)%nat -> (j < n)%nat -> dT P * Wm i j = d_w dr * kwm i j + d_dh dr * kx i j.

Lemma pore_diff a b z t : pore B ph m a z t - pore B ph m b z t = Sg n (fun j => (a j t - b j t) * phi j z).
Proof using Em Hn.
  unfold pore, pressure, series. destruct (m_facts P m Em Hn) as (L & _). rewrite L. fold n.
  rewrite (Sg_ext n (fun j => (a j t - b j t) * phi j z) (fun j => a j t * phi j z - b j t * phi j z)) by (intros; ring). rewrite Sg_minus. unfold Sg, phi. ring.
Qed.
Lemma weighted_sum (g : R -> R) (f : nat -> R -> R) (K c : nat -> R) : (forall j, (j < n)%nat -> is_RInt (fun z => g z * f j z) 0 1 (K j)) ->
  is_RInt (fun z => g z * Sg n (fun j => c j * f j z)) 0 1 (Sg n (fun j => K j * c j)).
Proof using.
  intros H. eapply RInt_eq; [apply (Sg_RInt n (fun j z => c j * (g z * f j z)) (fun j => c j * K j))| |].
  - intros j Hj. apply RInt_mull. auto.
  - intros z. cbv beta. rewrite <- Sg_scal. apply Sg_ext. intros; ring.
  - apply Sg_ext. intros; ring.
Qed.
Lemma exchange_ok a b i t : (i < n)%nat -> exchange B ph dr m a b i t (Sg n (fun j => kx i j * (a j t - b j t))).
Proof using Em Hn HKX.
  intros Hi. unfold exchange.
  pose proof (weighted_sum (fun z => f_dkh dr z * f_det dr z * phi i z) (fun j z => phi j z) (fun j => kx i j) (fun j => a j t - b j t) ltac:(intros j Hj; cbv beta; apply HKX; auto)) as X.
  eapply RInt_eq; [exact X| |reflexivity]. intros z. cbv beta. rewrite pore_diff. unfold phi. ring.
Qed.
Lemma pore_z_bare b z t : pore_z B ph m b z t = Sg n (fun j => b j t * dphi j z) + p_top ph t * st + p_bot ph t.
Proof using Em Hn. unfold pore_z. destruct (m_facts P m Em Hn) as (L & _). rewrite L. reflexivity. Qed.
(** The drain equation, from its matrix form. *)
Lemma drain_ok a b i t : (i < n)%nat -> Sg n (fun j => Wm i j * b j t) = Sg n (fun j => S i j * a j t) + d_w dr / dT P * th i t ->
  drain_balanced B ph dr m a b i t.
Proof using Em Hn Hd HKX HKW Hex HS HWm.
  intros Hi E. destruct (m_facts P m Em Hn) as (_ & _ & _ & _ & Hb). destruct (Hex i Hi) as (I1 & I2).
  pose proof (weighted_sum (fun z => f_kw dr z * dphi i z) dphi (fun j => kwm i j) (fun j => b j t) ltac:(intros j Hj; cbv beta; apply HKW; auto)) as X1.
  pose proof (RInt_mulr _ 0 1 (p_top ph t) _ (RI_is _ I1)) as X2. pose proof (RInt_mulr _ 0 1 (p_bot ph t) _ (RI_is _ I2)) as X3.
  eexists. eexists. split; [|split; [apply (exchange_ok a b i t Hi)|]].
  - eapply RInt_eq; [exact (RInt_add _ _ _ _ _ _ (RInt_add _ _ _ _ _ _ X1 X2) X3)| |reflexivity].
    intros z. cbv beta. rewrite pore_z_bare. unfold dphi. ring.
  - rewrite pore_z_bare. change (sin (nth i m 0 * 1)) with (phi i 1).
    assert (B0 : Sg n (fun j => b j t * dphi j 1) * phi i 1 = 0).
    { rewrite Rmult_comm, <- Sg_scal. rewrite (Sg_ext n _ (fun _ => 0)); [apply Sg_zero|]. intros j Hj. pose proof (Hb i j Hi Hj) as E'.
      change (dphi j 1 * phi i 1 = 0) in E'. replace (phi i 1 * (b j t * dphi j 1)) with (b j t * (dphi j 1 * phi i 1)) by ring. rewrite E'. ring. }
    replace (kw_bottom dr * (Sg n (fun j => b j t * dphi j 1) + p_top ph t * st + p_bot ph t) * phi i 1)
      with (kw_bottom dr * (Sg n (fun j => b j t * dphi j 1) * phi i 1) + kw_bottom dr * (p_top ph t * st + p_bot ph t) * phi i 1) by ring.
    rewrite B0.
    assert (E1 : dT P * Sg n (fun j => Wm i j * b j t) = d_w dr * Sg n (fun j => kwm i j * b j t) + d_dh dr * Sg n (fun j => kx i j * b j t)).
    { rewrite <- !Sg_scal, <- Sg_plus. apply Sg_ext. intros j Hj. rewrite <- Rmult_assoc, HWm by auto. ring. }
    assert (E2 : dT P * Sg n (fun j => S i j * a j t) = d_dh dr * Sg n (fun j => kx i j * a j t)).
    { rewrite <- !Sg_scal. apply Sg_ext. intros j Hj. rewrite <- Rmult_assoc, HS by auto. ring. }
    assert (E3 : dT P * (d_w dr / dT P * th i t) = d_w dr * th i t) by (field; auto).
    rewrite (Sg_ext n (fun j => kx i j * (a j t - b j t)) (fun j => kx i j * a j t - kx i j * b j t)) by (intros; ring). rewrite Sg_minus.
    apply (f_equal (Rmult (dT P))) in E. rewrite Rmult_plus_distr_l, E1, E2, E3 in E. unfold th, tT, tB in E. lra.
Qed.
(** The response of the drain to one mode. *)
Lemma entry_ok (w : nat -> R) i j x0 : (i < n)%nat -> (j < n)%nat -> (forall k, (k < n)%nat -> Sg n (fun l => Wm k l * w l) = S k j) -> outflow_entry B ph m i j x0 ->
  well_entry B ph dr m n i j (x0 + (S i j - Sg n (fun p => S i p * w p))).
Proof using Em Hn Hd HKX HKW HS HWm.
  intros Hi Hj Ew H0.
  assert (Y : forall k, (k < n)%nat -> is_RInt (fun z => f_dkh dr z * f_det dr z * (phi j z - sum n (fun l => w l * phi l z)) * phi k z) 0 1 (kx k j - Sg n (fun l => kx k l * w l))).
  { intros k Hk. pose proof (weighted_sum (fun z => f_dkh dr z * f_det dr z * phi k z) (fun j z => phi j z) (fun j => kx k j) w ltac:(intros; cbv beta; apply HKX; auto)) as X.
    pose proof (RInt_add _ _ _ _ _ _ (HKX k j Hk Hj) (RInt_mull _ _ _ (-1) _ X)) as X'. eapply RInt_eq; [exact X'| |match goal with |- ?u = ?v => change (@eq R u v) end; cbv beta; ring].
    intros z. cbv beta. change (sum n (fun l => w l * phi l z)) with (Sg n (fun l => w l * phi l z)). ring. }
  exists x0, w, (kx i j - Sg n (fun l => kx i l * w l)). split; [exact H0|]. split; [|split; [apply (Y i Hi)|]].
  - intros k Hk. exists (Sg n (fun l => kwm k l * w l)), (kx k j - Sg n (fun l => kx k l * w l)). split; [|split; [apply (Y k Hk)|]].
    + pose proof (weighted_sum (fun z => f_kw dr z * dphi k z) dphi (fun l => kwm k l) w ltac:(intros; cbv beta; apply HKW; auto)) as X.
      eapply RInt_eq; [exact X| |reflexivity]. intros z. cbv beta. change (f_kw dr z * dphi k z * Sg n (fun j => w j * dphi j z) = f_kw dr z * Sg n (fun j => w j * dphi j z) * dphi k z). ring.
    + pose proof (Ew k Hk) as E. apply (f_equal (Rmult (dT P))) in E. rewrite (HS k j Hk Hj), <- Sg_scal in E.
      rewrite (Sg_ext n _ (fun l => d_w dr * (kwm k l * w l) + d_dh dr * (kx k l * w l))) in E by (intros l Hl; rewrite <- Rmult_assoc, HWm by auto; ring).
      rewrite Sg_plus, !Sg_scal in E. lra.
  - change (dT B) with (dT P). rewrite Rmult_plus_distr_l, Rmult_minus_distr_l, (HS i j Hi Hj), <- Sg_scal.
    rewrite (Sg_ext n _ (fun l => d_dh dr * (kx i l * w l))) by (intros l Hl; rewrite <- Rmult_assoc, HS by auto; ring). rewrite Sg_scal. ring.
Qed.
End WellWeak.
