(** * Assembly: the coefficients computed by the program solve the weak form *)
From Coq Require Import Reals List Arith ZArith Lia Lra Bool Sorted.
From Coquelicot Require Import Coquelicot.
From Verif Require Import Base PiecewiseModel LayersModel SpecPiecewise SpecPiecewiseApi PolyLineModel SpecPolyLine SpectralModel SpecSpectral
  WrapModel SpecWrap LoadModel LoadTrigModel SpecLoad SpecSpeccon SpecconModel SpecconProofs SpecconProofs2 SpecconProofs4 SpecconProofs5 SpecGalerkin SpecconProofs6 SpecconProofs7 SpecconProofs8 PolyLineProofs7.
Import ListNotations.
Open Scope R_scope.

Lemma add_part_shape n nt c part acc A : add_part n nt c part acc = Ok A -> shape A n nt.
Proof. unfold add_part. destruct part as [B|]; cbn [bind]; [|discriminate]. intros H. injection H as <-. apply table_shape. Qed.
Lemma make_E_shape P m eigs tvals Igamv A : make_E_Igamv_the P m eigs tvals Igamv = Ok A -> shape A (neig P) (length tvals).
Proof.
  unfold make_E_Igamv_the. cbv zeta.
  assert (Z0 : shape (zero_table (neig P) (length tvals)) (neig P) (length tvals)) by apply table_shape.
  revert Z0. generalize (zero_table (neig P) (length tvals)). intros acc0 Z0.
  assert (Step : forall (r : result (list (list R))) (f : list (list R) -> result (list (list R))),
     (forall B, r = Ok B -> shape B (neig P) (length tvals)) -> (forall B, shape B (neig P) (length tvals) -> f B = Ok A -> shape A (neig P) (length tvals)) ->
     bind r f = Ok A -> shape A (neig P) (length tvals)).
  { intros [B|] f H1 H2; cbn [bind]; [|discriminate]. apply H2. auto. }
  apply Step; clear acc0 Z0 || idtac.
  { intros B. destruct (surcharge_vs_depth P), (surcharge_vs_time P); try (intros E; injection E as <-; auto; fail). apply add_part_shape. }
  intros acc1 Z1. apply Step.
  { intros B. destruct (vacuum_vs_depth P), (vacuum_vs_time P), (et P), (kh P), (dTh P) as [d|]; try (intros E; injection E as <-; auto; fail).
    destruct (Reqb d 0); [intros E; injection E as <-; auto|apply add_part_shape]. }
  intros acc2 Z2. apply Step.
  { intros B. destruct (top_vs_time P), (bot_vs_time P); try (intros E; injection E as <-; auto; fail); apply add_part_shape. }
  intros acc3 Z3. apply Step.
  { intros B. destruct (fixed_ppress P); [apply add_part_shape|intros E; injection E as <-; auto]. }
  intros acc4 Z4. destruct (pumping P); [apply add_part_shape|intros E; injection E as <-; auto].
Qed.

Section Assembly.
Variable inv : list (list R) -> result (list (list R)).
Variable eig : list (list R) -> result (list R * list (list R)).
Hypothesis Hinv : inverts inv.
Hypothesis Heg : diagonalises eig.
Variables (P : problem) (ph : physics) (T0 : R) (m eigs : list R) (v Igamv : list (list R)).
Let n := neig P.
Hypothesis HR : represents T0 P ph.
Hypothesis Hn : (1 <= n)%nat.
Hypothesis HH : Hh P <> 0.
Hypothesis Hv : mvref P <> 0.
Hypothesis Hd : dT P <> 0.
Hypothesis HI : time_independent inv eig P = Ok (m, eigs, v, Igamv).
Hypothesis Hnz0 : forall lam, In lam eigs -> lam <> 0.
Let phi (k : nat) (z : R) := sin (nth k m 0 * z).
Let dphi (k : nat) (z : R) := nth k m 0 * cos (nth k m 0 * z).
Local Notation RI f := (RInt f 0 1).
Let Gx i j : R := RI (fun z => f_mv ph z * phi i z * phi j z).
Let Px i j : R := (d_v ph * RI (fun z => f_kv ph z * dphi i z * dphi j z) + d_h ph * RI (fun z => f_kh ph z * f_et ph z * phi i z * phi j z)
  + fold_right Rplus 0 (map (fun f => snd (fst f) * phi i (fst (fst f)) * phi j (fst (fst f))) (f_fixed ph))) / dT P.

Lemma storage_unique i j x : storage_entry ph m i j x -> x = Gx i j.
Proof using. intros H. symmetry. apply (is_RInt_unique (V := R_CompleteNormedModule)). exact H. Qed.
Lemma outflow_unique i j x : outflow_entry P ph m i j x -> x = Px i j.
Proof using Hd.
  intros (V & X & HV & HX & E). apply (is_RInt_unique (V := R_CompleteNormedModule)) in HV. apply (is_RInt_unique (V := R_CompleteNormedModule)) in HX.
  unfold Px, phi, dphi. rewrite HV, HX. apply (Rmult_eq_reg_l (dT P)); auto. rewrite E. unfold phi. field. auto.
Qed.
(** What the program has computed before the loads are known. *)
Lemma pieces : exists gam psi ig, make_m P = Ok m /\ square n gam /\ square n psi /\ square n ig /\ square n v /\ square n Igamv /\ length eigs = n /\
  (forall i j, (i < n)%nat -> (j < n)%nat -> storage_entry ph m i j (Gx i j) /\ cell gam i j = cutv (Gx i j)) /\
  (forall i j, (i < n)%nat -> (j < n)%nat -> outflow_entry P ph m i j (Px i j) /\ cell psi i j = cutv (Px i j)) /\
  (forall i j, (i < n)%nat -> (j < n)%nat -> Sg n (fun k => cell gam i k * cell ig k j) = if Nat.eqb i j then 1 else 0) /\
  (forall i j, (i < n)%nat -> (j < n)%nat -> Sg n (fun k => Sg n (fun p => cell ig i p * cell psi p k) * cell v k j) = cell v i j * lam eigs j) /\
  (forall i j, (i < n)%nat -> (j < n)%nat -> Sg n (fun k => Sg n (fun p => cell gam i p * cell v p k) * cell Igamv k j) = if Nat.eqb i j then 1 else 0).
Proof using Hinv Heg HR Hn Hd HI.
  pose proof HI as E. unfold time_independent in E. destruct (make_m P) as [m'|] eqn:Em; cbn [bind] in E; [|discriminate].
  assert (E' := E). destruct (make_psi P m') as [psi|] eqn:Epsi; cbn [bind] in E; [|discriminate].
  unfold make_eigs_and_v in E. destruct (inv (make_gam P m')) as [ig|] eqn:Eig; cbn [bind] in E; [|discriminate].
  destruct (eig (dot_mm ig psi)) as [[w V]|] eqn:Ew; cbn [bind fst snd] in E; [|discriminate].
  destruct (inv (dot_mm (make_gam P m') V)) as [igv|] eqn:Eigv; cbn [bind] in E; [|discriminate].
  injection E as E1 E2 E3 E4. subst m' w V igv.
  pose proof (gam_square P m Em Hn) as SG. fold n in SG.
  destruct (psi_ok P ph T0 m HR Em Hn Hd) as (psi' & Ep & SP & CP). assert (psi' = psi) by congruence. subst psi'. fold n in SP.
  destruct (Hinv _ _ Eig) as (SI & HIc). rewrite (proj1 SG) in SI, HIc.
  destruct (Heg _ _ _ Ew) as (SV & Lw & HE). pose proof (square_dot n ig psi SI SP Hn) as SD. rewrite (proj1 SD) in SV, Lw, HE.
  destruct (Hinv _ _ Eigv) as (SN & HN). pose proof (square_dot n _ v SG SV Hn) as SD2. rewrite (proj1 SD2) in SN, HN.
  exists (make_gam P m), psi, ig. split; [reflexivity|]. do 6 (split; [assumption|]). split; [|split; [|split; [|split]]].
  - intros i j Hi Hj. destruct (gam_cell P ph T0 m HR Em Hn i j Hi Hj) as (x & S1 & S2). rewrite <- (storage_unique _ _ _ S1). auto.
  - intros i j Hi Hj. destruct (CP i j Hi Hj) as (x & S1 & S2). rewrite <- (outflow_unique _ _ _ S1). auto.
  - intros i j Hi Hj. apply (HIc i j Hi Hj).
  - intros i j Hi Hj. pose proof (HE i j Hi Hj) as X. etransitivity; [|exact X]. apply Sg_ext. intros k Hk.
    change (coef (dot_mm ig psi) i k) with (cell (dot_mm ig psi) i k). rewrite (cell_dot n) by auto. reflexivity.
  - intros i j Hi Hj. pose proof (HN i j Hi Hj) as X. etransitivity; [|exact X]. apply Sg_ext. intros k Hk.
    change (coef (dot_mm (make_gam P m) v) i k) with (cell (dot_mm (make_gam P m) v) i k). rewrite (cell_dot n) by auto. reflexivity.
Qed.
Theorem solution : exists a, (forall tvals, exists vE, solve inv eig P tvals = Ok (m, vE) /\ tabulates vE n tvals a) /\ galerkin_solution P ph T0 m a n.
Proof using Hinv Heg HR Hn HH Hv Hd HI Hnz0.
  destruct pieces as (gam & psi & ig & Em & SG & SP & SI & SV & SN & Le & CG & CP & AI & AE & AN).
  destruct (m_facts P m Em Hn) as (Lm & Nm & _ & Hdrn & _).
  assert (Hnz : forall lam, In lam eigs -> dT P * lam <> 0) by (intros lam Hl; apply Rmult_integral_contrapositive_currified; auto).
  pose proof HR as (_ & _ & _ & _ & (Ts & HTs & ET & ET0) & (Bs0 & HBs & EB & EB0) & _).
  destruct (all_contribute P ph T0 eigs Igamv m (proj1 SN) Le Hnz Lm Nm HR HH Hv Hdrn Ts Bs0 HTs HBs) as (c & Mc & Hc).
  exists (fun j t => Sg n (fun l => cell v j l * c l t)). split.
  - intros tvals. destruct (Hc tvals) as (A & EA & CA). exists (dot_mm v A). split.
    + unfold solve. rewrite HI. cbn [bind]. rewrite EA. reflexivity.
    + destruct (make_E_shape _ _ _ _ _ _ EA) as (LA & RA). fold n in LA.
      assert (HA : length (hd [] A) = length tvals) by (destruct A as [|r A]; [cbn in LA; lia|apply RA; left; auto]).
      pose proof (dot_mm_shape v A) as (D1 & D2). rewrite HA in D2. destruct SV as (LV & RV). rewrite LV in D1.
      split; [exact D1|]. split; [exact D2|]. intros j i Hj Hi.
      change (nth i (nth j (dot_mm v A) []) 0) with (cell (dot_mm v A) j i). rewrite cell_dot_mm by lia. rewrite LA. apply Sg_ext. intros k Hk. rewrite CA by auto. reflexivity.
  - exists (fun i j => Gx i j - cutv (Gx i j)), (fun i j => Px i j - cutv (Px i j)). split.
    + intros i j Hi Hj. split; [exists (Gx i j); split; [apply CG; auto|apply cutv_neglected]|exists (Px i j); split; [apply CP; auto|apply cutv_neglected]].
    + intros i t Hi Ht O.
      assert (Cl : forall l, (l < n)%nat -> is_RInt (c l) T0 t (RInt (c l) T0 t) /\ c l t + dT P * lam eigs l * RInt (c l) T0 t = Sg n (fun k => cell Igamv l k * source P ph T0 m Ts Bs0 k t)).
      { intros l Hl. destruct (Mc l t Hl Ht O) as (I & H1 & H2). pose proof (is_RInt_unique (V := R_CompleteNormedModule) _ _ _ _ H1) as U. rewrite <- U in H1, H2. auto. }
      set (J := fun j => Sg n (fun l => cell v j l * RInt (c l) T0 t)).
      assert (HJ : forall j, (j < n)%nat -> is_RInt (fun t => Sg n (fun l => cell v j l * c l t)) T0 t (J j)).
      { intros j Hj. apply (Sg_RInt n (fun l s => cell v j l * c l s)). intros l Hl. apply RInt_mull. apply Cl; auto. }
      exists J. split; [exact HJ|].
      set (a := fun j t => Sg n (fun l => cell v j l * c l t)) in *.
      exists (stored_value P ph m Gx i a t), (outflow_value P ph m Px i a), (outflow_total P ph T0 m Ts Bs0 Px i t J).
      split; [|split; [|split]].
      * apply (stored_ok P ph T0 m HR Em Hn HH eigs Igamv (proj1 SN) Le Hnz Ts Bs0 HTs HBs Gx i Hi); auto. intros; apply CG; auto.
      * intros s Hs. apply (outflow_ok P ph T0 m HR Em Hn HH eigs Igamv (proj1 SN) Le Hnz Ts Bs0 HTs HBs Px i Hi). intros; apply CP; auto.
      * apply (outflow_RInt P ph T0 m HR HH Ts Bs0 HTs HBs ET EB Px i a t J Ht O). exact HJ.
      * rewrite (balance P ph T0 m Ts Bs0 HBs ET ET0 EB EB0 Gx Px i a t J). fold n.
        pose proof (modal_to_matrix n (dT P) (cell gam) (cell ig) (cell psi) (cell v) (cell Igamv) (lam eigs) (fun l => c l t) (fun l => RInt (c l) T0 t)
          (fun k => source P ph T0 m Ts Bs0 k t) AI AE AN (fun j Hj => proj2 (Cl j Hj)) i Hi) as MM.
        cbv beta in MM. rewrite <- MM.
        rewrite (Sg_ext n (fun j => cell gam i j * _) (fun j => cutv (Gx i j) * a j t)) by (intros j Hj; rewrite (proj2 (CG i j Hi Hj)); reflexivity).
        rewrite (Sg_ext n (fun j => cell psi i j * _) (fun j => cutv (Px i j) * J j)) by (intros j Hj; rewrite (proj2 (CP i j Hi Hj)); reflexivity).
        match goal with |- ?l = _ => change (l = Sg n (fun j => (Gx i j - cutv (Gx i j)) * a j t) + dT P * Sg n (fun j => (Px i j - cutv (Px i j)) * J j)) end. rewrite (Sg_ext n (fun j => (Gx i j - cutv (Gx i j)) * a j t) (fun j => Gx i j * a j t - cutv (Gx i j) * a j t)) by (intros; ring).
        rewrite (Sg_ext n (fun j => (Px i j - cutv (Px i j)) * J j) (fun j => Px i j * J j - cutv (Px i j) * J j)) by (intros; ring).
        rewrite !Sg_minus. ring.
Qed.
End Assembly.
