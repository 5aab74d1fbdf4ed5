(** * Assembly for the spectral program with well resistance *)
From Coq Require Import Reals List Arith ZArith Lia Lra Bool Sorted.
From Coquelicot Require Import Coquelicot.
From Verif Require Import Base PiecewiseModel LayersModel SpecPiecewise SpecPiecewiseApi PolyLineModel SpecPolyLine PolyLineProofs2 PolyLineProofs6 PolyLineProofs7 PolyLineProofs4 SpectralModel SpecSpectral
  WrapModel SpecWrap PropsWrap LoadModel LoadTrigModel SpecLoad SpecSpeccon SpecconModel SpecconProofs SpecconProofs2 SpecconProofs3 SpecconProofs4 SpecconProofs5 SpecGalerkin SpecconProofs6 SpecconProofs7 SpecconProofs8 SpecconProofs9 WellModel SpecWell WellProofs WellProofs2 WellProofs3.
Import ListNotations.
Open Scope R_scope.
Local Notation entry := SpecSpectral.entry.
Local Notation RI f := (RInt f 0 1).

Section Assembly.
Variable inv : list (list R) -> result (list (list R)).
Variable eig : list (list R) -> result (list R * list (list R)).
Hypothesis Hinv : inverts inv.
Hypothesis Heg : diagonalises eig.
Variables (W : wproblem) (ph : physics) (dr : drain) (T0 : R) (X : warrays).
Let B := bare (soil W).
Let P := soil W.
Let n := neig P.
Let m := w_m X.
Let eigs := w_eigs X.
Let v := w_v X.
Let Igamv := w_Igamv X.
Hypothesis HW : represents_well T0 W ph dr.
Hypothesis Hn : (1 <= n)%nat.
Hypothesis HH : Hh P <> 0.
Hypothesis Hv : mvref P <> 0.
Hypothesis Hd : dT P <> 0.
Hypothesis HI : w_time_independent inv eig W = Ok X.
Hypothesis Hnz0 : forall lam, In lam eigs -> lam <> 0.
Let phi (k : nat) (z : R) := sin (nth k m 0 * z).
Let dphi (k : nat) (z : R) := nth k m 0 * cos (nth k m 0 * z).
Let Gx i j : R := RI (fun z => f_mv ph z * phi i z * phi j z).
Let Px i j : R := (d_v ph * RI (fun z => f_kv ph z * dphi i z * dphi j z) + d_h ph * RI (fun z => f_kh ph z * f_et ph z * phi i z * phi j z)
  + fold_right Rplus 0 (map (fun f => snd (fst f) * phi i (fst (fst f)) * phi j (fst (fst f))) (f_fixed ph))) / dT P.
Let Sm := cell (w_psi_s X).
Let Nw := cell (w_Ipsi_w X).
(** exact outflow matrix *)
Let Ex i j : R := Px i j + (Sm i j - Sg n (fun p => Sm i p * Sg n (fun k => Nw p k * Sm k j))).

Lemma w_pieces : exists gam psi ig psi_w, make_m P = Ok m /\ square n gam /\ square n psi /\ square n ig /\ square n v /\ square n Igamv /\ length eigs = n /\
  square n (w_psi_s X) /\ square n (w_Ipsi_w X) /\ w_psi_s_Ipsi_w X = dot_mm (w_psi_s X) (w_Ipsi_w X) /\
  (forall i j, (i < n)%nat -> (j < n)%nat -> is_RInt (fun z => f_dkh dr z * f_det dr z * phi i z * phi j z) 0 1 (KX dr m i j) /\ dT P * Sm i j = d_dh dr * KX dr m i j) /\
  (forall i j, (i < n)%nat -> (j < n)%nat -> is_RInt (fun z => f_kw dr z * dphi i z * dphi j z) 0 1 (KW dr m i j) /\ dT P * cell psi_w i j = d_w dr * KW dr m i j + d_dh dr * KX dr m i j) /\
  (forall i j, (i < n)%nat -> (j < n)%nat -> Sg n (fun k => cell psi_w i k * Nw k j) = if Nat.eqb i j then 1 else 0) /\
  (forall i j, (i < n)%nat -> (j < n)%nat -> storage_entry ph m i j (Gx i j) /\ cell gam i j = cutv (Gx i j)) /\
  (forall i j, (i < n)%nat -> (j < n)%nat -> outflow_entry B ph m i j (Px i j) /\ cell psi i j = cutv (Ex i j)) /\
  (forall i j, (i < n)%nat -> (j < n)%nat -> Sg n (fun k => cell gam i k * cell ig k j) = if Nat.eqb i j then 1 else 0) /\
  (forall i j, (i < n)%nat -> (j < n)%nat -> Sg n (fun k => Sg n (fun p => cell ig i p * cell psi p k) * cell v k j) = cell v i j * lam eigs j) /\
  (forall i j, (i < n)%nat -> (j < n)%nat -> Sg n (fun k => Sg n (fun p => cell gam i p * cell v p k) * cell Igamv k j) = if Nat.eqb i j then 1 else 0).
Proof using Hinv Heg HW Hn Hd HI.
  pose proof HI as E. unfold w_time_independent in E. fold P n in E. destruct (make_m P) as [m'|] eqn:Em; cbn [bind] in E; [|discriminate].
  destruct (make_psi_s W m') as [psi_s|] eqn:Es; cbn [bind] in E; [|discriminate].
  destruct (inv (make_psi_w W m' psi_s)) as [Iw|] eqn:EI; cbn [bind] in E; [|discriminate].
  set (psi := cut _) in E.
  unfold make_eigs_and_v in E. destruct (inv (make_gam P m')) as [ig|] eqn:Eig; cbn [bind] in E; [|discriminate].
  destruct (eig (dot_mm ig psi)) as [[w V]|] eqn:Ew; cbn [bind fst snd] in E; [|discriminate].
  destruct (inv (dot_mm (make_gam P m') V)) as [igv|] eqn:Eigv; cbn [bind] in E; [|discriminate].
  injection E as EX. assert (Q1 : m' = m) by (unfold m; rewrite <- EX; reflexivity). assert (Q2 : w = eigs) by (unfold eigs; rewrite <- EX; reflexivity).
  assert (Q3 : V = v) by (unfold v; rewrite <- EX; reflexivity). assert (Q4 : igv = Igamv) by (unfold Igamv; rewrite <- EX; reflexivity).
  assert (Q5 : psi_s = w_psi_s X) by (rewrite <- EX; reflexivity). assert (Q6 : Iw = w_Ipsi_w X) by (rewrite <- EX; reflexivity).
  assert (Q7 : w_psi_s_Ipsi_w X = dot_mm psi_s Iw) by (rewrite <- EX; reflexivity). clear EX. subst m' w V igv.
  destruct (psi_s_ok W ph dr T0 m HW Em Hn Hd) as (psi_s' & Es' & SS & HS). assert (psi_s' = psi_s) by congruence. subst psi_s'. fold n in SS.
  destruct (psi_w_ok W ph dr T0 m HW Em Hn Hd psi_s SS (fun i j Hi Hj => proj2 (HS i j Hi Hj))) as (SW & HWm). fold n in SW.
  destruct (psi1_ok W ph dr T0 m HW Em Hn Hd psi_s) as (S1 & H1). fold n in S1.
  destruct (Hinv _ _ EI) as (SIw & HIw). rewrite (proj1 SW) in SIw, HIw.
  pose proof (square_dot n _ _ SS SIw Hn) as SQ.
  assert (SP : square n psi) by (unfold psi; apply cut_square, table_square).
  pose proof (gam_square P m Em Hn) as SG. fold n in SG.
  destruct (Hinv _ _ Eig) as (SI & HIc). rewrite (proj1 SG) in SI, HIc.
  destruct (Heg _ _ _ Ew) as (SV & Lw & HE). pose proof (square_dot n ig psi SI SP Hn) as SD. rewrite (proj1 SD) in SV, Lw, HE.
  destruct (Hinv _ _ Eigv) as (SN & HN). pose proof (square_dot n _ v SG SV Hn) as SD2. rewrite (proj1 SD2) in SN, HN.
  exists (make_gam P m), psi, ig, (make_psi_w W m psi_s). unfold Sm, Nw, Ex. unfold Sm, Nw. rewrite <- Q5, <- Q6. split; [reflexivity|]. do 8 (split; [assumption|]). split; [exact Q7|].
  split; [exact HS|]. split; [exact HWm|]. split; [intros i j Hi Hj; apply (HIw i j Hi Hj)|]. split; [|split; [|split; [|split]]].
  - intros i j Hi Hj. destruct (gam_cell B ph T0 m (HB W ph dr T0 HW) Em Hn i j Hi Hj) as (x & S2 & S3). assert (EG : Gx i j = x) by (symmetry; exact (storage_unique ph m _ _ _ S2)). rewrite EG. auto.
  - intros i j Hi Hj. destruct (H1 i j Hi Hj) as (x & S2 & S3). assert (EP : Px i j = x) by (symmetry; exact (outflow_unique B ph m Hd _ _ _ S2)). rewrite EP. split; [exact S2|].
    unfold psi. rewrite cell_cut, cell_table by auto. f_equal. rewrite S3. rewrite (cell_dot n) by auto.
    rewrite (Sg_ext n _ (fun k => Sg n (fun p => cell psi_s i p * cell Iw p k) * cell psi_s k j)) by (intros k Hk; rewrite (cell_dot n) by auto; reflexivity).
    rewrite (massoc n (cell psi_s i) (fun k => cell psi_s k j) (cell Iw)). ring.
  - intros i j Hi Hj. apply (HIc i j Hi Hj).
  - intros i j Hi Hj. pose proof (HE i j Hi Hj) as Y. etransitivity; [|exact Y]. apply Sg_ext. intros k Hk.
    change (coef (dot_mm ig psi) i k) with (cell (dot_mm ig psi) i k). rewrite (cell_dot n) by auto. reflexivity.
  - intros i j Hi Hj. pose proof (HN i j Hi Hj) as Y. etransitivity; [|exact Y]. apply Sg_ext. intros k Hk.
    change (coef (dot_mm (make_gam P m) v) i k) with (cell (dot_mm (make_gam P m) v) i k). rewrite (cell_dot n) by auto. reflexivity.
Qed.

(** The drain pressure that goes with the soil pressure a. *)
Let tht l t := thT W dr X l * p_top ph t + thB dr X l * p_bot ph t.
Definition drain_coefs (a : nat -> R -> R) (j : nat) (t : R) : R :=
  Sg n (fun k => Nw j k * (Sg n (fun l => Sm k l * a l t) + d_w dr / dT P * tht k t)).
Theorem w_solution : exists a, (forall tvals, exists vE, w_solve inv eig W tvals = Ok (X, vE) /\ tabulates vE n tvals a) /\
  well_solution B ph dr T0 m a (drain_coefs a) n /\
  (forall i t, (i < n)%nat -> drain_balanced B ph dr m (fun _ _ => 0) (drain_coefs (fun _ _ => 0)) i t).
Proof using Hinv Heg HW Hn HH Hv Hd HI Hnz0.
  destruct w_pieces as (gam & psi & ig & psi_w & Em & SG & SP & SI & SV & SN & Le & SS & SIw & EQ & HKS & HKW & HNw & CG & CP & AI & AE & AN).
  destruct (m_facts P m Em Hn) as (Lm & Nm & _ & Hdrn & _). fold n in Lm.
  assert (Hnz : forall lam, In lam eigs -> dT P * lam <> 0) by (intros lam Hl; apply Rmult_integral_contrapositive_currified; auto).
  pose proof (HB W ph dr T0 HW) as HR. fold B in HR. pose proof HR as (_ & _ & _ & _ & (Ts & HTs & ET & ET0) & (Bs0 & HBs & EB & EB0) & _).
  assert (SQ : square n (w_psi_s_Ipsi_w X)) by (rewrite EQ; apply square_dot; auto).
  destruct (well_contributes W ph dr T0 X HW SN SQ Hn Le Hnz Lm Nm HH Ts Bs0 HTs HBs) as (Hex & _). fold P n m in Hex.
  destruct (w_all_contribute W ph dr T0 X HW SN SQ Hn Le Hnz Lm Nm HH Hv Hdrn Ts Bs0 HTs HBs) as (c & Mc & Hc). fold P n eigs Igamv in Mc, Hc.
  set (a := fun j t => Sg n (fun l => cell v j l * c l t)).
  assert (HKX' : forall i j, (i < n)%nat -> (j < n)%nat -> is_RInt (fun z => f_dkh dr z * f_det dr z * phi i z * phi j z) 0 1 (KX dr m i j)) by (intros; apply HKS; auto).
  assert (HKW' : forall i j, (i < n)%nat -> (j < n)%nat -> is_RInt (fun z => f_kw dr z * dphi i z * dphi j z) 0 1 (KW dr m i j)) by (intros; apply HKW; auto).
  assert (HS' : forall i j, (i < n)%nat -> (j < n)%nat -> dT P * Sm i j = d_dh dr * KX dr m i j) by (intros; apply HKS; auto).
  assert (HW' : forall i j, (i < n)%nat -> (j < n)%nat -> dT P * cell psi_w i j = d_w dr * KW dr m i j + d_dh dr * KX dr m i j) by (intros; apply HKW; auto).
  assert (DB : forall a i t, (i < n)%nat -> drain_balanced B ph dr m a (drain_coefs a) i t).
  { intros a' i t Hi. apply (drain_ok W ph dr m Em Hn Hd HKX' HKW' Hex Sm (cell psi_w) HS' HW' a' (drain_coefs a') i t Hi).
    unfold drain_coefs. apply (solve_drain n Nw (cell psi_w) HNw (fun k => Sg n (fun l => Sm k l * a' l t) + d_w dr / dT P * tht k t) i Hi). }
  exists a. split; [|split; [|intros; apply DB; auto]].
  - intros tvals. destruct (Hc tvals) as (A & EA & CA). exists (dot_mm v A). split.
    + unfold w_solve. rewrite HI. cbn [bind]. rewrite EA. reflexivity.
    + destruct (w_make_E_shape _ _ _ _ EA) as (LA & RA). fold P n in LA.
      assert (HA : length (hd [] A) = length tvals) by (destruct A as [|r A]; [cbn in LA; lia|apply RA; left; auto]).
      pose proof (dot_mm_shape v A) as (D1 & D2). rewrite HA in D2. destruct SV as (LV & RV). rewrite LV in D1.
      split; [exact D1|]. split; [exact D2|]. intros j i Hj Hi.
      change (nth i (nth j (dot_mm v A) []) 0) with (cell (dot_mm v A) j i). rewrite cell_dot_mm by lia. rewrite LA. apply Sg_ext. intros k Hk. rewrite CA by auto. reflexivity.
  - split; [intros; apply DB; auto|].
    exists (fun i j => Gx i j - cutv (Gx i j)), (fun i j => Ex i j - cutv (Ex i j)). split.
    + intros i j Hi Hj. split; [exists (Gx i j); split; [apply CG; auto|apply cutv_neglected]|exists (Ex i j); split; [|apply cutv_neglected]].
      unfold Ex. apply (entry_ok W ph dr m Em Hn Hd HKX' HKW' Sm (cell psi_w) HS' HW' (fun p => Sg n (fun k => Nw p k * Sm k j)) i j (Px i j) Hi Hj); [|apply CP; auto].
      intros k Hk. apply (solve_drain n Nw (cell psi_w) HNw (fun k => Sm k j) k Hk).
    + intros i t Hi Ht O.
      assert (Cl : forall l, (l < n)%nat -> is_RInt (c l) T0 t (RInt (c l) T0 t) /\ c l t + dT P * lam eigs l * RInt (c l) T0 t = Sg n (fun k => cell Igamv l k * w_source W ph dr T0 X Ts Bs0 k t)).
      { intros l Hl. destruct (Mc l t Hl Ht O) as (I & H1 & H2). pose proof (is_RInt_unique (V := R_CompleteNormedModule) _ _ _ _ H1) as U. rewrite <- U in H1, H2. auto. }
      set (J := fun j => Sg n (fun l => cell v j l * RInt (c l) T0 t)).
      assert (HJ : forall j, (j < n)%nat -> is_RInt (a j) T0 t (J j)).
      { intros j Hj. apply (Sg_RInt n (fun l s => cell v j l * c l s)). intros l Hl. apply RInt_mull. apply Cl; auto. }
      exists J. split; [exact HJ|].
      set (Qm := cell (w_psi_s_Ipsi_w X)).
      set (Dm := fun i j => Sg n (fun p => Sm i p * Sg n (fun k => Nw p k * Sm k j))).
      (* exchange rate *)
      assert (XR : forall s, d_dh dr * Sg n (fun j => KX dr m i j * (a j s - drain_coefs a j s)) =
        Sg n (fun j => dT P * (Sm i j - Dm i j) * a j s) + Sg n (fun l => Qm i l * (- d_w dr * (thT W dr X l * p_top ph s + thB dr X l * p_bot ph s)))).
      { intros s. rewrite <- Sg_scal. rewrite (Sg_ext n _ (fun j => dT P * (Sm i j * a j s) - dT P * (Sm i j * drain_coefs a j s))) by (intros j Hj; rewrite <- Rmult_assoc, <- HS' by auto; ring).
        rewrite Sg_minus, !Sg_scal.
        assert (E1 : Sg n (fun j => Sm i j * drain_coefs a j s) = Sg n (fun j => Dm i j * a j s) + Sg n (fun l => Qm i l * (d_w dr / dT P * tht l s))).
        { unfold drain_coefs. rewrite <- (massoc n (Sm i) (fun k => Sg n (fun l => Sm k l * a l s) + d_w dr / dT P * tht k s) Nw).
          rewrite (Sg_ext n _ (fun q => Sg n (fun p => Sm i p * Nw p q) * Sg n (fun l => Sm q l * a l s) + Qm i q * (d_w dr / dT P * tht q s))).
          2:{ intros q Hq. unfold Qm. rewrite EQ, (cell_dot n) by auto. unfold Sm, Nw. ring. }
          rewrite Sg_plus. f_equal. rewrite <- (massoc n (fun q => Sg n (fun p => Sm i p * Nw p q)) (fun l => a l s) Sm).
          apply Sg_ext. intros l Hl. unfold Dm. f_equal. apply (massoc n (Sm i) (fun k => Sm k l) Nw). }
        rewrite E1. rewrite (Sg_ext n (fun j => dT P * (Sm i j - Dm i j) * a j s) (fun j => dT P * (Sm i j * a j s) - dT P * (Dm i j * a j s))) by (intros; ring).
        rewrite Sg_minus, !Sg_scal.
        rewrite (Sg_ext n (fun l => Qm i l * (- d_w dr * _)) (fun l => (- dT P) * (Qm i l * (d_w dr / dT P * tht l s)))) by (intros l Hl; unfold tht; field; auto).
        rewrite Sg_scal. ring. }
      set (Bs := map (fun F s => bottom_factor B * F s) Bs0).
      assert (X2 : is_RInt (fun s => p_top ph s) T0 t (total (integrals T0 Ts) t)).
      { eapply RInt_eq; [apply (loads_RInt T0 _ _ Ts t HTs Ht (top_ok B t O))|intros s; rewrite ET; reflexivity|reflexivity]. }
      assert (X3 : is_RInt (fun s => p_bot ph s) T0 t (total (integrals T0 Bs) t)).
      { eapply RInt_eq; [apply (loads_RInt T0 _ _ Bs t (bot_loads B T0 HH Bs0 HBs) Ht (bot_ok B t O))|intros s; unfold Bs; rewrite total_map, EB; reflexivity|reflexivity]. }
      assert (XI : is_RInt (fun s => d_dh dr * Sg n (fun j => KX dr m i j * (a j s - drain_coefs a j s))) T0 t
        (Sg n (fun j => dT P * (Sm i j - Dm i j) * J j) + - well_src W dr T0 X Ts Bs0 i t)).
      { eapply RInt_eq; [apply (RInt_add (fun s => Sg n (fun j => dT P * (Sm i j - Dm i j) * a j s)) (fun s => Sg n (fun l => Qm i l * (- d_w dr * (thT W dr X l * p_top ph s + thB dr X l * p_bot ph s)))))| |reflexivity].
        - apply (Sg_RInt n (fun j s => dT P * (Sm i j - Dm i j) * a j s) (fun j => dT P * (Sm i j - Dm i j) * J j)). intros j Hj. apply RInt_mull. auto.
        - eapply RInt_eq; [apply (Sg_RInt n (fun l s => Qm i l * (- d_w dr * (thT W dr X l * p_top ph s + thB dr X l * p_bot ph s)))
             (fun l => Qm i l * (- d_w dr * (thT W dr X l * total (integrals T0 Ts) t + thB dr X l * total (integrals T0 Bs) t))))|reflexivity|].
          + intros l Hl. do 2 apply RInt_mull. apply RInt_add; apply RInt_mull; auto.
          + unfold well_src. fold P n Qm. change (bottom_factor (soil W)) with (bottom_factor B). fold Bs.
            match goal with |- ?u = ?v => change (@eq R u v) end. 
            rewrite (Sg_ext n _ (fun l => (-1) * (Qm i l * (d_w dr * (thT W dr X l * total (integrals T0 Ts) t + thB dr X l * total (integrals T0 Bs) t))))) by (intros; ring).
            rewrite Sg_scal. change (map (fun (F : R -> R) (s : R) => bottom_factor P * F s) Bs0) with Bs. ring.
        - intros s. cbv beta. symmetry. apply XR. }
      exists (stored_value B ph m Gx i a t), (fun s => outflow_value B ph m Px i a s + d_dh dr * Sg n (fun j => KX dr m i j * (a j s - drain_coefs a j s))),
        (outflow_total B ph T0 m Ts Bs0 Px i t J + (Sg n (fun j => dT P * (Sm i j - Dm i j) * J j) + - well_src W dr T0 X Ts Bs0 i t)).
      split; [|split; [|split]].
      * apply (stored_ok B ph T0 m HR Em Hn HH eigs Igamv (proj1 SN) Le Hnz Ts Bs0 HTs HBs Gx i Hi); auto. intros; apply CG; auto.
      * intros s Hs. exists (outflow_value B ph m Px i a s), (Sg n (fun j => KX dr m i j * (a j s - drain_coefs a j s))). split; [|split; [|reflexivity]].
        -- apply (outflow_ok B ph T0 m HR Em Hn HH eigs Igamv (proj1 SN) Le Hnz Ts Bs0 HTs HBs Px i Hi). intros; apply CP; auto.
        -- apply (exchange_ok W ph dr m Em Hn HKX' a (drain_coefs a) i s Hi).
      * apply RInt_add; [|exact XI]. apply (outflow_RInt B ph T0 m HR HH Ts Bs0 HTs HBs ET EB Px i a t J Ht O). exact HJ.
      * pose proof (balance B ph T0 m Ts Bs0 HBs ET ET0 EB EB0 Gx Px i a t J) as BA. change (neig B) with n in BA. change (dT B) with (dT P) in BA.
        rewrite <- Rplus_assoc, BA.
        pose proof (modal_to_matrix n (dT P) (cell gam) (cell ig) (cell psi) (cell v) (cell Igamv) (lam eigs) (fun l => c l t) (fun l => RInt (c l) T0 t)
          (fun k => w_source W ph dr T0 X Ts Bs0 k t) AI AE AN (fun j Hj => proj2 (Cl j Hj)) i Hi) as MM.
        cbv beta in MM.
        rewrite (Sg_ext n (fun j => cell gam i j * _) (fun j => cutv (Gx i j) * a j t)) in MM by (intros j Hj; rewrite (proj2 (CG i j Hi Hj)); reflexivity).
        rewrite (Sg_ext n (fun j => cell psi i j * _) (fun j => cutv (Ex i j) * J j)) in MM by (intros j Hj; rewrite (proj2 (CP i j Hi Hj)); reflexivity).
        match goal with |- ?l = _ => change (l = Sg n (fun j => (Gx i j - cutv (Gx i j)) * a j t) + dT P * Sg n (fun j => (Ex i j - cutv (Ex i j)) * J j)) end.
        rewrite (Sg_ext n (fun j => (Gx i j - cutv (Gx i j)) * a j t) (fun j => Gx i j * a j t - cutv (Gx i j) * a j t)) by (intros; ring).
        rewrite (Sg_ext n (fun j => (Ex i j - cutv (Ex i j)) * J j) (fun j => (Px i j * J j + (Sm i j - Dm i j) * J j) - cutv (Ex i j) * J j)) by (intros; unfold Ex, Dm; ring).
        rewrite !Sg_minus, Sg_plus.
        rewrite (Sg_ext n (fun j => dT P * (Sm i j - Dm i j) * J j) (fun j => dT P * ((Sm i j - Dm i j) * J j))) by (intros; ring). rewrite Sg_scal.
        assert (ES : w_source W ph dr T0 X Ts Bs0 i t = source B ph T0 m Ts Bs0 i t + well_src W dr T0 X Ts Bs0 i t).
        { unfold w_source, source. fold m. change (bare (soil W)) with B.
          assert (EV : vacuum_src ph T0 m i t = 0). { unfold vacuum_src. pose proof HR as (_ & _ & _ & (_ & _ & Hdh) & _). rewrite Hdh. ring. } rewrite EV. ring. }
        rewrite ES in MM. lra.
Qed.
End Assembly.
