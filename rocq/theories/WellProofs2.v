(** * Loads of the spectral program with well resistance *)
From Coq Require Import Reals List Arith ZArith Lia Lra Bool Sorted.
From Coquelicot Require Import Coquelicot.
From Verif Require Import Base PiecewiseModel LayersModel SpecPiecewise SpecPiecewiseApi PolyLineModel SpecPolyLine PolyLineProofs2 PolyLineProofs6 PolyLineProofs7 PolyLineProofs4 SpectralModel SpecSpectral
  WrapModel SpecWrap PropsWrap LoadModel LoadTrigModel SpecLoad SpecSpeccon SpecconModel SpecconProofs SpecconProofs2 SpecconProofs3 SpecconProofs4 SpecconProofs5 SpecGalerkin SpecconProofs6 SpecconProofs7 SpecconProofs8 SpecconProofs9 WellModel SpecWell WellProofs.
Import ListNotations.
Open Scope R_scope.
Local Notation entry := SpecSpectral.entry.
Local Notation RI f := (RInt f 0 1).

Lemma contributes_change n dT T0 ok eigs Ig Ig' (M : nat -> nat -> R) calc src :
  (forall j k, (j < n)%nat -> (k < n)%nat -> cell Ig' j k = Sg n (fun p => cell Ig j p * M p k)) ->
  contributes n dT T0 ok eigs Ig' calc src -> contributes n dT T0 ok eigs Ig calc (fun k t => Sg n (fun l => M k l * src l t)).
Proof.
  intros E (c & Mc & Hc). exists c. split; [|exact Hc]. intros j t Hj Ht O. destruct (Mc j t Hj Ht O) as (I & H1 & H2). exists I. split; [exact H1|].
  rewrite H2. rewrite <- (massoc n (cell Ig j) (fun l => src l t) M). apply Sg_ext. intros k Hk. rewrite E by auto. reflexivity.
Qed.
Lemma table_ext n k f g : (forall i j, (i < n)%nat -> (j < k)%nat -> f i j = g i j) -> table n k f = table n k g.
Proof.
  intros H. unfold table. apply map_ext_in. intros i Hi. apply in_seq in Hi. apply map_ext_in. intros j Hj. apply in_seq in Hj. apply H; lia.
Qed.
Lemma add_part_two n nt d X Y acc : add_part n nt 1 (A <- X ;; add_part n nt d Y A) acc = (acc <- add_part n nt 1 X acc ;; add_part n nt d Y acc).
Proof.
  unfold add_part. destruct X as [A|e]; cbn [bind]; [|reflexivity]. destruct Y as [C'|e]; cbn [bind]; [|reflexivity].
  f_equal. apply table_ext. intros i j Hi Hj. rewrite !cell_table by auto. ring.
Qed.

Section WellLoads.
Variables (W : wproblem) (ph : physics) (dr : drain) (T0 : R) (X : warrays).
Let B := bare (soil W).
Let P := soil W.
Let n := neig P.
Let m := w_m X.
Let eigs := w_eigs X.
Let Igamv := w_Igamv X.
Let ok t := before_ends (load_tables B) t.
Hypothesis HW : represents_well T0 W ph dr.
Hypothesis HIg : square n Igamv.
Hypothesis HQ : square n (w_psi_s_Ipsi_w X).
Hypothesis Hn : (1 <= n)%nat.
Hypothesis Heig : length eigs = n.
Hypothesis Hnz : forall lam, In lam eigs -> dT P * lam <> 0.
Hypothesis Hm : length m = n.
Hypothesis Nm : forall x, In x m -> x <> 0.
Hypothesis HH : Hh P <> 0.
Hypothesis Hv : mvref P <> 0.
Hypothesis Hdrn : drn P = 0%Z \/ drn P = 1%Z.
Let phi (k : nat) (z : R) := sin (nth k m 0 * z).
Let dphi (k : nat) (z : R) := nth k m 0 * cos (nth k m 0 * z).
Let st : R := if Z.eqb (drn P) 1 then 0 else -1.
Variables Ts Bs0 : list (R -> R).
Hypothesis HTs : are_loads T0 (listed (top_vs_time P)) (top_omega_phase P) Ts.
Hypothesis HBs : are_loads T0 (listed (bot_vs_time P)) (bot_omega_phase P) Bs0.
Let Bs := map (fun F s => bottom_factor P * F s) Bs0.
Definition thT l := st * kw_bottom dr * phi l 1 - RI (fun z => f_kw dr z * st * dphi l z).
Definition thB l := 1 * kw_bottom dr * phi l 1 - RI (fun z => f_kw dr z * 1 * dphi l z).
Definition well_src k t := Sg n (fun l => cell (w_psi_s_Ipsi_w X) k l * (d_w dr * (thT l * total (integrals T0 Ts) t + thB l * total (integrals T0 Bs) t))).
Lemma well_contributes :
  (forall k, (k < n)%nat -> ex_RInt (fun z => f_kw dr z * st * dphi k z) 0 1 /\ ex_RInt (fun z => f_kw dr z * 1 * dphi k z) 0 1) /\
  contributes n (dT P) T0 ok eigs Igamv (fun tvals acc => if Reqb (wdTw W) 0 then Ok acc else
    add_part n (length tvals) (wdTw W) (BC_D_aDf (drn P) m eigs tvals (dot_mm Igamv (w_psi_s_Ipsi_w X)) (wkw W) (top_vs_time P) (normalised_bot P) (top_omega_phase P) (bot_omega_phase P) (dT P) (pim P)) acc) well_src.
Proof using HW HIg HQ Hn Heig Hnz Hm Nm HH HTs HBs.
  pose proof HW as (_ & _ & _ & _ & Pk & Ekb & _ & Ed).
  assert (LD : length (dot_mm Igamv (w_psi_s_Ipsi_w X)) = n) by (apply (square_dot n); auto).
  assert (HB' := bot_loads B T0 HH Bs0 HBs).
  assert (OT : forall t, ok t -> before_ends (listed (top_vs_time P)) t) by (intros t O; exact (top_ok B t O)).
  assert (OB : forall t, ok t -> before_ends (listed (normalised_bot P)) t) by (intros t O; exact (bot_ok B t O)).
  destruct (BC_D_contributes n (dT P) T0 ok eigs (dot_mm Igamv (w_psi_s_Ipsi_w X)) m LD Heig Hnz Hm Nm (pim P) (drn P) (top_vs_time P) (normalised_bot P) (top_omega_phase P) (bot_omega_phase P) Ts Bs
    HTs HB' OT OB (wdTw W) (wkw W) (f_kw dr) Pk) as (A & C').
  { apply (wsep W ph dr T0 HW). intros p [<-|[]]. left; cbn; auto. }
  split; [exact A|].
  pose proof (contributes_change n (dT P) T0 ok eigs Igamv _ (cell (w_psi_s_Ipsi_w X)) _ _ (fun j k Hj Hk => cell_dot n _ _ j k HIg HQ Hn Hj Hk) C') as D.
  destruct (Reqb (wdTw W) 0) eqn:E0.
  - apply Reqb_true in E0. eapply contributes_ext; [apply contributes_nothing|reflexivity|]. intros k t _ _ _. unfold well_src. rewrite Ed, E0.
    rewrite (Sg_ext n _ (fun _ => 0)) by (intros; ring). apply Sg_zero.
  - eapply contributes_ext; [exact D|reflexivity|]. intros k t _ _ _. unfold well_src. apply Sg_ext. intros l _. unfold thT, thB. rewrite Ed, Ekb. reflexivity.
Qed.
Lemma w_make_BC_eq tvals : w_make_BC W X tvals = (acc <- make_BC B m eigs tvals Igamv ;;
  if Reqb (wdTw W) 0 then Ok acc else
    add_part n (length tvals) (wdTw W) (BC_D_aDf (drn P) m eigs tvals (dot_mm Igamv (w_psi_s_Ipsi_w X)) (wkw W) (top_vs_time P) (normalised_bot P) (top_omega_phase P) (bot_omega_phase P) (dT P) (pim P)) acc).
Proof using.
  unfold w_make_BC, make_BC. cbv zeta. change (et B) with (@None points). fold P n m eigs Igamv. change (neig B) with n. change (drn B) with (drn P). change (mv B) with (mv P).
  change (top_vs_time B) with (top_vs_time P). change (normalised_bot B) with (normalised_bot P). change (top_omega_phase B) with (top_omega_phase P).
  change (bot_omega_phase B) with (bot_omega_phase P). change (dT B) with (dT P). change (pim B) with (pim P). change (kv B) with (kv P). change (dTv B) with (dTv P). change (fixed_ppress B) with (fixed_ppress P).
  destruct (add_part n (length tvals) (-1) _ _) as [a1|]; cbn [bind]; [|reflexivity].
  match goal with |- bind ?r _ = _ => destruct r end; cbn [bind]; reflexivity.
Qed.
Definition w_source k t := surcharge_src ph m k t + ((bc_src B ph T0 m Ts Bs0 k t + well_src k t) + (fixed_src ph T0 m k t + pump_src B ph T0 m k t)).
Lemma w_all_contribute : exists c, mild n (dT P) T0 ok eigs Igamv c w_source /\ forall tvals, exists A, w_make_E_Igamv_the W X tvals = Ok A /\ forall j i, (j < n)%nat -> (i < length tvals)%nat -> cell A j i = c j (nth i tvals 0).
Proof using HW HIg HQ Hn Heig Hnz Hm Nm HH Hv Hdrn HTs HBs.
  pose proof (HB W ph dr T0 HW) as HR. destruct HIg as (LIg & _).
  destruct (surcharge_contributes B ph T0 eigs Igamv m LIg Heig Hnz Hm Nm HR) as (_ & S1).
  destruct (bc_contributes_all B ph T0 eigs Igamv m LIg Heig Hnz Hm Nm HR HH Hdrn Ts Bs0 HTs HBs) as (_ & S3).
  destruct well_contributes as (_ & S4).
  pose proof (fixed_contributes B ph T0 eigs Igamv m LIg Heig Hnz Hm HR) as S5.
  pose proof (pump_contributes B ph T0 eigs Igamv m LIg Heig Hnz Hm HR HH Hv) as S6.
  assert (S2 : contributes n (dT P) T0 ok eigs Igamv (fun tvals acc => match top_vs_time P, bot_vs_time P with
         | None, None => Ok acc
         | _, _ => add_part n (length tvals) 1 (w_make_BC W X tvals) acc
         end) (fun k t => bc_src B ph T0 m Ts Bs0 k t + well_src k t)).
  { pose proof (contributes_seq _ _ _ _ _ _ _ _ _ _ S3 S4) as S34.
    change (top_vs_time B) with (top_vs_time P) in S34. change (bot_vs_time B) with (bot_vs_time P) in S34.
    assert (G : forall tvals acc, add_part n (length tvals) 1 (w_make_BC W X tvals) acc = (acc <- add_part n (length tvals) 1 (make_BC B m eigs tvals Igamv) acc ;;
       if Reqb (wdTw W) 0 then Ok acc else
    add_part n (length tvals) (wdTw W) (BC_D_aDf (drn P) m eigs tvals (dot_mm Igamv (w_psi_s_Ipsi_w X)) (wkw W) (top_vs_time P) (normalised_bot P) (top_omega_phase P) (bot_omega_phase P) (dT P) (pim P)) acc)).
    { intros tvals acc. rewrite w_make_BC_eq. destruct (Reqb (wdTw W) 0); [|apply add_part_two].
      destruct (make_BC B m eigs tvals Igamv); cbn [bind]; [|reflexivity]. destruct (add_part n (length tvals) 1 _ acc); reflexivity. }
    destruct (top_vs_time P) as [lt|] eqn:Et; [eapply contributes_ext; [exact S34|exact G|reflexivity]|].
    destruct (bot_vs_time P) as [lb|] eqn:Eb; [eapply contributes_ext; [exact S34|exact G|reflexivity]|].
    eapply contributes_ext; [exact S3| |].
    - intros tvals acc. change (top_vs_time B) with (top_vs_time P). change (bot_vs_time B) with (bot_vs_time P). rewrite Et, Eb. reflexivity.
    - intros k t _ _ _. destruct HTs as (_ & FT). destruct HBs as (_ & FB). try rewrite Et in FT. try rewrite Eb in FB. cbn in FT, FB.
      assert (E1 : Ts = []) by (inversion FT; auto). assert (E2 : Bs0 = []) by (inversion FB; auto). unfold well_src, Bs. rewrite E1, E2.
      rewrite (Sg_ext n _ (fun _ => 0)); [rewrite Sg_zero; ring|]. intros l _. cbn. ring. }
  pose proof (contributes_seq _ _ _ _ _ _ _ _ _ _ S1 (contributes_seq _ _ _ _ _ _ _ _ _ _ S2 (contributes_seq _ _ _ _ _ _ _ _ _ _ S5 S6))) as (c & M & H).
  exists c. split; [exact M|]. intros tvals. destruct (H tvals _ _ (zero_tab n tvals)) as (A & E & T). exists A. split; [exact E|].
  intros j i Hj Hi. rewrite T by auto. ring.
Qed.
Lemma w_make_E_shape tvals A : w_make_E_Igamv_the W X tvals = Ok A -> shape A n (length tvals).
Proof using.
  clear. unfold w_make_E_Igamv_the. cbv zeta. fold P n.
  assert (Z0 : shape (zero_table n (length tvals)) n (length tvals)) by apply table_shape.
  revert Z0. generalize (zero_table n (length tvals)). intros acc0 Z0.
  assert (Step : forall (r : result (list (list R))) (f : list (list R) -> result (list (list R))),
     (forall B, r = Ok B -> shape B n (length tvals)) -> (forall B, shape B n (length tvals) -> f B = Ok A -> shape A n (length tvals)) ->
     bind r f = Ok A -> shape A n (length tvals)).
  { intros [B'|] f H1 H2; cbn [bind]; [|discriminate]. apply H2. auto. }
  apply Step.
  { intros B'. destruct (surcharge_vs_depth P), (surcharge_vs_time P); try (intros E; injection E as <-; auto; fail). apply add_part_shape. }
  intros acc1 Z1. apply Step.
  { intros B'. destruct (top_vs_time P), (bot_vs_time P); try (intros E; injection E as <-; auto; fail); apply add_part_shape. }
  intros acc3 Z3. apply Step.
  { intros B'. destruct (fixed_ppress P); [apply add_part_shape|intros E; injection E as <-; auto]. }
  intros acc4 Z4. destruct (pumping P); [apply add_part_shape|intros E; injection E as <-; auto].
Qed.
End WellLoads.
