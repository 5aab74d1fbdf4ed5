(** * Loads of the program for stone columns *)
From Coq Require Import Reals List Arith ZArith Lia Lra Bool Sorted.
From Coquelicot Require Import Coquelicot.
From Verif Require Import Base PiecewiseModel LayersModel SpecPiecewise SpecPiecewiseApi PolyLineModel SpecPolyLine PolyLineProofs7 SpectralModel SpecSpectral
  WrapModel SpecWrap PropsWrap LoadModel LoadTrigModel SpecLoad SpecSpeccon SpecconModel SpecconProofs SpecconProofs2 SpecconProofs3 SpecconProofs4 SpecconProofs5 SpecGalerkin SpecconProofs6 SpecconProofs7 SpecconProofs8 SpecconProofs9
  WellModel SpecWell WellProofs WellProofs2 WellProofs3 ColumnModel SpecColumn ColumnProofs ColumnProofs2.
Import ListNotations.
Open Scope R_scope.
Local Notation entry := SpecSpectral.entry.
Local Notation RI f := (RInt f 0 1).

Section ColumnLoads.
Variables (W : cproblem) (ph : physics) (co : column) (T0 : R) (X : carrays).
Let P := cbase W.
Let B := frame P.
Let n := neig P.
Let m := c_m X.
Let eigs := c_eigs X.
Let Igamv := c_Igamv X.
Let ok t := before_ends (load_tables B) t.
Hypothesis HW : represents_column T0 W ph co.
Hypothesis HIg : square n Igamv.
Hypothesis Hn : (1 <= n)%nat.
Hypothesis Heig : length eigs = n.
Hypothesis Hnz : forall lam, In lam eigs -> dT P * lam <> 0.
Hypothesis Hm : length m = n.
Hypothesis Nm : forall x, In x m -> x <> 0.
Hypothesis HH : Hh P <> 0.
Hypothesis Hdrn : drn P = 0%Z \/ drn P = 1%Z.
Let phi (k : nat) (z : R) := sin (nth k m 0 * z).
Let dphi (k : nat) (z : R) := nth k m 0 * cos (nth k m 0 * z).
Let st : R := if Z.eqb (drn P) 1 then 0 else -1.
Variables Ts Bs0 : list (R -> R).
Hypothesis HTs : are_loads T0 (listed (top_vs_time P)) (top_omega_phase P) Ts.
Hypothesis HBs : are_loads T0 (listed (bot_vs_time P)) (bot_omega_phase P) Bs0.
Let Bs := map (fun F s => bottom_factor P * F s) Bs0.
Definition IG : list (list R) := table n n (fun i j => cell (diag n 1) i j - cell (make_G n (alp W) X) i j).
Definition flux_src (d : R) (f : R -> R) (bottom : R) k t :=
  Sg n (fun l => cell IG k l * (d * (tht W m f bottom l * total (integrals T0 Ts) t + thb m f bottom l * total (integrals T0 Bs) t))).
Lemma flux_contributes d k f bottom : In k [ckv W; ckh W; cet W; ckvc W; ckhc W] -> depth_profile 0 1 k f -> bottom = vleft k 1 ->
  (forall i, (i < n)%nat -> ex_RInt (fun z => f z * st * dphi i z) 0 1 /\ ex_RInt (fun z => f z * 1 * dphi i z) 0 1) /\
  contributes n (dT P) T0 ok eigs Igamv (fun tvals acc => if Reqb d 0 then Ok acc else
    add_part n (length tvals) d (BC_D_aDf (drn P) m eigs tvals (dot_mm Igamv IG) k (top_vs_time P) (normalised_bot P) (top_omega_phase P) (bot_omega_phase P) (dT P) (pim P)) acc) (flux_src d f bottom).
Proof using HW HIg Hn Heig Hnz Hm Nm HH HTs HBs.
  intros Ik Pk Ekb. assert (HQ : square n IG) by apply table_square.
  assert (LD : length (dot_mm Igamv IG) = n) by (apply (square_dot n); auto).
  assert (HB' := bot_loads B T0 HH Bs0 HBs).
  assert (OT : forall t, ok t -> before_ends (listed (top_vs_time P)) t) by (intros t O; exact (top_ok B t O)).
  assert (OB : forall t, ok t -> before_ends (listed (normalised_bot P)) t) by (intros t O; exact (bot_ok B t O)).
  destruct (BC_D_contributes n (dT P) T0 ok eigs (dot_mm Igamv IG) m LD Heig Hnz Hm Nm (pim P) (drn P) (top_vs_time P) (normalised_bot P) (top_omega_phase P) (bot_omega_phase P) Ts Bs
    HTs HB' OT OB d k f Pk) as (A & C').
  { apply (csep W ph co T0 HW). intros p [<-|[]]. left; auto. }
  split; [exact A|].
  pose proof (contributes_change n (dT P) T0 ok eigs Igamv _ (cell IG) _ _ (fun j l Hj Hl => cell_dot n _ _ j l HIg HQ Hn Hj Hl) C') as D.
  destruct (Reqb d 0) eqn:E0.
  - apply Reqb_true in E0. eapply contributes_ext; [apply contributes_nothing|reflexivity|]. intros j t _ _ _. unfold flux_src. rewrite E0.
    rewrite (Sg_ext n _ (fun _ => 0)) by (intros; ring). apply Sg_zero.
  - eapply contributes_ext; [exact D|reflexivity|]. intros j t _ _ _. unfold flux_src. apply Sg_ext. intros l _. unfold tht, thb. rewrite Ekb. reflexivity.
Qed.
Let part (d : R) (k : points) (tvals : list R) (acc : list (list R)) := if Reqb d 0 then Ok acc else
    add_part n (length tvals) d (BC_D_aDf (drn P) m eigs tvals (dot_mm Igamv IG) k (top_vs_time P) (normalised_bot P) (top_omega_phase P) (bot_omega_phase P) (dT P) (pim P)) acc.
Lemma c_make_BC_eq tvals : c_make_BC W X tvals = (acc <- make_BC B m eigs tvals Igamv ;; acc <- part (cdTv W) (ckv W) tvals acc ;; part (cdTvc W) (ckvc W) tvals acc).
Proof using.
  unfold c_make_BC, make_BC, part. cbv zeta. change (et B) with (@None points). change (kv B) with (@None points). change (fixed_ppress B) with (@None (list (R * R * option points))).
  fold P n m eigs Igamv. change (neig B) with n. change (drn B) with (drn P). change (mv B) with (mv P).
  change (top_vs_time B) with (top_vs_time P). change (normalised_bot B) with (normalised_bot P). change (top_omega_phase B) with (top_omega_phase P).
  change (bot_omega_phase B) with (bot_omega_phase P). change (dT B) with (dT P). change (pim B) with (pim P).
  destruct (add_part n (length tvals) (-1) _ _) as [a1|]; cbn [bind]; reflexivity.
Qed.
Lemma part_two d k tvals Y acc : add_part n (length tvals) 1 (A <- Y ;; part d k tvals A) acc = (acc <- add_part n (length tvals) 1 Y acc ;; part d k tvals acc).
Proof using.
  unfold part. destruct (Reqb d 0); [|apply add_part_two]. destruct Y; cbn [bind]; [|reflexivity]. destruct (add_part _ _ _ _ _); reflexivity.
Qed.
Lemma bind_assoc {S T U} (r : result S) (f : S -> result T) (g : T -> result U) : bind (bind r f) g = bind r (fun x => bind (f x) g).
Proof. destruct r; reflexivity. Qed.
Definition c_source k t := surcharge_src ph m k t + (bc_src B ph T0 m Ts Bs0 k t + (flux_src (s_dv co) (s_k co) (s_bottom co) k t + flux_src (c_dv co) (c_k co) (c_bottom co) k t)).
Lemma c_all_contribute : exists c, mild n (dT P) T0 ok eigs Igamv c c_source /\ forall tvals, exists A, c_make_E_Igamv_the W X tvals = Ok A /\ forall j i, (j < n)%nat -> (i < length tvals)%nat -> cell A j i = c j (nth i tvals 0).
Proof using HW HIg Hn Heig Hnz Hm Nm HH Hdrn HTs HBs.
  pose proof (HF W ph co T0 HW) as HR. destruct HIg as (LIg & _). pose proof HW as (_ & _ & Pk & _ & _ & Pc & _ & Eb1 & Eb2 & Ed1 & _ & Ed2 & _).
  destruct (surcharge_contributes B ph T0 eigs Igamv m LIg Heig Hnz Hm Nm HR) as (_ & S1).
  destruct (bc_contributes_all B ph T0 eigs Igamv m LIg Heig Hnz Hm Nm HR HH Hdrn Ts Bs0 HTs HBs) as (_ & S3).
  destruct (flux_contributes (cdTv W) (ckv W) (s_k co) (s_bottom co) ltac:(cbn; auto) Pk Eb1) as (_ & S4).
  destruct (flux_contributes (cdTvc W) (ckvc W) (c_k co) (c_bottom co) ltac:(cbn; auto) Pc Eb2) as (_ & S5).
  assert (F1 : flux_src (cdTv W) = flux_src (s_dv co)) by (rewrite Ed1; reflexivity). assert (F2 : flux_src (cdTvc W) = flux_src (c_dv co)) by (rewrite Ed2; reflexivity). rewrite F1 in S4. rewrite F2 in S5.
  assert (S2 : contributes n (dT P) T0 ok eigs Igamv (fun tvals acc => match top_vs_time P, bot_vs_time P with
         | None, None => Ok acc
         | _, _ => add_part n (length tvals) 1 (c_make_BC W X tvals) acc
         end) (fun k t => bc_src B ph T0 m Ts Bs0 k t + (flux_src (s_dv co) (s_k co) (s_bottom co) k t + flux_src (c_dv co) (c_k co) (c_bottom co) k t))).
  { pose proof (contributes_seq _ _ _ _ _ _ _ _ _ _ S3 (contributes_seq _ _ _ _ _ _ _ _ _ _ S4 S5)) as S34.
    change (top_vs_time B) with (top_vs_time P) in S34. change (bot_vs_time B) with (bot_vs_time P) in S34.
    assert (G : forall tvals acc, add_part n (length tvals) 1 (c_make_BC W X tvals) acc = (acc <- add_part n (length tvals) 1 (make_BC B m eigs tvals Igamv) acc ;;
       (acc <- part (cdTv W) (ckv W) tvals acc ;; part (cdTvc W) (ckvc W) tvals acc))).
    { intros tvals acc. rewrite c_make_BC_eq, <- bind_assoc, part_two, part_two, bind_assoc. reflexivity. }
    destruct (top_vs_time P) as [lt|] eqn:Et; [eapply contributes_ext; [exact S34|exact G|reflexivity]|].
    destruct (bot_vs_time P) as [lb|] eqn:Eb; [eapply contributes_ext; [exact S34|exact G|reflexivity]|].
    eapply contributes_ext; [exact S3| |].
    - intros tvals acc. change (top_vs_time B) with (top_vs_time P). change (bot_vs_time B) with (bot_vs_time P). rewrite Et, Eb. reflexivity.
    - intros k t _ _ _. destruct HTs as (_ & FT). destruct HBs as (_ & FB). try rewrite Et in FT. try rewrite Eb in FB. cbn in FT, FB.
      assert (E1 : Ts = []) by (inversion FT; auto). assert (E2 : Bs0 = []) by (inversion FB; auto). unfold flux_src, Bs. rewrite E1, E2.
      assert (Z : forall d f b, Sg n (fun l => cell IG k l * (d * (tht W m f b l * total (integrals T0 []) t + thb m f b l * total (integrals T0 (map (fun (F : R -> R) (s : R) => bottom_factor P * F s) [])) t))) = 0).
      { intros d f b. rewrite (Sg_ext n _ (fun _ => 0)); [apply Sg_zero|]. intros l _. cbn. ring. }
      rewrite !Z. ring. }
  pose proof (contributes_seq _ _ _ _ _ _ _ _ _ _ S1 S2) as (c & M & H).
  exists c. split; [exact M|]. intros tvals. destruct (H tvals _ _ (zero_tab n tvals)) as (A & E & T). exists A. split; [exact E|].
  intros j i Hj Hi. rewrite T by auto. ring.
Qed.
Lemma c_make_E_shape tvals A : c_make_E_Igamv_the W X tvals = Ok A -> shape A n (length tvals).
Proof using.
  clear. unfold c_make_E_Igamv_the. cbv zeta. fold P n.
  assert (Z0 : shape (zero_table n (length tvals)) n (length tvals)) by apply table_shape.
  revert Z0. generalize (zero_table n (length tvals)). intros acc0 Z0.
  destruct (surcharge_vs_depth P), (surcharge_vs_time P); cbn [bind]; [destruct (add_part n (length tvals) 1 _ acc0) as [A0|] eqn:E0; cbn [bind]; [|discriminate]| | | ];
  destruct (top_vs_time P), (bot_vs_time P); try apply add_part_shape; try (intros E; injection E as <-; auto; fail).
  intros E. injection E as <-. exact (add_part_shape _ _ _ _ _ _ E0).
Qed.
End ColumnLoads.
