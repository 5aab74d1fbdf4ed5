(** * Outputs of the program for stone columns *)
From Coq Require Import Reals List Arith ZArith Lia Lra Bool Sorted.
From Coquelicot Require Import Coquelicot.
From Verif Require Import Base PiecewiseModel LayersModel SpecPiecewise SpecPiecewiseApi PolyLineModel SpecPolyLine PolyLineProofs7 SpectralModel SpecSpectral
  WrapModel SpecWrap LoadModel LoadTrigModel SpecLoad SpecSpeccon SpecconModel SpecconProofs SpecconProofs2 PropsSpeccon SpecconProofs4 SpecconProofs5 SpecGalerkin SpecconProofs6 SpecconProofs7 SpecconProofs8 SpecconProofs9 SpecconProofs10
  WellModel SpecWell WellProofs WellProofs2 WellProofs3 WellProofs4 WellProofs5 WellProofs6 ColumnModel SpecColumn ColumnProofs ColumnProofs2 ColumnProofs3 ColumnProofs4.
Import ListNotations.
Open Scope R_scope.
Local Notation entry := SpecSpectral.entry.

Lemma dot_tabulates M A n tvals a : square n M -> tabulates A n tvals a -> (1 <= n)%nat -> tabulates (dot_mm M A) n tvals (fun j t => Sg n (fun l => cell M j l * a l t)).
Proof.
  intros (LM & RM) (L1 & L2 & L3) Hn.
  assert (HA : length (hd [] A) = length tvals) by (destruct A as [|r A]; [cbn in L1; lia|apply L2; left; auto]).
  pose proof (dot_mm_shape M A) as (D1 & D2). rewrite HA in D2. rewrite LM in D1. split; [exact D1|]. split; [exact D2|].
  intros j i Hj Hi. change (nth i (nth j (dot_mm M A) []) 0) with (cell (dot_mm M A) j i). rewrite cell_dot_mm by lia. rewrite L1. apply Sg_ext. intros k Hk. unfold cell at 2. rewrite L3 by auto. reflexivity.
Qed.
Lemma lin_tabulates A C n tvals a c x y : tabulates A n tvals a -> tabulates C n tvals c -> tabulates (madd (mscale x A) (mscale y C)) n tvals (fun j t => x * a j t + y * c j t).
Proof.
  intros (L1 & L2 & L3) (K1 & K2 & K3).
  assert (SA : shape A n (length tvals)) by (split; auto). assert (SC : shape C n (length tvals)) by (split; auto).
  pose proof (mscale_shape x A _ _ SA) as S1. pose proof (mscale_shape y C _ _ SC) as S2. destruct (madd_shape _ _ _ _ S1 S2) as (M1 & M2).
  split; [exact M1|]. split; [exact M2|]. intros j i Hj Hi. change (PolyLineProofs7.entry (madd (mscale x A) (mscale y C)) j i = x * a j (nth i tvals 0) + y * c j (nth i tvals 0)).
  rewrite (madd_entry _ _ n (length tvals)) by auto. change (entry (mscale x A) j i + entry (mscale y C) j i = x * a j (nth i tvals 0) + y * c j (nth i tvals 0)).
  rewrite !mscale_entry. unfold SpecSpectral.entry. rewrite L3, K3 by auto. ring.
Qed.
Lemma tabulates_ext A n tvals a b : tabulates A n tvals a -> (forall j i, (j < n)%nat -> (i < length tvals)%nat -> a j (nth i tvals 0) = b j (nth i tvals 0)) -> tabulates A n tvals b.
Proof. intros (H1 & H2 & H3) E. split; auto. split; auto. intros. rewrite H3, E; auto. Qed.
Lemma series_RInt m a t z1 z2 : ex_RInt (fun s => series m a s t) z1 z2.
Proof.
  apply (ex_RInt_continuous (V := R_CompleteNormedModule)). intros z _. apply (ex_derive_continuous (V := R_NormedModule)). unfold series.
  generalize (seq 0 (length m)). intros l. induction l as [|j l IH]; cbn [map fold_right]; [auto_derive; auto|].
  apply (ex_derive_plus (V := R_NormedModule)); auto. auto_derive; auto.
Qed.

Section Outputs.
Variable inv : list (list R) -> result (list (list R)).
Variable eig : list (list R) -> result (list R * list (list R)).
Hypothesis Hinv : inverts inv.
Hypothesis Heg : diagonalises eig.
Variables (W : cproblem) (ph : physics) (co : column) (T0 : R) (X : carrays).
Let P := cbase W.
Let B := frame P.
Let n := neig P.
Let m := c_m X.
Let al := alp W.
Hypothesis HW : represents_column T0 W ph co.
Hypothesis Hn : (1 <= n)%nat.
Hypothesis HH : Hh P <> 0.
Hypothesis Hd : dT P <> 0.
Hypothesis HI : c_time_independent inv eig W = Ok X.
Variables (tvals : list R) (vE : list (list R)) (a : nat -> R -> R) (idx : list nat) (r : nat).
Hypothesis ES : c_solve inv eig W tvals = Ok (X, vE).
Hypothesis HE : tabulates vE n tvals a.
Hypothesis Hi : forall k, In k idx -> (k < length tvals)%nat.
Let times := map (fun k => nth k tvals 0) idx.
Let sc := soil_coefs W ph co X r a.
(** The output of the program, in parts. *)
Let fc (k : points) (f : R -> R) := foft_coef n (drn P) m (drive_block n al (c_bet X) r) k f (top_vs_time P) (normalised_bot P) (top_omega_phase P) (bot_omega_phase P).
Let sa j t := Sg n (fun l => cell (block n (c_bet X) r 0) j l * a l t).
Lemma report_parts (f : list R -> list R -> list (list R) -> Z -> option (list points) -> option (list points) -> om_arg -> om_arg -> result (list (list R))) :
  exists A1 A2, tabulates A1 n times sa /\ tabulates A2 n times (fun j t => cdTv W * fc (ckv W) (s_k co) j t + cdTvc W * fc (ckvc W) (c_k co) j t) /\
   c_report inv eig f W tvals idx (Some r) = match top_vs_time P, bot_vs_time P with
     | None, None => f m times A1 (drn P) (top_vs_time P) (normalised_bot P) (top_omega_phase P) (bot_omega_phase P)
     | _, _ => o1 <- f m times A1 (drn P) (top_vs_time P) (normalised_bot P) (top_omega_phase P) (bot_omega_phase P) ;;
       o2 <- f m times A2 (drn P) None None None None ;; Ok (madd o1 o2)
     end.
Proof using Hinv Heg HW Hn HH Hd HI ES HE Hi.
  destruct (c_pieces inv eig Hinv Heg W ph co T0 X HW Hn Hd HI) as (_ & _ & _ & _ & _ & Em & _). change (c_m X) with m in Em. change (cbase W) with P in Em.
  destruct (m_facts P m Em Hn) as (Lm & Nm & _ & Hdrn & _). fold n in Lm.
  pose proof (pick_tabulates vE n tvals a idx HE Hi) as HE'. change (pick idx tvals) with times in HE'.
  pose proof (HF W ph co T0 HW) as HR. fold P B in HR. pose proof HR as (_ & _ & _ & _ & (Ts & HTs & ET & ET0) & (Bs0 & HBs & EB & EB0) & _).
  change (top_vs_time B) with (top_vs_time P) in HTs. change (bot_vs_time B) with (bot_vs_time P) in HBs. change (top_omega_phase B) with (top_omega_phase P) in HTs. change (bot_omega_phase B) with (bot_omega_phase P) in HBs.
  pose proof (bot_loads B T0 HH Bs0 HBs) as HBn. change (normalised_bot B) with (normalised_bot P) in HBn. change (bot_omega_phase B) with (bot_omega_phase P) in HBn.
  pose proof HW as (_ & _ & Pk & _ & _ & Pc & _ & Eb1 & Eb2 & Ed1 & _ & Ed2 & _).
  set (D := drive_block n al (c_bet X) r). assert (SD : square n D) by apply table_square.
  pose proof (dot_tabulates (block n (c_bet X) r 0) _ n times a (table_square _ _) HE' Hn) as T1.
  destruct (foft_ok T0 n (drn P) m D (ckv W) (s_k co) (top_vs_time P) (normalised_bot P) (top_omega_phase P) (bot_omega_phase P) Ts _ Lm Nm SD Pk
     ltac:(apply (csep W ph co T0 HW); intros p [<-|[]]; left; cbn; auto) HTs HBn times) as (F1 & EF1 & TF1).
  destruct (foft_ok T0 n (drn P) m D (ckvc W) (c_k co) (top_vs_time P) (normalised_bot P) (top_omega_phase P) (bot_omega_phase P) Ts _ Lm Nm SD Pc
     ltac:(apply (csep W ph co T0 HW); intros p [<-|[]]; left; cbn; auto) HTs HBn times) as (F2 & EF2 & TF2).
  pose proof (lin_tabulates _ _ _ _ _ _ (cdTv W) (cdTvc W) TF1 TF2) as T2.
  eexists. eexists. split; [exact T1|]. split; [exact T2|].
  unfold c_report. rewrite ES. cbn [bind]. cbv zeta. fold P n m al. change (pick idx tvals) with times. fold D.
  destruct (top_vs_time P) as [lt|] eqn:Et; [|destruct (bot_vs_time P) as [lb|] eqn:Eb].
  3:{ destruct (f _ _ _ _ _ _ _ _); reflexivity. }
  all: destruct (f m times (dot_mm _ _) _ _ _ _ _); cbn [bind]; [|reflexivity]; rewrite EF1, EF2; cbn [bind]; reflexivity.
Qed.
Hypothesis ND : no_column_drive W co.
Hypothesis HdT : dT P = 1 \/ (top_vs_time P = None /\ bot_vs_time P = None).
(** The output of the program: the part from the average pressure, with the boundary loads, and the rest. *)
Lemma report_ok (f : list R -> list R -> list (list R) -> Z -> option (list points) -> option (list points) -> om_arg -> om_arg -> result (list (list R))) :
  exists a1 a2 A1 A2, tabulates A1 n times a1 /\ tabulates A2 n times a2 /\
    (forall j, before_ends (load_tables B) (nth j times 0) -> (forall p, In p (listed (top_vs_time P) ++ listed (bot_vs_time P)) -> no_jump p (nth j times 0)) ->
       forall l, (l < n)%nat -> sc l (nth j times 0) = 1 * a1 l (nth j times 0) + 1 * a2 l (nth j times 0)) /\
    (c_report inv eig f W tvals idx (Some r) = (o1 <- f m times A1 (drn P) (top_vs_time P) (normalised_bot P) (top_omega_phase P) (bot_omega_phase P) ;;
       o2 <- f m times A2 (drn P) None None None None ;; Ok (madd o1 o2)) \/
     ((forall l t, a2 l t = 0) /\ c_report inv eig f W tvals idx (Some r) = f m times A1 (drn P) (top_vs_time P) (normalised_bot P) (top_omega_phase P) (bot_omega_phase P))).
Proof using Hinv Heg HW Hn HH Hd HI ND HdT ES HE Hi.
  destruct (c_pieces inv eig Hinv Heg W ph co T0 X HW Hn Hd HI) as (_ & _ & _ & _ & _ & Em & _). change (c_m X) with m in Em. change (cbase W) with P in Em.
  destruct (m_facts P m Em Hn) as (Lm & Nm & _ & Hdrn & _). fold n in Lm.
  pose proof (pick_tabulates vE n tvals a idx HE Hi) as HE'. change (pick idx tvals) with times in HE'.
  pose proof (HF W ph co T0 HW) as HR. fold P B in HR. pose proof HR as (_ & _ & _ & _ & (Ts & HTs & ET & ET0) & (Bs0 & HBs & EB & EB0) & _).
  change (top_vs_time B) with (top_vs_time P) in HTs. change (bot_vs_time B) with (bot_vs_time P) in HBs. change (top_omega_phase B) with (top_omega_phase P) in HTs. change (bot_omega_phase B) with (bot_omega_phase P) in HBs.
  pose proof (bot_loads B T0 HH Bs0 HBs) as HBn. change (normalised_bot B) with (normalised_bot P) in HBn. change (bot_omega_phase B) with (bot_omega_phase P) in HBn.
  pose proof HW as (_ & _ & Pk & _ & _ & Pc & _ & Eb1 & Eb2 & Ed1 & _ & Ed2 & _).
  destruct (no_drive W ph co T0 X ND Ts Bs0 HTs HBs ET EB) as (ND1 & _). fold P n m in ND1.
  set (D := drive_block n al (c_bet X) r).
  destruct (report_parts f) as (A1 & A2 & T1 & T2 & Er). set (a1 := sa) in *.
  assert (Nothing : top_vs_time P = None /\ bot_vs_time P = None -> forall t l, drive W co m (p_top ph t) (p_bot ph t) l = 0).
  { intros (N1 & N2) t l. destruct HTs as (_ & FT). destruct HBs as (_ & FB). rewrite N1 in FT. rewrite N2 in FB. cbn in FT, FB. assert (T1' : Ts = []) by (inversion FT; auto); assert (B1 : Bs0 = []) by (inversion FB; auto).
    unfold drive, ths, thc. rewrite ET, EB, T1', B1. cbn. field. auto. }
  assert (Sc : forall l t, sc l t = a1 l t + Sg n (fun k => cell D l k * drive W co m (p_top ph t) (p_bot ph t) k)) by (intros; reflexivity).
  assert (CE : forall t, before_ends (load_tables B) t -> (forall p, In p (listed (top_vs_time P) ++ listed (bot_vs_time P)) -> no_jump p t) -> dT P = 1 ->
    forall l, (l < n)%nat -> Sg n (fun k => cell D l k * drive W co m (p_top ph t) (p_bot ph t) k) =
      cdTv W * foft_coef n (drn P) m D (ckv W) (s_k co) (top_vs_time P) (normalised_bot P) (top_omega_phase P) (bot_omega_phase P) l t +
      cdTvc W * foft_coef n (drn P) m D (ckvc W) (c_k co) (top_vs_time P) (normalised_bot P) (top_omega_phase P) (bot_omega_phase P) l t).
  { intros t O NJ E1 l Hl.
    assert (OT : before_ends (listed (top_vs_time P)) t) by (exact (top_ok B t O)).
    assert (OBn : before_ends (listed (normalised_bot P)) t) by (exact (bot_ok B t O)).
    assert (ET' : c0T (top_vs_time P) (top_omega_phase P) t = p_top ph t).
    { rewrite ET. unfold c0T. destruct HTs as (_ & FT). apply (courses_agree T0 _ _ Ts t FT OT). intros p Hp. apply NJ. apply in_or_app; auto. }
    assert (EB' : c0B (normalised_bot P) (bot_omega_phase P) t = p_bot ph t).
    { rewrite EB. change (bottom_factor B) with (bottom_factor P). change (bottom_factor (frame (cbase W))) with (bottom_factor P). rewrite <- total_map. unfold c0B. destruct HBn as (_ & FB). apply (courses_agree T0 _ _ _ t FB OBn).
      intros p Hp. unfold normalised_bot in Hp. destruct (bot_vs_time P) as [lb|] eqn:El; [|destruct Hp]. cbn [listed] in *.
      destruct (Z.eqb (drn P) 1); [|apply NJ; apply in_or_app; right; auto].
      apply in_map_iff in Hp. destruct Hp as (q & <- & Hq). assert (Q : no_jump q t) by (apply NJ; apply in_or_app; right; auto).
      assert (Epx : px (scale (Hh P) q) = px q) by (unfold scale, px; rewrite map_map; reflexivity). intros k Hk. rewrite Epx. apply Q. unfold scale in Hk. rewrite map_length in Hk. exact Hk. }
    unfold foft_coef. rewrite ET', EB'. rewrite <- !Sg_scal, <- Sg_plus. apply Sg_ext. intros k Hk.
    pose proof (ND1 k t Hk) as Z.
    assert (Q1 : fT (drn P) m (ckv W) (s_k co) k * p_top ph t + fB m (ckv W) (s_k co) k * p_bot ph t = ths W co m (p_top ph t) (p_bot ph t) k).
    { unfold ths, tht, thb, fT, fB. rewrite Eb1. reflexivity. }
    assert (Q2 : fT (drn P) m (ckvc W) (c_k co) k * p_top ph t + fB m (ckvc W) (c_k co) k * p_bot ph t = thc W co m (p_top ph t) (p_bot ph t) k).
    { unfold thc, tht, thb, fT, fB. rewrite Eb2. reflexivity. }
    rewrite Q1, Q2, <- Ed1, <- Ed2. unfold drive. change (dT (cbase W)) with (dT P). rewrite E1.
    replace (c_dv co * (cell D l k * thc W co m (p_top ph t) (p_bot ph t) k)) with (cell D l k * (c_dv co * thc W co m (p_top ph t) (p_bot ph t) k)) by ring.
    rewrite Z. field. }
  destruct (top_vs_time P) as [lt|] eqn:Et; [|destruct (bot_vs_time P) as [lb|] eqn:Eb].
  3:{ exists a1, (fun _ _ => 0), A1, (zero_table n (length times)). split; [exact T1|]. split.
      { split; [apply table_shape|]. split; [apply table_shape|]. intros j i Hj Hi'. change (cell (zero_table n (length times)) j i = 0). unfold zero_table. apply cell_table; auto. }
      split; [|right; split; [reflexivity|exact Er]].
      intros j _ _ l Hl. rewrite Sc. rewrite (Sg_ext n _ (fun _ => 0)) by (intros k Hk; rewrite Nothing by auto; ring). rewrite Sg_zero. ring. }
  all: exists a1; eexists; exists A1, A2; (split; [exact T1|]); (split; [exact T2|]); (split; [|left; exact Er]).
  all: intros j O NJ l Hl; cbv beta; rewrite Sc, !Rmult_1_l; f_equal; unfold fc; fold D; try rewrite Et; try rewrite Eb; apply CE; auto; destruct HdT as [H|(H1 & H2)]; [auto|discriminate].
Qed.

Let jumps j := before_ends (load_tables B) (nth j times 0) /\ (forall p, In p (listed (top_vs_time P) ++ listed (bot_vs_time P)) -> no_jump p (nth j times 0)).
Lemma bnd : exists Ts Bs, are_loads T0 (listed (top_vs_time P)) (top_omega_phase P) Ts /\ are_loads T0 (listed (normalised_bot P)) (bot_omega_phase P) Bs /\
  forall b z t, pressure (drn P) m b (total Ts) (total Bs) z t = pore B ph m b z t.
Proof using HW HH.
  pose proof (HF W ph co T0 HW) as (_ & _ & _ & _ & (Ts & HTs & ET & ET0) & (Bs0 & HBs & EB & EB0) & _).
  exists Ts, (map (fun F s => bottom_factor B * F s) Bs0). split; [exact HTs|]. split; [exact (bot_loads B T0 HH Bs0 HBs)|].
  intros b z t. unfold pore. rewrite ET, EB. unfold pressure. rewrite total_map. reflexivity.
Qed.
Lemma bnd_in Ts : are_loads T0 (listed (top_vs_time P)) (top_omega_phase P) Ts -> forall t, before_ends (load_tables B) t -> before_ends (listed (top_vs_time P)) t /\ before_ends (listed (normalised_bot P)) t.
Proof using. intros _ t O. split; [exact (top_ok B t O)|exact (bot_ok B t O)]. Qed.
Lemma rpor_ok zs : (forall z, In z zs -> 0 <= z <= 1) -> exists A, c_make_por inv eig W tvals zs idx (Some r) = Ok A /\ shape A (length zs) (length idx) /\
  forall i j, (i < length zs)%nat -> (j < length idx)%nat -> jumps j -> entry A i j = pore B ph m sc (nth i zs 0) (nth j times 0).
Proof using Hinv Heg HW Hn HH Hd HI ND HdT ES HE Hi.
  intros Hz. destruct (c_pieces inv eig Hinv Heg W ph co T0 X HW Hn Hd HI) as (_ & _ & _ & _ & _ & Em & _). change (c_m X) with m in Em.
  destruct (m_facts P m Em Hn) as (Lm & Nm & _). fold n in Lm. assert (Lt : length times = length idx) by (apply map_length).
  destruct bnd as (Ts & Bs & HT & HB & Eu).
  destruct (report_ok (fun m tv A => dim1sin_f m zs tv A)) as (a1 & a2 & A1 & A2 & T1 & T2 & Es & Er).
  destruct (C99_pressure (drn P) m times A1 a1 T0 _ _ _ _ Ts Bs ltac:(rewrite Lm; exact T1) ltac:(lia) HT HB zs Hz) as (O1 & EO1 & SO1 & HO1). rewrite Lt in SO1, HO1.
  destruct (C99_pressure (drn P) m times A2 a2 T0 None None None None [] [] ltac:(rewrite Lm; exact T2) ltac:(lia) ltac:(split; [reflexivity|constructor]) ltac:(split; [reflexivity|constructor]) zs Hz) as (O2 & EO2 & SO2 & HO2). rewrite Lt in SO2, HO2.
  assert (K : forall i j, (i < length zs)%nat -> (j < length idx)%nat -> jumps j -> pore B ph m sc (nth i zs 0) (nth j times 0) = entry O1 i j + series m a2 (nth i zs 0) (nth j times 0)).
  { intros i j Hi' Hj (J1 & J2). rewrite (HO1 i j Hi' Hj (bnd_in Ts HT _ J1)). rewrite Eu.
    unfold pore, pressure. rewrite (series_lin m a1 a2 sc 1 1) by (intros l Hl; apply Es; auto; lia). ring. }
  unfold c_make_por. destruct Er as [Er|(Z2 & Er)]; rewrite Er, EO1; cbn [bind].
  - rewrite EO2. cbn [bind]. exists (madd O1 O2). split; [reflexivity|]. split; [apply madd_shape; auto|].
    intros i j Hi' Hj J. rewrite K by auto. change (PolyLineProofs7.entry (madd O1 O2) i j = PolyLineProofs7.entry O1 i j + series m a2 (nth i zs 0) (nth j times 0)).
    rewrite (madd_entry _ _ (length zs) (length idx)) by auto. f_equal. change (entry O2 i j = series m a2 (nth i zs 0) (nth j times 0)). rewrite (HO2 i j Hi' Hj ltac:(split; intros ? [])).
    unfold pressure, total. cbn [map fold_right]. ring.
  - exists O1. split; [reflexivity|]. split; [exact SO1|]. intros i j Hi' Hj J. rewrite K by auto.
    rewrite (series_lin m a2 a2 a2 0 0) by (intros; rewrite Z2; ring). ring.
Qed.
Lemma ravp_ok zp : (forall q, In q zp -> 0 <= fst q /\ fst q < snd q /\ snd q <= 1) -> exists A, c_make_avp inv eig W tvals zp idx (Some r) = Ok A /\ shape A (length zp) (length idx) /\
  forall i j, (i < length zp)%nat -> (j < length idx)%nat -> jumps j ->
    is_RInt (fun s => pore B ph m sc s (nth j times 0)) (fst (nth i zp (0, 0))) (snd (nth i zp (0, 0))) (entry A i j * (snd (nth i zp (0, 0)) - fst (nth i zp (0, 0)))).
Proof using Hinv Heg HW Hn HH Hd HI ND HdT ES HE Hi.
  intros Hz. destruct (c_pieces inv eig Hinv Heg W ph co T0 X HW Hn Hd HI) as (_ & _ & _ & _ & _ & Em & _). change (c_m X) with m in Em.
  destruct (m_facts P m Em Hn) as (Lm & Nm & _). fold n in Lm. assert (Lt : length times = length idx) by (apply map_length).
  destruct bnd as (Ts & Bs & HT & HB & Eu).
  destruct (report_ok (fun m tv A => dim1sin_avgf m zp tv A)) as (a1 & a2 & A1 & A2 & T1 & T2 & Es & Er).
  destruct (C99_average (drn P) m times A1 a1 T0 _ _ _ _ Ts Bs ltac:(rewrite Lm; exact T1) ltac:(lia) HT HB zp Hz Nm) as (O1 & EO1 & SO1 & HO1). rewrite Lt in SO1, HO1.
  destruct (C99_average (drn P) m times A2 a2 T0 None None None None [] [] ltac:(rewrite Lm; exact T2) ltac:(lia) ltac:(split; [reflexivity|constructor]) ltac:(split; [reflexivity|constructor]) zp Hz Nm) as (O2 & EO2 & SO2 & HO2). rewrite Lt in SO2, HO2.
  assert (K : forall i j x, (i < length zp)%nat -> (j < length idx)%nat -> jumps j -> is_RInt (fun s => series m a2 s (nth j times 0)) (fst (nth i zp (0, 0))) (snd (nth i zp (0, 0))) x ->
    is_RInt (fun s => pore B ph m sc s (nth j times 0)) (fst (nth i zp (0, 0))) (snd (nth i zp (0, 0))) (entry O1 i j * (snd (nth i zp (0, 0)) - fst (nth i zp (0, 0))) + x)).
  { intros i j x Hi' Hj (J1 & J2) Hx. pose proof (HO1 i j Hi' Hj (bnd_in Ts HT _ J1)) as Y.
    eapply RInt_eq; [exact (RInt_add _ _ _ _ _ _ Y Hx)| |reflexivity]. intros s. cbv beta. rewrite Eu.
    unfold pore, pressure. rewrite (series_lin m a1 a2 sc 1 1) by (intros l Hl; apply Es; auto; lia). ring. }
  unfold c_make_avp. destruct Er as [Er|(Z2 & Er)]; rewrite Er, EO1; cbn [bind].
  - rewrite EO2. cbn [bind]. exists (madd O1 O2). split; [reflexivity|]. split; [apply madd_shape; auto|].
    intros i j Hi' Hj J. pose proof (HO2 i j Hi' Hj ltac:(split; intros ? [])) as Y.
    assert (Y' : is_RInt (fun s => series m a2 s (nth j times 0)) (fst (nth i zp (0, 0))) (snd (nth i zp (0, 0))) (entry O2 i j * (snd (nth i zp (0, 0)) - fst (nth i zp (0, 0))))).
    { eapply RInt_eq; [exact Y| |reflexivity]. intros s. cbv beta. unfold pressure, total. cbn [map fold_right]. ring. }
    eapply RInt_eq; [exact (K i j _ Hi' Hj J Y')|reflexivity|].
    change (entry (madd O1 O2) i j) with (PolyLineProofs7.entry (madd O1 O2) i j). rewrite (madd_entry _ _ (length zp) (length idx)) by auto.
    match goal with |- ?u = ?v => change (@eq R u v) end. change (PolyLineProofs7.entry O1 i j) with (entry O1 i j). change (PolyLineProofs7.entry O2 i j) with (entry O2 i j). ring.
  - exists O1. split; [reflexivity|]. split; [exact SO1|]. intros i j Hi' Hj J.
    assert (Y' : is_RInt (fun s => series m a2 s (nth j times 0)) (fst (nth i zp (0, 0))) (snd (nth i zp (0, 0))) 0).
    { pose proof (is_RInt_const (V := R_NormedModule) (fst (nth i zp (0, 0))) (snd (nth i zp (0, 0))) 0) as Y. unfold scal in Y; cbn in Y; unfold Hierarchy.mult in Y; cbn in Y.
      eapply RInt_eq; [exact Y| |match goal with |- ?u = ?v => change (@eq R u v) end; ring]. intros s. cbv beta. rewrite (series_lin m a2 a2 a2 0 0) by (intros; rewrite Z2; ring). ring. }
    eapply RInt_eq; [exact (K i j _ Hi' Hj J Y')|reflexivity|]. match goal with |- ?u = ?v => change (@eq R u v) end. ring.
Qed.
End Outputs.
