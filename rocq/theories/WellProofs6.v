(** * Outputs of the program with well resistance *)
From Coq Require Import Reals List Arith ZArith Lia Lra Bool Sorted.
From Coquelicot Require Import Coquelicot.
From Verif Require Import Base PiecewiseModel LayersModel SpecPiecewise SpecPiecewiseApi PolyLineModel SpecPolyLine PolyLineProofs7 SpectralModel SpecSpectral
  WrapModel SpecWrap LoadModel LoadTrigModel SpecLoad SpecSpeccon SpecconModel SpecconProofs SpecconProofs2 PropsSpeccon SpecconProofs4 SpecconProofs5 SpecGalerkin SpecconProofs6 SpecconProofs7 SpecconProofs8 SpecconProofs9 SpecconProofs10
  WellModel SpecWell WellProofs WellProofs2 WellProofs3 WellProofs4 WellProofs5.
Import ListNotations.
Open Scope R_scope.
Local Notation entry := SpecSpectral.entry.

Lemma series_lin m a1 a2 a3 c1 c2 z t : (forall j, (j < length m)%nat -> a3 j t = c1 * a1 j t + c2 * a2 j t) -> series m a3 z t = c1 * series m a1 z t + c2 * series m a2 z t.
Proof.
  intros H. unfold series. change (Sg (length m) (fun j => a3 j t * sin (nth j m 0 * z)) = c1 * Sg (length m) (fun j => a1 j t * sin (nth j m 0 * z)) + c2 * Sg (length m) (fun j => a2 j t * sin (nth j m 0 * z))).
  rewrite <- !Sg_scal, <- Sg_plus. apply Sg_ext. intros j Hj. rewrite (H j Hj). ring.
Qed.
Section Drain.
Variable inv : list (list R) -> result (list (list R)).
Variable eig : list (list R) -> result (list R * list (list R)).
Hypothesis Hinv : inverts inv.
Hypothesis Heg : diagonalises eig.
Variables (W : wproblem) (ph : physics) (dr : drain) (T0 : R) (X : warrays).
Let B := bare (soil W).
Let P := soil W.
Let n := neig P.
Let m := w_m X.
Hypothesis HW : represents_well T0 W ph dr.
Hypothesis Hn : (1 <= n)%nat.
Hypothesis HH : Hh P <> 0.
Hypothesis Hd : dT P <> 0.
Hypothesis HI : w_time_independent inv eig W = Ok X.
Let dc := drain_coefs W ph dr X.
Let b0 := dc (fun _ _ => 0).
Lemma porwell_ok tvals vE a idx zs : w_solve inv eig W tvals = Ok (X, vE) -> tabulates vE n tvals a -> (forall k, In k idx -> (k < length tvals)%nat) ->
  (forall z, In z zs -> 0 <= z <= 1) ->
  let times := map (fun k => nth k tvals 0) idx in
  exists A, w_make_porwell inv eig W tvals zs idx = Ok A /\ shape A (length zs) (length idx) /\
    forall i j, (i < length zs)%nat -> (j < length idx)%nat -> before_ends (load_tables B) (nth j times 0) ->
      (forall p, In p (listed (top_vs_time P) ++ listed (bot_vs_time P)) -> no_jump p (nth j times 0)) ->
      entry A i j = pore B ph m (dc a) (nth i zs 0) (nth j times 0)
        + (/ bottom_factor P - 1) * p_bot ph (nth j times 0) * nth i zs 0 + (dT P - 1) * series m b0 (nth i zs 0) (nth j times 0).
Proof using Hinv Heg HW Hn HH Hd HI.
  intros ES HE Hi Hz times.
  destruct (w_pieces inv eig Hinv Heg W ph dr T0 X HW Hn Hd HI) as (gam & psi & ig & psi_w & Em & SG & SP & SI & SV & SN & Le & SS & SIw & _). change (w_m X) with m in Em. change (neig (soil W)) with n in *. change (soil W) with P in Em.
  destruct (m_facts P m Em Hn) as (Lm & Nm & _ & Hdrn & _). fold n in Lm.
  pose proof (pick_tabulates vE n tvals a idx HE Hi) as HE'. change (pick idx tvals) with times in HE'.
  assert (Lt : length times = length idx) by (unfold times; apply map_length).
  pose proof (HB W ph dr T0 HW) as HR. fold B in HR. pose proof HR as (_ & _ & _ & _ & (Ts & HTs & ET & ET0) & (Bs0 & HBs & EB & EB0) & _).
  change (top_vs_time B) with (top_vs_time P) in HTs. change (bot_vs_time B) with (bot_vs_time P) in HBs. change (top_omega_phase B) with (top_omega_phase P) in HTs. change (bot_omega_phase B) with (bot_omega_phase P) in HBs.
  pose proof (bot_loads B T0 HH Bs0 HBs) as HBn. change (normalised_bot B) with (normalised_bot P) in HBn. change (bot_omega_phase B) with (bot_omega_phase P) in HBn.
  pose proof HW as (_ & _ & _ & _ & Pk & Ekb & _ & Ed).
  (* first part *)
  set (M := dot_mm (w_Ipsi_w X) (w_psi_s X)).
  pose proof (square_dot n _ _ SIw SS Hn) as SM. fold M in SM.
  set (a' := fun j t => Sg n (fun l => cell M j l * a l t)).
  assert (TA : tabulates (dot_mm M (pick_columns idx vE)) (length m) times a').
  { rewrite Lm. destruct HE' as (L1 & L2 & L3).
    assert (HA : length (hd [] (pick_columns idx vE)) = length times) by (destruct (pick_columns idx vE) as [|r A]; [cbn in L1; lia|apply L2; left; auto]).
    pose proof (dot_mm_shape M (pick_columns idx vE)) as (D1 & D2). rewrite HA in D2. destruct SM as (LM & RM). rewrite LM in D1.
    split; [exact D1|]. split; [exact D2|]. intros j i Hj Hi'. change (nth i (nth j (dot_mm M (pick_columns idx vE)) []) 0) with (cell (dot_mm M (pick_columns idx vE)) j i).
    rewrite cell_dot_mm by lia. rewrite L1. apply Sg_ext. intros k Hk. unfold cell at 2. rewrite L3 by auto. reflexivity. }
  destruct (C99_pressure (drn P) m times _ a' T0 _ _ _ _ Ts Bs0 TA ltac:(lia) HTs HBs zs Hz) as (A & EA & SA & HA). rewrite Lt in SA, HA.
  (* second part *)
  destruct (foft_ok T0 n (drn P) m (w_Ipsi_w X) (wkw W) (f_kw dr) (top_vs_time P) (normalised_bot P) (top_omega_phase P) (bot_omega_phase P) Ts _ Lm Nm SIw Pk
     ltac:(apply (wsep W ph dr T0 HW); intros p [<-|[]]; left; cbn; auto) HTs HBn times) as (F & EF & TF).
  rewrite <- Lm in TF at 1.
  destruct (C99_pressure (drn P) m times F _ T0 None None None None [] [] TF ltac:(lia) ltac:(split; [reflexivity|constructor]) ltac:(split; [reflexivity|constructor]) zs Hz) as (A2 & EA2 & SA2 & HA2). rewrite Lt in SA2, HA2.
  exists (madd A (mscale (wdTw W) A2)). split; [|split].
  - unfold w_make_porwell. cbv zeta. fold P. rewrite ES. cbn [bind]. fold m M. change (pick idx tvals) with times. rewrite EA. cbn [bind]. rewrite EF. cbn [bind]. rewrite EA2. reflexivity.
  - apply madd_shape; auto. apply mscale_shape; auto.
  - intros i j Hi' Hj O NJ. set (t := nth j times 0) in *. set (z := nth i zs 0).
    assert (OT : before_ends (listed (top_vs_time P)) t) by (exact (top_ok B t O)).
    assert (OB : before_ends (listed (bot_vs_time P)) t) by (intros p Hp; apply O; unfold load_tables; apply in_or_app; right; apply in_or_app; left; exact Hp).
    assert (OBn : before_ends (listed (normalised_bot P)) t) by (exact (bot_ok B t O)).
    change (PolyLineProofs7.entry (madd A (mscale (wdTw W) A2)) i j = pore B ph m (dc a) z t + (/ bottom_factor P - 1) * p_bot ph t * z + (dT P - 1) * series m b0 z t).
    rewrite (madd_entry _ _ (length zs) (length idx)) by (auto; apply mscale_shape; auto).
    change (PolyLineProofs7.entry A i j) with (entry A i j). change (PolyLineProofs7.entry (mscale (wdTw W) A2) i j) with (entry (mscale (wdTw W) A2) i j). rewrite mscale_entry.
    rewrite (HA i j Hi' Hj (conj OT OB)). rewrite (HA2 i j Hi' Hj ltac:(split; intros ? [])). fold t z.
    (* the load values agree *)
    assert (ET' : c0T (top_vs_time P) (top_omega_phase P) t = p_top ph t).
    { rewrite ET. unfold c0T. destruct HTs as (_ & FT). apply (courses_agree T0 _ _ Ts t FT OT). intros p Hp. apply NJ. apply in_or_app; auto. }
    assert (EB' : c0B (normalised_bot P) (bot_omega_phase P) t = p_bot ph t).
    { rewrite EB. change (bottom_factor B) with (bottom_factor P). rewrite <- total_map. unfold c0B. destruct HBn as (_ & FB). apply (courses_agree T0 _ _ _ t FB OBn).
      intros p Hp. unfold normalised_bot in Hp. destruct (bot_vs_time P) as [l|] eqn:El; [|destruct Hp]. cbn [listed] in *.
      destruct (Z.eqb (drn P) 1); [|apply NJ; apply in_or_app; right; auto].
      apply in_map_iff in Hp. destruct Hp as (q & <- & Hq). assert (Q : no_jump q t) by (apply NJ; apply in_or_app; right; auto).
      assert (Epx : px (scale (Hh P) q) = px q) by (unfold scale, px; rewrite map_map; reflexivity). intros k Hk. rewrite Epx. apply Q. unfold scale in Hk. rewrite map_length in Hk. exact Hk. }
    set (cF := foft_coef n (drn P) m (w_Ipsi_w X) (wkw W) (f_kw dr) (top_vs_time P) (normalised_bot P) (top_omega_phase P) (bot_omega_phase P)).
    set (th := fun k => thT W dr X k * p_top ph t + thB dr X k * p_bot ph t).
    assert (EcF : forall j, cF j t = Sg n (fun k => cell (w_Ipsi_w X) j k * th k)).
    { intros j'. unfold cF, foft_coef. rewrite ET', EB'. apply Sg_ext. intros k Hk. unfold th, thT, thB, fT, fB. fold m P. rewrite Ekb. reflexivity. }
    assert (Edc : forall j', (j' < n)%nat -> dc a j' t = 1 * a' j' t + d_w dr / dT P * cF j' t).
    { intros j' Hj'. unfold dc, drain_coefs. fold P n. rewrite EcF.
      rewrite (Sg_ext n _ (fun k => cell (w_Ipsi_w X) j' k * Sg n (fun l => cell (w_psi_s X) k l * a l t) + d_w dr / dT P * (cell (w_Ipsi_w X) j' k * th k))) by (intros; unfold th; ring).
      rewrite Sg_plus, Sg_scal, Rmult_1_l. f_equal. unfold a'. rewrite <- (massoc n (cell (w_Ipsi_w X) j') (fun l => a l t) (cell (w_psi_s X))). apply Sg_ext. intros l Hl. unfold M. rewrite (cell_dot n) by auto. reflexivity. }
    assert (Eb0 : forall j', (j' < n)%nat -> b0 j' t = 0 * a' j' t + d_w dr / dT P * cF j' t).
    { intros j' Hj'. unfold b0, dc, drain_coefs. fold P n. rewrite EcF, <- Sg_scal, Rmult_0_l, Rplus_0_l. apply Sg_ext. intros k Hk.
      rewrite (Sg_ext n (fun l => cell (w_psi_s X) k l * 0) (fun _ => 0)) by (intros; ring). rewrite Sg_zero. unfold th. ring. }
    unfold pore, pressure. change (drn B) with (drn P).
    rewrite (series_lin m a' cF (dc a) 1 (d_w dr / dT P) z t) by (intros; apply Edc; lia).
    rewrite (series_lin m a' cF b0 0 (d_w dr / dT P) z t) by (intros; apply Eb0; lia).
    fold cF. rewrite ET, EB. change (bottom_factor B) with (bottom_factor P).
    assert (Hf : bottom_factor P <> 0) by (unfold bottom_factor; destruct (Z.eqb (drn P) 1); [exact HH|lra]).
    unfold total at 3 4. cbn [map fold_right]. rewrite <- Ed. field. auto.
Qed.
End Drain.
