(** * SpecBeam: what the constructor stores, and the loads in physical units *)
From Coq Require Import Reals List Arith ZArith Bool Lia Lra.
From Coquelicot Require Import Coquelicot.
From Verif Require Import Base PiecewiseModel PolyLineModel SpecWrap SpecPolyLine SpectralModel WrapModel BeamModel DingModel DingProofs PropsDing PropsBeam6 SpecBeamModel SpecBeamSpec SpecBeamProofs1.
Import ListNotations.
Local Open Scope R_scope.

Ltac unbind H := repeat (match type of H with bind ?m _ = Ok _ => let E := fresh "Q" in destruct m eqn:E; [cbn [bind] in H|discriminate H] end).

Lemma sumR_scal c l : c * sumR l = sumR (map (fun y => c * y) l).
Proof. induction l as [|a l IH]; [unfold sumR; cbn; ring|]. cbn [map]. change (sumR (?a :: ?l)) with (a + sumR l). rewrite Rmult_plus_distr_l, IH. reflexivity. Qed.
Lemma Forall2_length' {A B} (P : A -> B -> Prop) l r : Forall2 P l r -> length l = length r. Proof. induction 1; cbn; auto. Qed.
Section S.
Variable solve : list (list R) -> list R -> result (list R).
Variables (E I rho A L k1 k3 mu : R).
Hypothesis (HE : 0 < E) (HI : 0 < I) (Hr : 0 < rho) (HA : 0 < A) (HL : 0 < L).
Lemma init_phys i o : beam_of i E I rho A L k1 k3 mu -> sb_init solve i = Ok o ->
  b_BC i = SS /\ s_in o = i /\ s_kf o = 1 / L * sqrt (I / A) /\ s_mu o = mu / A * sqrt (L ^ 2 / (rho * E)) /\ s_k1 o = k1 * L ^ 2 / (E * A) /\ s_k3 o = k3 * L ^ 4 / (E * A) /\
  s_beta o = map (fun k => PI * (INR k + 1)) (seq 0 (b_nterms i)) /\ moving i = Ok (s_moving o, s_raw o) /\ stationary i = Ok (s_stat o) /\
  match b_nquad i with None => s_quad o = None | Some N => exists Ij, weights solve (points_SS N) = Ok Ij /\ s_quad o = Some (points_SS N, Ij) end.
Proof.
  intros (B1 & B2 & B3 & B4 & B5 & B6 & B7 & B8 & B9 & B10 & B11 & B12) H. unfold sb_init in H. cbn zeta in H.
  match type of H with (if ?b then _ else _) = _ => destruct b; [discriminate|] end.
  destruct (moving i) as [[mv raw]|] eqn:EM; [|destruct (match b_kf i with Some x => _ | None => _ end); discriminate].
  destruct (stationary i) as [st|] eqn:ES; [|unbind H; discriminate].
  rewrite B1, B2, B3, B4, B5, B6, B7, B9, B10, B11, B12 in H. cbn [need bind scaled is_none andb] in H.
  assert (K : scaled (if is_none (b_k3 i) then Some 0 else None) (if is_none (b_k3 i) then Some 0 else b_k3 i) (fun k => Ok (k * L ^ 4 / (E * A))) = Ok (k3 * L ^ 4 / (E * A))).
  { destruct B8 as [-> | [-> ->]]; cbn; [reflexivity|]. f_equal. unfold Rdiv. ring. }
  unbind H. rewrite K in Q1. assert (QE : a1 = k3 * L ^ 4 / (E * A)) by congruence. subst a1. clear Q1.
  destruct (b_BC i); try discriminate. unbind H. injection H as <-. cbn [s_in s_kf s_mu s_k1 s_k3 s_beta s_moving s_raw s_stat s_quad fst snd].
  repeat (match goal with |- _ /\ _ => split end); auto. destruct (b_nquad i) as [N|]; [|congruence]. destruct (weights solve (points_SS N)) as [Ij|]; [|discriminate]. cbn in Q1. injection Q1 as <-. eauto.
Qed.
(** *** vehicles *)
Lemma zip7_maps {T} (f1 f2 : T -> list R) (f3 f4 f5 f6 f7 : T -> R) (l : list T) :
  zip7 (map f1 l) (map f2 l) (map f3 l) (map f4 l) (map f5 l) (map f6 l) (map f7 l) = map (fun v => (f1 v, f2 v, f3 v, f4 v, f5 v, f6 v, f7 v)) l.
Proof. induction l as [|a l IH]; [reflexivity|]. cbn. rewrite IH. reflexivity. Qed.
Lemma moving_phys i V m raw : beam_of i E I rho A L k1 k3 mu -> vehicles_of i V -> moving i = Ok (m, raw) ->
  match m with None => V = [] | Some l => Forall2 (fun v o => mpl_init (map (fun x => x / L) (vx v)) (map (fun p => p / (E * A)) (vF v)) (voff v / L) (Some (vv v * sqrt (rho / E))) (Some 1) 0 0 = Ok o) V l end.
Proof.
  intros (B1 & B2 & B3 & B4 & B5 & _) (N1 & N2 & N3 & N4 & N5 & N6 & N7 & N8 & N9 & N10 & HV & _) H.
  unfold moving in H. rewrite N1, N2, N3 in H. cbn [is_none andb scaled] in H. destruct HV as [(-> & X1 & X2 & X3)|(X1 & X2 & X3 & X4)].
  { rewrite X1, X2, X3 in H. cbn in H. injection H as <- _. reflexivity. }
  rewrite X1, X2, X3 in H. cbn [is_none andb] in H.
  rewrite (mapM_map _ (map (fun x => x / L))) in H by (intros a _; apply mapM_map; intros x _; unfold divL; rewrite B5; reflexivity). cbn [bind] in H.
  rewrite (mapM_map _ (map (fun p => p / (E * A)))) in H by (intros a _; apply mapM_map; intros x _; unfold divEA; rewrite B1, B4; reflexivity). cbn [bind] in H.
  rewrite (mapM_map _ (fun v => v * sqrt (rho / E))) in H by (intros a _; unfold vscale; rewrite B3, B1; reflexivity). cbn [bind] in H.
  rewrite N4, N5, N6, N7, N8, N9, N10 in H. unfold optional_var in H at 2 3 4. unfold tscale, divL, need in H. rewrite B1, B3, B5 in H. cbn [bind] in H.
  assert (OF : optional_var (b_moff i) None (Some (map vx V)) (Some (map (map (fun x => x / L)) (map vx V))) (Ok 0) 0 (fun x => Ok (x / L)) = Ok (map (fun v => voff v / L) V)).
  { unfold optional_var. destruct X4 as [-> | [-> X4]]; [rewrite (mapM_map _ (fun x => x / L)) by auto; rewrite map_map; reflexivity|]. cbn [bind]. f_equal. rewrite map_map. apply map_ext_in. intros v Hv. rewrite (X4 v Hv). reflexivity. }
  rewrite OF in H. cbn [bind] in H. rewrite !map_map in H. rewrite zip7_maps in H.
  match type of H with bind ?z _ = _ => destruct z as [l|] eqn:EM; [|discriminate] end. cbn [bind] in H. unbind H. injection H as <- _.
  apply mapM_Ok_Forall2 in EM. clear - EM HL. assert (L1 : L / L = 1) by (field; lra). assert (L2 : 0 / L = 0) by (field; lra). revert l EM. induction V as [|v V IH]; intros l EM; inversion EM; subst; constructor; auto.
  rewrite L1, !L2, Rmult_0_l in H1. exact H1.
Qed.
Lemma ratio : sqrt (rho / E) * sqrt (E / rho) = 1.
Proof. rewrite <- sqrt_mult by (apply Rlt_le, Rdiv_lt_0_compat; lra). replace (rho / E * (E / rho)) with 1 by (field; lra). apply sqrt_1. Qed.
Lemma axle_scale v a t : L * axle_at (v * sqrt (rho / E)) 1 0 0 (a / L) (t / L * sqrt (E / rho)) = axle_at v L 0 0 a t.
Proof.
  assert (S0 : 0 < sqrt (rho / E)) by (apply sqrt_lt_R0, Rdiv_lt_0_compat; lra). assert (RR := ratio). unfold axle_at.
  assert (M : L * (v * sqrt (rho / E) * (t / L * sqrt (E / rho) - 0)) = v * (t - 0)). { replace (L * (v * sqrt (rho / E) * (t / L * sqrt (E / rho) - 0))) with (v * t * (sqrt (rho / E) * sqrt (E / rho))) by (field; lra). rewrite RR. ring. }
  assert (A1 : L * (a / L) = a) by (field; lra).
  destruct (Rltb v 0) eqn:E1; [apply Rltb_true in E1|apply Rltb_false in E1].
  - assert (E2 : Rltb (v * sqrt (rho / E)) 0 = true) by (apply Rltb_true; nra). rewrite E2. revert A1 M. generalize (a / L) as z, (v * sqrt (rho / E) * (t / L * sqrt (E / rho) - 0)) as X. intros z X A1 M. rewrite <- M, <- A1. ring.
  - assert (E2 : Rltb (v * sqrt (rho / E)) 0 = false) by (apply Rltb_false; nra). rewrite E2. revert A1 M. generalize (a / L) as z, (v * sqrt (rho / E) * (t / L * sqrt (E / rho) - 0)) as X. intros z X A1 M. rewrite <- M, <- A1. ring.
Qed.
Lemma mode_scale k z : mode L k (L * z) = sin (PI * (INR k + 1) * z).
Proof. unfold mode. f_equal. field. lra. Qed.
Lemma nth_combine_map {X} (f : X -> R) (l : list X) i d : (i < length l)%nat -> nth i (map f l) 0 = f (nth i l d).
Proof. intros H. rewrite (nth_indep _ 0 (f d)) by (rewrite map_length; auto). apply map_nth. Qed.
Lemma vehicle_phys v o k t f : length (vF v) = length (vx v) -> vv v <> 0 ->
  mpl_init (map (fun x => x / L) (vx v)) (map (fun p => p / (E * A)) (vF v)) (voff v / L) (Some (vv v * sqrt (rho / E))) (Some 1) 0 0 = Ok o ->
  vehicle_load (PI * (INR k + 1)) (t / L * sqrt (E / rho)) o = Ok f -> E * A * f = vehicle_force L t (mode L k) v.
Proof.
  intros H1 H2 H3 H4. unfold vehicle_load in H4. destruct (point_loads_on_beam o (t / L * sqrt (E / rho))) as [o'|] eqn:EP; [|discriminate]. cbn [bind] in H4. injection H4 as <-.
  assert (S0 : 0 < sqrt (rho / E)) by (apply sqrt_lt_R0, Rdiv_lt_0_compat; lra).
  assert (V0 : vv v * sqrt (rho / E) <> 0) by (apply Rmult_integral_contrapositive_currified; lra).
  destruct (C152_loads _ _ _ _ _ _ _ _ _ H3 V0 ltac:(reflexivity) ltac:(rewrite !map_length; exact H1) EP) as (P1 & P2 & P3). rewrite map_length in P1, P2, P3.
  unfold vehicle_force. assert (SC : forall l, E * A * sumR l = sumR (map (fun y => E * A * y) l)) by (intros; apply sumR_scal). rewrite SC, map_map. f_equal.
  apply nth_ext with (d := 0) (d' := 0); [rewrite !map_length, !combine_length; lia|]. intros i Hi. rewrite map_length, combine_length, P1, P2, Nat.min_id in Hi.
  rewrite (nth_combine_map _ _ i (0, 0)) by (rewrite combine_length; lia). rewrite (nth_combine_map _ _ i (0, 0)) by (rewrite combine_length; lia).
  rewrite !combine_nth by lia. cbn [fst snd]. destruct (P3 i Hi) as (Q1 & Q2 & Q3). rewrite (nth_map1 (fun x => x / L)) in Q1, Q2, Q3 by auto. rewrite (nth_map1 (fun p => p / (E * A))) in Q2 by lia.
  replace (nth i (vx v) 0 / L + voff v / L) with ((nth i (vx v) 0 + voff v) / L) in Q1, Q2, Q3 by (field; lra). set (a := nth i (vx v) 0 + voff v) in *.
  assert (AX := axle_scale (vv v) a t). rewrite <- Q1 in AX. set (X := nth i (xnow o') 0) in *. unfold is_on in Q2, Q3. rewrite <- Q1 in Q2, Q3. rewrite <- AX.
  assert (B : 0 <= X <= 0 + 1 <-> 0 <= L * X <= L) by (split; intros; split; nra).
  destruct (Rleb 0 (L * X)) eqn:E1; [apply Rleb_true in E1; destruct (Rleb (L * X) L) eqn:E2; [apply Rleb_true in E2|apply Rleb_false in E2]|apply Rleb_false in E1]; cbn [andb].
  - rewrite Q2 by (apply B; split; assumption). rewrite mode_scale. field. lra.
  - rewrite Q3 by (intros HH; apply B in HH; lra). ring.
  - rewrite Q3 by (intros HH; apply B in HH; lra). ring.
Qed.
Lemma vehicles_phys V l k t fs : (forall v, In v V -> length (vF v) = length (vx v) /\ vv v <> 0) ->
  Forall2 (fun v o => mpl_init (map (fun x => x / L) (vx v)) (map (fun p => p / (E * A)) (vF v)) (voff v / L) (Some (vv v * sqrt (rho / E))) (Some 1) 0 0 = Ok o) V l ->
  mapM (vehicle_load (PI * (INR k + 1)) (t / L * sqrt (E / rho))) l = Ok fs -> E * A * sumR fs = sumR (map (vehicle_force L t (mode L k)) V).
Proof.
  intros HV F M. apply mapM_Ok_Forall2 in M. revert fs M. induction F as [|v o V l H F IH]; intros fs M; inversion M as [|? f ? fs' M1 M2]; subst; [unfold sumR; cbn; ring|]. cbn [map]. change (sumR (?a :: ?l)) with (a + sumR l).
  rewrite Rmult_plus_distr_l, (IH (fun v Hv => HV v (or_intror Hv)) fs' M2). f_equal. destruct (HV v (or_introl eq_refl)) as [A1 A2]. apply (vehicle_phys v o k t f A1 A2 H M1).
Qed.
(** *** stationary loads *)
Lemma stationary_phys i S st : beam_of i E I rho A L k1 k3 mu -> standing_of i S -> stationary i = Ok st ->
  match st with None => S = [] | Some (xs, Ps, ops) => xs = map (fun s => sx s / L) S /\ Ps = map (fun s => map (fun q => (fst q / L * sqrt (E / rho), snd q / (E * A))) (sP s)) S /\
    ops = map (fun s => option_map (fun om => (om * L / sqrt (E / rho), 0)) (som s)) S end.
Proof.
  intros (B1 & B2 & B3 & B4 & B5 & _) (N1 & N2 & N3 & HS) H. unfold stationary in H. rewrite N1, N2, N3 in H. cbn [is_none andb scaled] in H.
  destruct HS as [(-> & X1 & X2)|(X1 & X2 & X3)]. { rewrite X1, X2 in H. cbn in H. injection H as <-. reflexivity. }
  rewrite X1, X2 in H. cbn [is_none andb] in H. unfold divL, tscale, divEA, need in H. rewrite B1, B3, B4, B5 in H. cbn [bind] in H.
  rewrite (mapM_map _ (fun x => x / L)) in H by auto. cbn [bind] in H. rewrite (mapM_map _ (map (fun q => (fst q / L * sqrt (E / rho), snd q / (E * A))))) in H by (intros a _; apply mapM_map; auto). cbn [bind] in H.
  assert (OP : mapM (fun q => match q with None => Ok None | Some (om, ph) => Ok (Some (om * L / sqrt (E / rho), ph / (E * A))) end) (match b_sop i with Some l => l | None => map (fun _ => None) (map sx S) end) = Ok (map (fun s => option_map (fun om => (om * L / sqrt (E / rho), 0)) (som s)) S)).
  { destruct X3 as [-> | [-> X3]].
    - rewrite (mapM_map _ (option_map (fun p => (fst p * L / sqrt (E / rho), snd p / (E * A))))) by (intros [[om ph]|] _; reflexivity). f_equal. rewrite map_map. apply map_ext. intros s. destruct (som s); cbn; [|reflexivity]. do 2 f_equal. unfold Rdiv. ring.
    - rewrite (mapM_map _ (fun _ => None)) by (intros a Ha; rewrite map_map in Ha; apply in_map_iff in Ha as (? & <- & _); reflexivity). f_equal. rewrite !map_map. apply map_ext_in. intros s Hs. rewrite (X3 s Hs). reflexivity. }
  destruct (b_sop i) as [l|]; rewrite OP in H; cbn [bind] in H; injection H as <-; rewrite !map_map; auto.
Qed.
Lemma standing_one s t m : interp_x_y (px (map (fun q => (fst q / L * sqrt (E / rho), snd q / (E * A))) (sP s))) (py (map (fun q => (fst q / L * sqrt (E / rho), snd q / (E * A))) (sP s))) [t / L * sqrt (E / rho)] false = Ok m ->
  E * A * nth 0 m 0 = value_at (sP s) t.
Proof.
  set (c := sqrt (E / rho) / L). assert (Hc : 0 < c) by (apply Rdiv_lt_0_compat; auto; apply sqrt_lt_R0, Rdiv_lt_0_compat; lra).
  assert (CT : forall u, u / L * sqrt (E / rho) = u * c) by (intros u; unfold c; field; lra).
  intros H. unfold px, py in H. rewrite !map_map in H. cbn [fst snd] in H.
  rewrite (map_ext (fun q : R * R => fst q / L * sqrt (E / rho)) (fun q => fst q * c)) in H by (intros; apply CT).
  change (map (fun q : R * R => snd q / (E * A)) (sP s)) with (map (fun q : R * R => snd q * / (E * A)) (sP s)) in H.
  rewrite <- (map_map fst (fun x => x * c)), <- (map_map snd (fun x => x * / (E * A))) in H. rewrite CT in H. change [t * c] with (map (fun x => x * c) [t]) in H.
  rewrite interp_scale in H by (auto; rewrite !map_length; reflexivity). unfold value_at, px, py. destruct (interp_x_y (map fst (sP s)) (map snd (sP s)) [t] false) as [r|] eqn:ER; [|discriminate]. cbn [rmap] in H. injection H as <-.
  assert (LR : length r = 1%nat). { unfold interp_x_y in ER. destruct (negb _); [discriminate|]. apply mapM_Ok_Forall2 in ER. clear - ER. inversion ER as [|? ? ? ? _ ER2]; subst. inversion ER2; subst. reflexivity. }
  destruct r as [|y [|? ?]]; try discriminate. cbn. field. lra.
Qed.
Lemma standings_phys S k t fs :
  let xs := map (fun s => sx s / L) S in let Ps := map (fun s => map (fun q => (fst q / L * sqrt (E / rho), snd q / (E * A))) (sP s)) S in let ops := map (fun s => option_map (fun om => (om * L / sqrt (E / rho), 0)) (som s)) S in
  mapM (stationary_load (PI * (INR k + 1)) (t / L * sqrt (E / rho)) xs Ps ops) (seq 0 (length xs)) = Ok fs -> E * A * sumR fs = sumR (map (standing_force t (mode L k)) S).
Proof.
  intros xs Ps ops M. apply mapM_Ok_Forall2 in M. assert (LF : length fs = length S) by (apply Forall2_length' in M; rewrite seq_length in M; unfold xs in M; rewrite map_length in M; auto).
  assert (N : forall j, (j < length S)%nat -> stationary_load (PI * (INR k + 1)) (t / L * sqrt (E / rho)) xs Ps ops j = Ok (nth j fs 0)).
  { intros j Hj. assert (LX : length xs = length S) by (unfold xs; apply map_length). rewrite LX in M. clear LX.
    assert (G : forall n a fs, Forall2 (fun j f => stationary_load (PI * (INR k + 1)) (t / L * sqrt (E / rho)) xs Ps ops j = Ok f) (seq a n) fs -> forall j, (j < n)%nat -> stationary_load (PI * (INR k + 1)) (t / L * sqrt (E / rho)) xs Ps ops (a + j) = Ok (nth j fs 0)).
    { clear. induction n as [|n IH]; intros a fs F j Hj; [lia|]. inversion F as [|? f ? fs' F1 F2]; subst. destruct j as [|j]; [rewrite Nat.add_0_r; exact F1|]. replace (a + Datatypes.S j)%nat with (Datatypes.S a + j)%nat by lia. apply (IH (Datatypes.S a) fs' F2). lia. }
    apply (G (length S) 0%nat fs M j Hj). }
  assert (SC : forall l, E * A * sumR l = sumR (map (fun y => E * A * y) l)) by (intros; apply sumR_scal). rewrite SC. f_equal.
  apply nth_ext with (d := 0) (d' := 0); [rewrite !map_length; lia|]. intros j Hj. rewrite map_length in Hj. rewrite (nth_map1 (fun y => E * A * y)) by auto. rewrite (nth_combine_map _ _ j (mkSt 0 [] None)) by lia. specialize (N j ltac:(lia)).
  set (s := nth j S (mkSt 0 [] None)). assert (NE : nth_error S j = Some s) by (apply nth_error_nth'; lia).
  unfold stationary_load, get, xs, Ps, ops in N. rewrite !nth_error_map, NE in N. cbn [option_map bind] in N.
  destruct (interp_x_y _ _ _ _) as [m|] eqn:EI in N; [|discriminate]. cbn [bind] in N. apply (standing_one s t) in EI.
  assert (SM : sin (sx s / L * (PI * (INR k + 1))) = mode L k (sx s)) by (unfold mode; f_equal; field; lra). unfold standing_force. rewrite <- EI.
  assert (S0 : 0 < sqrt (E / rho)) by (apply sqrt_lt_R0, Rdiv_lt_0_compat; lra).
  destruct (som s) as [om|]; cbn [option_map] in N; injection N as <-; rewrite SM; [|ring]. replace (om * L / sqrt (E / rho) * (t / L * sqrt (E / rho)) + 0) with (om * t) by (field; lra). ring.
Qed.
Lemma loads_phys i o V S k t f : beam_of i E I rho A L k1 k3 mu -> vehicles_of i V -> standing_of i S -> sb_init solve i = Ok o ->
  loads o (PI * (INR k + 1)) (t / L * sqrt (E / rho)) = Ok f -> E * A * f = force L t (mode L k) V S.
Proof.
  intros HB HV HS HO H. destruct (init_phys i o HB HO) as (_ & _ & _ & _ & _ & _ & _ & M & ST & _). apply (moving_phys i V _ _ HB HV) in M. apply (stationary_phys i S _ HB HS) in ST.
  unfold loads in H. unbind H. injection H as <-. rewrite Rmult_plus_distr_l. unfold force. f_equal.
  - destruct (s_moving o) as [l|]; [|injection Q as <-; subst V; cbn; ring]. unbind Q. injection Q as <-. apply (vehicles_phys V l k t); auto. apply HV.
  - destruct (s_stat o) as [[[xs Ps] ops]|]; [|injection Q0 as <-; subst S; cbn; ring]. destruct ST as (-> & -> & ->). unbind Q0. injection Q0 as <-. apply standings_phys. assumption.
Qed.
End S.
