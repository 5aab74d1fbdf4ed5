(** * C154: the constructor of SpecBeam; C155: its output *)
From Coq Require Import Reals List Arith ZArith Bool Lia Lra FunctionalExtensionality.
From Coquelicot Require Import Coquelicot.
From Verif Require Import Base PiecewiseModel PolyLineModel SpecWrap SpecPolyLine SpectralModel SpecSpectral WrapModel PropsWrap BeamModel DingModel DingProofs PropsDing PropsBeam6 SpecBeamModel SpecBeamSpec SpecBeamProofs1 SpecBeamProofs2 PropsSpecBeam PropsSpecBeam2 PropsSpecBeam3 PropsGalerkin.
Import ListNotations.
Local Open Scope R_scope.

Section S.
Variable solve : list (list R) -> list R -> result (list R).
Variable odeint : (list R -> R -> result (list R)) -> list R -> list R -> result (list (list R)).
(** *** C154: from physical quantities *)
Theorem C154_physical i o E I rho A L k1 k3 mu ts xs : beam_of i E I rho A L k1 k3 mu -> b_tvals i = Some ts -> b_tvalsn i = None -> b_xvals i = Some xs -> b_xvalsn i = None -> sb_init solve i = Ok o ->
  b_BC i = SS /\ s_kf o = 1 / L * sqrt (I / A) /\ s_mu o = mu / A * sqrt (L ^ 2 / (rho * E)) /\ s_k1 o = k1 * L ^ 2 / (E * A) /\ s_k3 o = k3 * L ^ 4 / (E * A) /\
  s_beta o = map (fun k => PI * (INR k + 1)) (seq 0 (b_nterms i)) /\ s_t o = map (fun t => t / L * sqrt (E / rho)) ts /\ s_x o = map (fun x => x / L) xs.
Proof.
  intros HB T1 T2 X1 X2 H. destruct (init_phys solve E I rho A L k1 k3 mu i o HB H) as (I1 & I2 & I3 & I4 & I5 & I6 & I7 & _). repeat (match goal with |- _ /\ _ => split end); auto.
  - destruct HB as (B1 & B2 & B3 & B4 & B5 & _). unfold sb_init in H. cbn zeta in H. match type of H with (if ?b then _ else _) = _ => destruct b; [discriminate|] end. rewrite T1, T2, X1, X2 in H. cbn [scaled] in H.
    rewrite (mapM_map (tscale i) (fun t => t / L * sqrt (E / rho))) in H by (intros a _; unfold tscale; rewrite B1, B3, B5; reflexivity). unbind H. destruct (b_BC i); try discriminate. unbind H. injection H as <-. cbn [s_t]. congruence.
  - destruct HB as (B1 & B2 & B3 & B4 & B5 & _). unfold sb_init in H. cbn zeta in H. match type of H with (if ?b then _ else _) = _ => destruct b; [discriminate|] end. rewrite T1, T2, X1, X2 in H. cbn [scaled] in H.
    rewrite (mapM_map (divL i) (fun x => x / L)) in H by (intros a _; unfold divL; rewrite B5; reflexivity). unbind H. destruct (b_BC i); try discriminate. unbind H. injection H as <-. cbn [s_x]. congruence.
Qed.
(** normalised quantities are taken as they are, whatever else is given *)
Theorem C154_normalised i o : sb_init solve i = Ok o -> (forall x, b_kf i = Some x -> s_kf o = x) /\ (forall x, b_mun i = Some x -> s_mu o = x) /\ (forall x, b_k1n i = Some x -> s_k1 o = x) /\ (forall x, b_k3n i = Some x -> s_k3 o = x) /\
  (forall l, b_tvalsn i = Some l -> s_t o = l) /\ (forall l, b_xvalsn i = Some l -> s_x o = l) /\ (b_k3n i = None -> b_k3 i = None -> s_k3 o = 0).
Proof.
  intros H. unfold sb_init in H. cbn zeta in H. match type of H with (if ?b then _ else _) = _ => destruct b; [discriminate|] end. unbind H. destruct (b_BC i); try discriminate. unbind H. injection H as <-. cbn [s_kf s_mu s_k1 s_k3 s_t s_x].
  repeat (match goal with |- _ /\ _ => split end).
  - intros x E. rewrite E in Q. congruence.
  - intros x E. rewrite E in Q4. cbn [scaled] in Q4. congruence.
  - intros x E. rewrite E in Q5. cbn [scaled] in Q5. congruence.
  - intros x E. rewrite E in Q6. cbn [scaled is_none andb] in Q6. congruence.
  - intros x E. rewrite E in Q1. cbn [scaled] in Q1. congruence.
  - intros x E. rewrite E in Q2. cbn [scaled] in Q2. congruence.
  - intros E1 E2. rewrite E1, E2 in Q6. cbn [scaled is_none andb] in Q6. congruence.
Qed.
(** the same case given by normalised quantities only *)
Definition normalised_of (i : sb_in) (E I rho A L k1 k3 mu : R) (V : list vehicle) (S : list standing) (ts xs : list R) : sb_in :=
  mkB (b_BC i) (b_nterms i) None None None None None None None None None None None None None None None None None
    (Some (map (fun v => map (fun x => x / L) (vx v)) V)) (Some (map (fun v => map (fun p => p / (E * A)) (vF v)) V)) (Some (map (fun v => vv v * sqrt (rho / E)) V)) (Some (map (fun v => voff v / L) V)) None None None
    (Some (map (fun t => t / L * sqrt (E / rho)) ts)) (Some (map (fun x => x / L) xs))
    None None None (Some (map (fun s => sx s / L) S)) (Some (map (fun s => map (fun q => (fst q / L * sqrt (E / rho), snd q / (E * A))) (sP s)) S)) (Some (map (fun s => option_map (fun om => (om * L / sqrt (E / rho), 0)) (som s)) S))
    (Some (1 / L * sqrt (I / A))) (Some (mu / A * sqrt (L ^ 2 / (rho * E)))) (Some (k1 * L ^ 2 / (E * A))) (Some (k3 * L ^ 4 / (E * A))) (b_nquad i)
    (b_Ebar i) (b_rhobar i) (b_Ibar i) (b_Abar i) (b_k1bar i) (b_k3bar i) (b_mubar i) (b_impl i) false (b_force i).
Lemma odeint_ext f g y t : (forall v T, f v T = g v T) -> odeint f y t = odeint g y t.
Proof. intros H. f_equal. apply functional_extensionality. intros v. apply functional_extensionality. intros T. apply H. Qed.
Lemma mapM_same {X Y} (f g : X -> result Y) l : (forall a, f a = g a) -> mapM f l = mapM g l.
Proof. intros H. induction l as [|a l IH]; [reflexivity|]. cbn. rewrite H, IH. reflexivity. Qed.
Theorem C154_units i o E I rho A L k1 k3 mu V S ts xs : 0 < L -> beam_of i E I rho A L k1 k3 mu -> vehicles_of i V -> standing_of i S ->
  b_tvals i = Some ts -> b_tvalsn i = None -> b_xvals i = Some xs -> b_xvalsn i = None -> sb_init solve i = Ok o ->
  exists o', sb_init solve (normalised_of i E I rho A L k1 k3 mu V S ts xs) = Ok o' /\ sb_qk solve odeint o' = sb_qk solve odeint o /\
    forall disk earlier d dl, runme solve odeint o disk earlier = Ok (d, dl) -> runme solve odeint o' disk earlier = Ok (d, None).
Proof.
  intros HL HB HV HS T1 T2 X1 X2 H. destruct (init_phys solve E I rho A L k1 k3 mu i o HB H) as (I1 & I2 & I3 & I4 & I5 & I6 & I7 & I8 & I9 & I10).
  destruct (C154_physical i o E I rho A L k1 k3 mu ts xs HB T1 T2 X1 X2 H) as (_ & _ & _ & _ & _ & _ & J7 & J8).
  apply (moving_phys E I rho A L k1 k3 mu HL i V _ _ HB HV) in I8. apply (stationary_phys E I rho A L k1 k3 mu i S _ HB HS) in I9.
  set (i' := normalised_of i E I rho A L k1 k3 mu V S ts xs).
  assert (MV : exists l, moving i' = Ok (Some l, None) /\ match s_moving o with None => l = [] | Some l' => l = l' end).
  { unfold moving, i', normalised_of. cbn [b_mxn b_mFn b_mvn b_mx b_mF b_mv b_moff b_moffn b_mt0 b_mt0n b_mx0 b_mx0n b_mL b_mLn is_none andb scaled bind optional_var]. rewrite !map_map, zip7_maps.
    assert (MM : exists l, mapM (fun q => let '(x, p, o0, v, t, L0, x0) := q in mpl_init x p o0 (Some v) (Some L0) t x0) (map (fun v => (map (fun x => x / L) (vx v), map (fun p => p / (E * A)) (vF v), voff v / L, vv v * sqrt (rho / E), 0, 1, 0)) V) = Ok l /\ match s_moving o with None => l = [] | Some l' => l = l' end).
    { destruct (s_moving o) as [l|]; [|subst V; exists []; split; reflexivity]. exists l. split; [|reflexivity]. apply mapM_Ok_Forall2. clear - I8. induction I8; constructor; auto. }
    destruct MM as (l & E1 & E2). exists l. split; [|exact E2]. rewrite E1. reflexivity. }
  destruct MV as (l & MV & ML).
  assert (ST : stationary i' = Ok (Some (map (fun s => sx s / L) S, map (fun s => map (fun q => (fst q / L * sqrt (E / rho), snd q / (E * A))) (sP s)) S, map (fun s => option_map (fun om => (om * L / sqrt (E / rho), 0)) (som s)) S))) by reflexivity.
  assert (QD : exists qd, match b_nquad i with None => Ok None | Some n => Ij <- weights solve (points_SS n) ;; Ok (Some (points_SS n, Ij)) end = Ok qd /\ qd = s_quad o).
  { destruct (b_nquad i) as [N|]; [destruct I10 as (Ij & EW & EQ); rewrite EW; cbn; eauto|eauto]. } destruct QD as (qd & QD & EQ).
  eexists. assert (SI : sb_init solve i' = Ok (mkS i' (s_kf o) (s_mu o) (s_k1 o) (s_k3 o) (s_beta o) (Some l) None (Some (map (fun s => sx s / L) S, map (fun s => map (fun q => (fst q / L * sqrt (E / rho), snd q / (E * A))) (sP s)) S, map (fun s => option_map (fun om => (om * L / sqrt (E / rho), 0)) (som s)) S)) (s_t o) (s_x o) (s_quad o))).
  { unfold sb_init. cbn zeta. rewrite MV, ST. unfold i', normalised_of. cbn [b_BC b_nterms b_kf b_tvalsn b_xvalsn b_mun b_k1n b_k3n b_k3 b_nquad b_analytical scaled is_none andb bind]. rewrite andb_false_r, I1, QD. cbn [bind fst snd]. rewrite I3, I4, I5, I6, I7, J7, J8, <- EQ. reflexivity. }
  split; [exact SI|]. set (o' := mkS i' _ _ _ _ _ _ _ _ _ _ _).
  assert (LD : forall b T, loads o' b T = loads o b T).
  { intros b T. unfold loads. cbn [s_moving s_stat o']. destruct (s_moving o) as [l'|]; subst l.
    - f_equal. apply functional_extensionality. intros a. destruct (s_stat o) as [[[sxs Ps] ops]|]; [destruct I9 as (-> & -> & ->); reflexivity|subst S; reflexivity].
    - cbn [mapM bind]. destruct (s_stat o) as [[[sxs Ps] ops]|]; [destruct I9 as (-> & -> & ->); reflexivity|subst S; reflexivity]. }
  assert (TM : time_independant_matrices o' = time_independant_matrices o) by (unfold time_independant_matrices; rewrite I2; reflexivity).
  assert (SF : forall M v T, sb_field solve o' M v T = sb_field solve o M v T).
  { intros M v T. unfold sb_field. rewrite I2. cbn [s_in o' s_quad s_beta s_k3]. change (b_nterms i') with (b_nterms i). destruct (s_quad o) as [[xj Ij]|]; [|reflexivity].
    rewrite (mapM_same _ (fun k => f <- loads o (nth k (s_beta o) 0) T ;; Ok (dot (nth k (psi_q M) []) (firstn (b_nterms i) v) + dot (nth k (psi_qdot M) []) (skipn (b_nterms i) v) + f - s_k3 o * sumR (map (fun p => let '(w, kj, x) := p in w * sb_w o (firstn (b_nterms i) v) x ^ 3 * kj * sin (nth k (s_beta o) 0 * x)) (combine (combine Ij (k3barj M)) xj))))); [reflexivity|].
    intros k. rewrite LD. reflexivity. }
  assert (QK : sb_qk solve odeint o' = sb_qk solve odeint o).
  { unfold sb_qk. rewrite TM. destruct (time_independant_matrices o) as [M|]; [|reflexivity]. cbn [bind]. rewrite I2. change (b_nterms (s_in o')) with (b_nterms i). change (s_t o') with (s_t o). apply odeint_ext. apply SF. }
  split; [exact QK|]. intros disk earlier d dl RR. unfold runme in *. rewrite QK. change (s_x o') with (s_x o). change (b_force (s_in o')) with (b_force i). change (b_L (s_in o')) with (@None R). rewrite I2 in RR.
  assert (WO : forall q, sb_wofx o' q (s_x o) true = sb_wofx o q (s_x o) true) by (intros q; unfold sb_wofx, sb_w; rewrite I2; reflexivity).
  unbind RR. injection RR as <- <-. replace (match b_force i, earlier, disk with false, Some d0, _ => Ok d0 | false, None, Some d0 => Ok d0 | _, _, _ => q <- sb_qk solve odeint o ;; sb_wofx o' q (s_x o) true end) with (Ok a : result (list (list R))); [reflexivity|].
  rewrite <- Q. assert (BB : (q <- sb_qk solve odeint o ;; sb_wofx o' q (s_x o) true) = (q <- sb_qk solve odeint o ;; sb_wofx o q (s_x o) true)) by (destruct (sb_qk solve odeint o) as [q|]; [apply WO|reflexivity]). rewrite BB. reflexivity.
Qed.
(** what raises *)
Theorem C154_errors i : (b_BC i <> SS -> exists e, sb_init solve i = Err e) /\
  (b_analytical i = true -> (b_BC i = CC \/ b_BC i = FF) \/ (exists x, b_k3 i = Some x /\ x <> 0) \/ (exists x, b_k3n i = Some x /\ x <> 0) -> sb_init solve i = Err ValueError).
Proof.
  split.
  - intros H. destruct (sb_init solve i) as [o|e] eqn:E; [|eauto]. exfalso. unfold sb_init in E. cbn zeta in E. match type of E with (if ?b then _ else _) = _ => destruct b; [discriminate|] end. unbind E. destruct (b_BC i); try discriminate. apply H. reflexivity.
  - intros HA H. unfold sb_init. cbn zeta. rewrite HA, andb_true_r. destruct H as [[H | H] | [(x & H & N) | (x & H & N)]].
    + rewrite H. reflexivity.
    + rewrite H. reflexivity.
    + rewrite H. cbn [is_none]. rewrite andb_false_r. cbn [isz]. assert (E : Reqb x 0 = false) by (apply Reqb_false; auto). rewrite E. cbn. rewrite orb_true_r. reflexivity.
    + rewrite H. cbn [is_none andb isz]. assert (E : Reqb x 0 = false) by (apply Reqb_false; auto). rewrite E, andb_false_r. cbn. rewrite orb_true_r. reflexivity.
Qed.
(** a cubic stiffness of zero, stated, is refused by the analytical solution as if it were not zero *)
Theorem C154_zero_refuted i : b_analytical i = true -> b_k3 i = Some 0 -> b_k3n i = None -> sb_init solve i = Err ValueError.
Proof. intros H1 H2 H3. unfold sb_init. cbn zeta. rewrite H1, H2, H3. cbn [is_none andb isz]. rewrite andb_false_r. cbn. rewrite orb_true_r. reflexivity. Qed.
(** magnitudes of standing loads without positions are dropped silently *)
Theorem C154_dropped_refuted i Ps : b_sxn i = None -> b_sPn i = None -> b_sopn i = None -> b_sx i = None -> b_sop i = None -> b_sP i = Some Ps -> stationary i = Ok None.
Proof. intros H1 H2 H3 H4 H5 H6. unfold stationary. rewrite H1, H2, H3, H4, H5. reflexivity. Qed.

(** *** C155: the output of runme *)
Theorem C155_output i o E I rho A L k1 k3 mu ts xs disk earlier d dl : 0 < L -> beam_of i E I rho A L k1 k3 mu -> b_tvals i = Some ts -> b_tvalsn i = None -> b_xvals i = Some xs -> b_xvalsn i = None -> sb_init solve i = Ok o ->
  b_force i = true \/ disk = None /\ earlier = None -> runme solve odeint o disk earlier = Ok (d, dl) -> let n := b_nterms i in
  exists M qs w, time_independant_matrices o = Ok M /\ odeint (sb_field solve o M) (repeat 0 (2 * n)) (map (fun t => t / L * sqrt (E / rho)) ts) = Ok qs /\ dl = Some w /\ length d = length xs /\ length w = length xs /\
  forall a, (a < length xs)%nat -> length (nth a d []) = length qs /\ length (nth a w []) = length qs /\ forall b, (b < length qs)%nat -> (n <= length (nth b qs []))%nat ->
    entry w a b = L * total (fun k => nth k (nth b qs []) 0 * mode L k (nth a xs 0)) n /\ entry w a b = L * entry d a b.
Proof.
  intros HL HB T1 T2 X1 X2 H HF RR n. destruct (C154_physical i o E I rho A L k1 k3 mu ts xs HB T1 T2 X1 X2 H) as (_ & _ & _ & _ & _ & JB & J7 & J8).
  destruct (init_phys solve E I rho A L k1 k3 mu i o HB H) as (_ & I2 & _). fold n in JB. destruct HB as (B1 & B2 & B3 & B4 & B5 & _).
  unfold runme in RR. rewrite I2, B5 in RR. replace (match b_force i, earlier, disk with false, Some d0, _ => Ok d0 | false, None, Some d0 => Ok d0 | _, _, _ => q <- sb_qk solve odeint o ;; sb_wofx o q (s_x o) true end) with (q <- sb_qk solve odeint o ;; sb_wofx o q (s_x o) true) in RR
    by (destruct HF as [-> | [-> ->]]; [reflexivity|destruct (b_force i); reflexivity]).
  unbind RR. injection RR as <- <-. unbind Q. rename a0 into qs. unfold sb_qk in Q0. unbind Q0. rewrite I2 in Q0. fold n in Q0. rewrite J7 in Q0.
  exists a0, qs. eexists. split; [reflexivity|]. split; [exact Q0|]. split; [reflexivity|]. unfold sb_wofx in Q. rewrite I2 in Q. fold n in Q. rewrite J8 in Q. injection Q as <-. rewrite !map_map. rewrite !map_length. split; [reflexivity|]. split; [reflexivity|].
  intros a Ha. unfold entry.
  assert (N1 : forall (f : R -> list R), nth a (map f xs) [] = f (nth a xs 0)) by (intros f; rewrite (nth_indep _ [] (f 0)) by (rewrite map_length; auto); apply map_nth).
  rewrite !N1, !map_length. split; [reflexivity|]. split; [reflexivity|]. intros b Hb Hn.
  rewrite (nth_map1 (fun y => y * L)) by (rewrite map_length; auto). rewrite (nth_combine_map _ _ b []) by auto. split; [|apply Rmult_comm]. rewrite Rmult_comm. f_equal. unfold sb_w, total. rewrite JB. f_equal.
  apply nth_ext with (d := 0) (d' := 0); [rewrite !map_length, combine_length, firstn_length, len_map_seq, seq_length; lia|]. intros k Hk. rewrite map_length, combine_length, firstn_length, len_map_seq in Hk.
  rewrite (nth_combine_map _ _ k (0, 0)) by (rewrite combine_length, firstn_length, len_map_seq; lia). rewrite (nth_map_seq (fun k => nth k (nth b qs []) 0 * mode L k (nth a xs 0))) by lia.
  rewrite combine_nth by (rewrite firstn_length, len_map_seq; lia). cbn [fst snd]. rewrite (nth_map_seq (fun k => PI * (INR k + 1))) by lia.
  replace (nth k (firstn n (nth b qs [])) 0) with (nth k (nth b qs []) 0) by (rewrite <- (firstn_skipn n (nth b qs [])) at 1; apply app_nth1; rewrite firstn_length; lia).
  f_equal. unfold mode. f_equal. field. lra.
Qed.
(** wofx in metres is L times the normalised one *)
Theorem C155_wofx o qs xn L : b_L (s_in o) = Some L -> exists v, sb_wofx o qs xn true = Ok v /\ sb_wofx o qs xn false = Ok (map (map (fun y => y * L)) v) /\ length v = length xn /\ forall r, In r v -> length r = length qs.
Proof. intros H. unfold sb_wofx. rewrite H. cbn [bind]. eexists. split; [reflexivity|]. split; [reflexivity|]. split; [apply map_length|]. intros r Hr. apply in_map_iff in Hr as (x & <- & _). apply map_length. Qed.
(** without force_calc, whatever is in the file, or was there before, is the answer *)
Theorem C155_stale_refuted o d : b_force (s_in o) = false -> (forall disk, rmap fst (runme solve odeint o disk (Some d)) = Ok d) /\ rmap fst (runme solve odeint o (Some d) None) = Ok d.
Proof. intros H. unfold runme. rewrite H. split; [intros disk|]; reflexivity. Qed.
End S.
