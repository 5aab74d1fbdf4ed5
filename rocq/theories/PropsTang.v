(** * C121-C122: consolidation with vertical drains and well resistance (tangandonitsuka2000.py) *)
From Coq Require Import Reals List Arith ZArith Bool Lia Lra.
From Coquelicot Require Import Coquelicot.
From Verif Require Import Base PiecewiseModel PiecewiseProofs LoadModel RootModel ConstitutiveModel SmearModel SpecSmear SpecPiecewise SpecLoad SpecTerzaghi SpecStein SpecTang TangModel TerzaghiModel TerzaghiProofs SteinProofs4 TangProofs.
Import ListNotations.
Open Scope R_scope.

(** v (soil) and w (drain) are the response to a unit load: they obey the equations of flow to a drain in
    a smear zone, are drained or closed at the ends, and start from (very nearly) uniform pressure. *)
Definition unit_response (P : tang) (v w : R -> R -> R) : Prop := exists mu,
  is_mu (t_re P / t_rw P) (k_const (t_rs P / t_rw P) (t_kh P / t_ks P)) mu /\
  drain_system (t_kv P) (t_kh P) (t_kw P) (t_mv P) (t_gamw P) (t_rw P) (t_re P) mu v w /\
  drain_ends (t_drn P) (t_H P) v /\ drain_ends (t_drn P) (t_H P) w /\
  ((1 <= t_nterms P)%nat -> exists e, is_RInt (fun z => (v z 0 - 1)^2) 0 (t_H P) e /\ e <= t_H P * (2 / (PI^2 * INR (t_nterms P)))).

Lemma run_ok P zs ts tpor r : sound_tang P -> (t_drn P = 0 \/ t_drn P = 1)%Z -> is_load (t_tim P) (t_mag P) r ->
  let tp := match tpor with None => ts | Some tp => tp end in
  exists por avp settle v w, tangandonitsuka2000 P false zs ts tpor = Ok (por, avp, settle) /\ unit_response P v w /\
    length por = length zs /\ length avp = length ts /\ length settle = length ts /\
    (forall k, (k < length zs)%nat -> length (nth k por []) = length tp /\
       forall j, (j < length tp)%nat -> effect (t_tim P) (t_mag P) r (at_ tp j) (v (at_ zs k)) (nth j (nth k por []) 0)) /\
    (forall j, (j < length ts)%nat -> exists u q,
       (forall z, effect (t_tim P) (t_mag P) r (at_ ts j) (v z) (u z)) /\ load_value (t_tim P) (t_mag P) (at_ ts j) q /\
       is_RInt u 0 (t_H P) (t_H P * at_ avp j) /\ is_RInt (fun z => t_mv P * (q - u z)) 0 (t_H P) (at_ settle j)).
Proof.
  intros So Hd Hl tp. destruct (F_ok P So) as (F & EF & Mu & HF).
  pose proof Hl as (L1 & L2 & L3 & _ & _). assert (Hx : t_tim P <> []) by (intros Q; rewrite Q in L2; cbn in L2; lia).
  set (q := fun t => match interp1 (t_tim P) (t_mag P) false t with Ok v => v | Err _ => 0 end).
  assert (Hq : forall t, interp1 (t_tim P) (t_mag P) false t = Ok (q t)). { intros t. unfold q. destruct (interp1_ok (t_tim P) (t_mag P) false t L3 Hx) as (v & ->). reflexivity. }
  exists (map (fun z => map (uu P F z) tp) zs), (map (uavg P F) ts), (map (fun t => t_H P * t_mv P * (q t - uavg P F t)) ts), (resp P F (one)), (resp P F (well P F)).
  split; [|split; [|split; [|split; [|split; [|split]]]]].
  - unfold tangandonitsuka2000. fold tp. rewrite EF. cbn [bind].
    assert (E1 : mapM (fun z => mapM (t_por1 P F z) tp) (map (fold_z P false) zs) = Ok (map (fun z => map (uu P F z) tp) zs)).
    { clear - So HF Hl. induction zs as [|z zs IH]; [reflexivity|]. cbn [map mapM]. rewrite (mapM_map _ (uu P F z)); [|intros t _; eapply por1_ok; eauto]. cbn [bind]. rewrite IH. reflexivity. }
    rewrite E1. cbn [bind]. rewrite (mapM_map _ (uavg P F)) by (intros; eapply avp1_ok; eauto). cbn [bind].
    unfold interp_x_y. rewrite L3, Nat.eqb_refl. cbn [negb]. rewrite (mapM_map _ q) by auto. cbn [bind]. f_equal. f_equal. clear. induction ts as [|t ts IH]; [reflexivity|]. cbn. rewrite IH. reflexivity.
  - exists F. split; [auto|]. split; [apply resp_system; auto|]. split; [apply resp_ends; auto|]. split; [apply resp_ends; auto|]. intros Hn. apply resp_start; auto.
  - apply map_length.
  - apply map_length.
  - apply map_length.
  - intros k Hk. rewrite (nth_indep _ [] (map (uu P F 0) tp)) by (rewrite map_length; auto). rewrite map_nth with (f := fun z => map (uu P F z) tp). split; [apply map_length|].
    intros j Hj. rewrite (nth_indep _ 0 (uu P F (nth k zs 0) 0)) by (rewrite map_length; auto). rewrite map_nth with (f := uu P F (nth k zs 0)). apply uu_effect; auto.
  - intros j Hj. exists (fun z => uu P F z (at_ ts j)), (q (at_ ts j)). split; [intros; apply uu_effect; auto|]. split; [eapply interp1_load_value; eauto|].
    assert (EA : at_ (map (uavg P F) ts) j = uavg P F (at_ ts j)). { unfold at_. rewrite (nth_indep _ 0 (uavg P F 0)) by (rewrite map_length; auto). apply map_nth. }
    assert (I : is_RInt (fun z => uu P F z (at_ ts j)) 0 (t_H P) (t_H P * uavg P F (at_ ts j))) by (apply (uu_int P So F)).
    split; [rewrite EA; exact I|]. set (h := fun t => t_H P * t_mv P * (q t - uavg P F t)).
    assert (ES : at_ (map h ts) j = h (at_ ts j)). { unfold at_. rewrite (nth_indep _ 0 (h 0)) by (rewrite map_length; auto). apply map_nth. }
    rewrite ES. unfold h. eapply rint_val; [apply (is_RInt_scal (V := R_NormedModule) _ 0 (t_H P) (t_mv P)); apply (is_RInt_minus (V := R_NormedModule)); [apply (is_RInt_const (V := R_NormedModule) 0 (t_H P) (q (at_ ts j)))|exact I]|].
    unfold scal, minus, plus, opp; cbn. unfold mult, scal; cbn. unfold mult; cbn. match goal with |- ?u = ?v => change (@eq R u v) end. ring.
Qed.

(** ** C121: pore pressures *)
(** The pore pressure at each depth and time is the sum, over the history of the load, of the response to a
    unit load. *)
Theorem C121_pressures : forall P zs ts tpor r, sound_tang P -> (t_drn P = 0 \/ t_drn P = 1)%Z -> is_load (t_tim P) (t_mag P) r ->
  let tp := match tpor with None => ts | Some tp => tp end in
  exists por avp settle v w, tangandonitsuka2000 P false zs ts tpor = Ok (por, avp, settle) /\ unit_response P v w /\
    length por = length zs /\
    forall k, (k < length zs)%nat -> length (nth k por []) = length tp /\
       forall j, (j < length tp)%nat -> effect (t_tim P) (t_mag P) r (at_ tp j) (v (at_ zs k)) (nth j (nth k por []) 0).
Proof.
  intros P zs ts tpor r So Hd Hl tp. destruct (run_ok P zs ts tpor r So Hd Hl) as (por & avp & settle & v & w & H1 & H2 & H3 & _ & _ & H6 & _).
  exists por, avp, settle, v, w. split; [auto|]. split; [auto|]. split; [auto|]. exact H6.
Qed.

(** ** C122: average pore pressure and settlement *)
(** avp is the mean over the depth of the same pore pressures; the settlement is the integral of mv times the
    load less the pore pressure. *)
Theorem C122_average_and_settlement : forall P zs ts tpor r, sound_tang P -> (t_drn P = 0 \/ t_drn P = 1)%Z -> is_load (t_tim P) (t_mag P) r ->
  let tp := match tpor with None => ts | Some tp => tp end in
  exists por avp settle v w, tangandonitsuka2000 P false zs ts tpor = Ok (por, avp, settle) /\ unit_response P v w /\
    length avp = length ts /\ length settle = length ts /\
    (forall k j, (k < length zs)%nat -> (j < length tp)%nat -> effect (t_tim P) (t_mag P) r (at_ tp j) (v (at_ zs k)) (nth j (nth k por []) 0)) /\
    forall j, (j < length ts)%nat -> exists u q,
       (forall z, effect (t_tim P) (t_mag P) r (at_ ts j) (v z) (u z)) /\ load_value (t_tim P) (t_mag P) (at_ ts j) q /\
       is_RInt u 0 (t_H P) (t_H P * at_ avp j) /\ is_RInt (fun z => t_mv P * (q - u z)) 0 (t_H P) (at_ settle j).
Proof.
  intros P zs ts tpor r So Hd Hl tp. destruct (run_ok P zs ts tpor r So Hd Hl) as (por & avp & settle & v & w & H1 & H2 & H3 & H4 & H5 & H6 & H7).
  exists por, avp, settle, v, w. split; [auto|]. split; [auto|]. split; [auto|]. split; [auto|]. split; [|exact H7]. intros k j Hk Hj. apply (proj2 (H6 k Hk) j Hj).
Qed.

(** ** a case that meets the hypotheses, and depths given as integers *)
Definition exT : tang := mkTang 1 1 1 1 1 10 1 2 3 (5/2) 0 [0; 1] [0; 100] 1.
Lemma ex_sound : sound_tang exT.
Proof. constructor; cbn; lra. Qed.
Lemma ex_load : is_load (t_tim exT) (t_mag exT) (fun _ => 100).
Proof.
  split; [intros i Hi; assert (i = 0%nat) by (cbn in Hi; lia); subst i; unfold at_; cbn; lra|]. split; [cbn; lia|]. split; [reflexivity|]. split.
  - intros i Hi. assert (i = 0%nat) by (cbn in Hi; lia). subst i. unfold at_. cbn. lra.
  - intros k v Hk Hv. assert (k = 0%nat) by (cbn in Hk; lia). subst k. unfold at_. cbn. lra.
Qed.
(** The hypotheses of C121 and C122 hold of exT: it is drained at both ends under a ramp load. *)
Theorem C121_witness : exists por avp settle v w, tangandonitsuka2000 exT false [1; 2] [1/2; 1] None = Ok (por, avp, settle) /\ unit_response exT v w /\ length por = 2%nat.
Proof.
  destruct (C121_pressures exT [1; 2] [1/2; 1] None _ ex_sound (or_introl eq_refl) ex_load) as (por & avp & settle & v & w & H1 & H2 & H3 & _).
  exists por, avp, settle, v, w. auto.
Qed.
Lemma ex_tmv F : 0 < F -> 0 < tmv exT F 0 1.
Proof.
  intros HF. destruct (tmv_ok exT ex_sound F HF _ ex_load 0 1) as (_ & I & HI & E). rewrite E. clear E.
  unfold sum_jumps, at_. cbn [t_tim t_mag exT length seq Nat.sub map nth fold_right]. destruct (Req_EM_T 0 1) as [Q|_]; [lra|].
  assert (U : until (t_tim exT) 1 = 1). { unfold until, at_. cbn. rewrite Rmin_left, Rmax_right by lra. reflexivity. }
  rewrite U in HI. assert (0 < I); [|lra].
  rewrite <- (is_RInt_unique _ _ _ _ HI). apply RInt_gt_0; [unfold at_; cbn; lra| |].
  - intros x _. apply Rmult_lt_0_compat; [lra|apply exp_pos].
  - intros x _. apply (ex_derive_continuous (V := R_NormedModule)). generalize (bb exT F 0). intros b. auto_derive. auto.
Qed.
(** Depths given as integers: the mirrored depth is truncated, so that 1/2 above the drained bottom becomes the
    bottom itself. *)
Theorem C121_integer_depths_refuted : exists p avp settle avp' settle', 0 < p /\
  tangandonitsuka2000 exT false [2] [1] None = Ok ([[p]], avp, settle) /\
  tangandonitsuka2000 exT true [2] [1] None = Ok ([[0]], avp', settle').
Proof.
  destruct (F_ok exT ex_sound) as (F & EF & _ & HF). set (q := match interp1 [0; 1] [0; 100] false 1 with Ok v => v | Err _ => 0 end).
  assert (Hq : interp1 [0; 1] [0; 100] false 1 = Ok q) by (unfold q; destruct (interp1_ok [0; 1] [0; 100] false 1 eq_refl ltac:(discriminate)) as (v & ->); reflexivity).
  assert (E1 : t_por1 exT F (fold_z exT false 2) 1 = Ok (uu exT F 2 1)) by (eapply por1_ok; eauto using ex_sound, ex_load).
  assert (E2 : t_avp1 exT F 1 = Ok (uavg exT F 1)) by (eapply avp1_ok; eauto using ex_sound, ex_load).
  assert (E3 : fold_z exT true 2 = 0).
  { unfold fold_z, t_H_. cbn [exT t_drn t_H Z.eqb]. replace (Rltb (5 / 2 / 2) 2) with true by (symmetry; apply Rltb_true; lra). unfold to_int. replace (Rleb 0 (5 / 2 - 2)) with true by (symmetry; apply Rleb_true; lra).
    replace (Int_part (5 / 2 - 2)) with 0%Z; [reflexivity|]. unfold Int_part. replace (up (5 / 2 - 2)) with 1%Z; [reflexivity|]. apply tech_up; lra. }
  assert (E4 : t_por1 exT F 0 1 = Ok 0).
  { unfold t_por1. rewrite (Tm_row_ok exT ex_sound F HF _ ex_load). cbn [bind t_nterms exT seq map combine fst snd sumn]. f_equal. replace (M_k 0 * 0 / t_H_ exT) with 0 by (unfold Rdiv; ring). rewrite sin_0. cbn. ring. }
  exists (uu exT F 2 1), [uavg exT F 1], [5/2 * 1 * (q - uavg exT F 1)], [uavg exT F 1], [5/2 * 1 * (q - uavg exT F 1)].
  split; [|split].
  - unfold uu. cbn [t_nterms exT ssum]. pose proof (ex_tmv F HF) as T. change (tmv exT F 0 1) with (tmv exT F 0 1) in T. pose proof (Mk_pos 0) as MP. assert (0 < sin (Mk 0 * 2 / t_H_ exT)).
    { unfold t_H_, Mk. cbn [exT t_drn t_H Z.eqb INR]. pose proof PI_RGT_0. apply sin_gt_0; lra. }
    rewrite Rplus_0_l. apply Rmult_lt_0_compat; [|exact T]. apply Rmult_lt_0_compat; [|auto]. apply Rdiv_lt_0_compat; [lra|auto].
  - unfold tangandonitsuka2000. rewrite EF. cbn [bind map mapM]. rewrite E1. cbn [bind]. rewrite E2. cbn [bind]. unfold interp_x_y. cbn [t_tim t_mag exT length Nat.eqb negb mapM]. rewrite Hq. reflexivity.
  - unfold tangandonitsuka2000. rewrite EF. cbn [bind map mapM]. rewrite E3, E4. cbn [bind]. rewrite E2. cbn [bind]. unfold interp_x_y. cbn [t_tim t_mag exT length Nat.eqb negb mapM]. rewrite Hq. reflexivity.
Qed.
