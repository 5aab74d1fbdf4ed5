(** * C129-C131: consolidation of an unsaturated layer (shanetal2012.py) *)
From Coq Require Import Reals List Arith ZArith Bool Lia Lra String.
From Coquelicot Require Import Coquelicot.
From Verif Require Import Base SpecPiecewise SpecLu SpecShan TerzaghiModel TerzaghiProofs ShanModel ShanProofs ShanProofs2 ShanProofs3 XieProofs2 PropsLu.
Import ListNotations.
Open Scope R_scope.

(** What is relied on: for a matrix that has real eigenvalues and a basis of eigenvectors, eig gives such. *)
Definition good_eig (eig : m22 -> (R * R) * m22) : Prop := forall N, (exists d, is_eigen N d) -> is_eigen N (eig N).
(** The history a load's dictionary stands for. *)
Inductive describes : option load_dict -> (R -> R) -> Prop :=
| d_none : describes None (fun _ => 0)
| d_exp q0 b w : describes (Some (mkDict (Some "exp"%string) (Some q0) (Some b) w)) (fun t => q0 * (1 - exp (- b * t)))
| d_sin q0 b w : describes (Some (mkDict (Some "sin"%string) (Some q0) b (Some w))) (fun t => q0 * sin (w * t)).
(** The time constant of an exponential load is no rate of decay of the waves. *)
Definition off_resonance (P : shan) (d : option load_dict) : Prop := match d with
  | Some (mkDict (Some ty) _ (Some b) _) => ty = "exp"%string -> forall k, (k < s_nterms P)%nat -> ~ decay_rate (the_layer P) k b
  | _ => True end.

Lemma describes_check P d q : describes d q -> off_resonance P d -> exists o, check_load d = Ok o /\ o_fine P o /\ forall t, o_value o t = q t.
Proof.
  intros [|q0 b w|q0 b w] F; eexists; (split; [reflexivity|]); split; cbn; auto.
Qed.
Lemma run_ok eig P zs ts f f1 f2 f3 f4 o o1 o2 o3 o4 : sound_unsat (the_layer P) -> good_eig eig ->
  check_load f = Ok o -> check_load f1 = Ok o1 -> check_load f2 = Ok o2 -> check_load f3 = Ok o3 -> check_load f4 = Ok o4 ->
  exists IC Iv eigs v, is_inverse (Cmat P) IC /\ is_inverse v Iv /\ eig (dot2 IC (Kmat P)) = (eigs, v) /\ is_eigen (dot2 IC (Kmat P)) (eigs, v) /\
    shanetal2012 eig P zs ts f f1 f2 f3 f4 = Ok (map (fun z => map (fun t => fst (cell P eigs v Iv IC z t o o1 o2 o3 o4)) ts) zs, map (fun z => map (fun t => snd (cell P eigs v Iv IC z t o o1 o2 o3 o4)) ts) zs).
Proof.
  intros Hs Hg E0 E1 E2 E3 E4. destruct (inv2_ok _ (detC P Hs)) as (IC & EI & HIC). destruct (eig (dot2 IC (Kmat P))) as [eigs v] eqn:Ee.
  assert (He : is_eigen (dot2 IC (Kmat P)) (eigs, v)) by (rewrite <- Ee; apply Hg, N_eigen; auto).
  assert (Dv : det2 v <> 0) by (destruct He as (_ & _ & _ & _ & D); exact D).
  destruct (inv2_ok _ Dv) as (Iv & EV & HIv). exists IC, Iv, eigs, v. repeat (split; [auto|]).
  unfold shanetal2012. rewrite E0, E1, E2, E3, E4. cbn [bind]. rewrite EI. cbn [bind]. rewrite Ee.
  assert (Z : negb (Z.eqb (s_drn P) 0 || Z.eqb (s_drn P) 1) = false) by (destruct (sHd P Hs) as [D|D]; rewrite D; reflexivity). rewrite Z. rewrite EV. reflexivity.
Qed.

(** C129: the pressures of water and air are those of the coupled equations with the loads, the prescribed values at the top and the
    bottom, and the linear initial pressures, up to the approximation of linear profiles by nterms waves. *)
Theorem C129_unsaturated eig P zs ts f f1 f2 f3 f4 q q1 q2 q3 q4 :
  sound_unsat (the_layer P) -> good_eig eig ->
  describes f q -> describes f1 q1 -> describes f2 q2 -> describes f3 q3 -> describes f4 q4 ->
  off_resonance P f -> off_resonance P f1 -> off_resonance P f2 -> off_resonance P f3 -> off_resonance P f4 ->
  exists uw ua porw pora, shanetal2012 eig P zs ts f f1 f2 f3 f4 = Ok (porw, pora) /\
    table zs ts uw porw /\ table zs ts ua pora /\
    governed (the_layer P) (s_nterms P) (mkHist q q1 q2 q3 q4) uw ua /\
    unsat_ends (the_layer P) (mkHist q q1 q2 q3 q4) uw ua /\
    exists pw pa, approximates (the_layer P) (s_nterms P) (fst (s_uwi P)) (snd (s_uwi P)) pw /\
      approximates (the_layer P) (s_nterms P) (fst (s_uai P)) (snd (s_uai P)) pa /\
      forall z, uw z 0 = pw z /\ ua z 0 = pa z.
Proof.
  intros Hs Hg D0 D1 D2 D3 D4 R0 R1 R2 R3 R4.
  destruct (describes_check P f q D0 R0) as (o & C0 & F0 & V0). destruct (describes_check P f1 q1 D1 R1) as (o1 & C1 & F1 & V1). destruct (describes_check P f2 q2 D2 R2) as (o2 & C2 & F2 & V2). destruct (describes_check P f3 q3 D3 R3) as (o3 & C3 & F3 & V3). destruct (describes_check P f4 q4 D4 R4) as (o4 & C4 & F4 & V4).
  destruct (run_ok eig P zs ts f f1 f2 f3 f4 o o1 o2 o3 o4 Hs Hg C0 C1 C2 C3 C4) as (IC & Iv & eigs & v & HIC & HIv & _ & He & Run).
  exists (fun z t => fst (cell P eigs v Iv IC z t o o1 o2 o3 o4)), (fun z t => snd (cell P eigs v Iv IC z t o o1 o2 o3 o4)). do 2 eexists. split; [exact Run|].
  split; [apply table_grid|split; [apply table_grid|]].
  split; [|split].
  - destruct (cell_governed P Hs eigs v Iv IC HIC HIv He o o1 o2 o3 o4 F0 F1 F2 F3 F4) as (p0 & p1 & p3 & GG). cbn zeta in GG. destruct GG as (A0 & A1 & A3 & G). exists p0, p1, p3. cbn zeta. split; [exact A0|split; [exact A1|split; [exact A3|]]].
    intros z t. destruct (G z t) as (wz & az & wt & at' & wzz & azz & q' & w1 & a1 & w3 & a3 & B1 & B2 & B3 & B4 & B5 & B6 & B7 & B8 & B9 & B10 & B11 & Eq).
    exists wz, az, wt, at', wzz, azz, q', w1, a1, w3, a3. repeat (split; [assumption|]).
    split; [eapply is_derive_ext; [|exact B7]; auto|]. split; [eapply is_derive_ext; [|exact B8]; auto|]. split; [eapply is_derive_ext; [|exact B9]; auto|]. split; [eapply is_derive_ext; [|exact B10]; auto|]. split; [eapply is_derive_ext; [|exact B11]; auto|]. exact Eq.
  - pose proof (cell_ends P Hs eigs v Iv IC o o1 o2 o3 o4 F0 F1 F2 F3 F4) as CE. destruct CE as (A & B & C & D). cbn [hist h_wtop h_atop h_wbot h_abot] in *. unfold unsat_ends. cbn [h_wtop h_atop h_wbot h_abot].
    split; [intros t; rewrite <- V1; apply A|split; [intros t; rewrite <- V2; apply B|split]].
    + intros E t. rewrite <- V3, <- V4. apply C; auto.
    + intros E t. rewrite <- V3, <- V4. apply D; auto.
  - do 2 eexists. split; [apply pp_approximates; apply Hs|split; [apply pp_approximates; apply Hs|]]. intros z. rewrite (cell_initial P Hs eigs v Iv IC HIv) by auto. auto.
Qed.
(** C129: loads that are not understood are rejected, and so is a singular system. *)
Inductive bad_load : load_dict -> exn -> Prop :=
| bl_none q b w : bad_load (mkDict None q b w) KeyError
| bl_type ty q b w : ty <> "exp"%string -> ty <> "sin"%string -> bad_load (mkDict (Some ty) q b w) ValueError
| bl_q0 ty b w : bad_load (mkDict (Some ty) None b w) ValueError
| bl_b q w : bad_load (mkDict (Some "exp"%string) q None w) ValueError
| bl_w q b : bad_load (mkDict (Some "sin"%string) q b None) ValueError.
Lemma bad_check d e : bad_load d e -> check_load (Some d) = Err e.
Proof.
  intros [q b w|ty q b w N1 N2|ty b w|q w|q b]; unfold check_load; cbn [d_type d_q0 d_b d_omega]; auto.
  - apply String.eqb_neq in N1, N2. rewrite N1, N2. reflexivity.
  - destruct (String.eqb ty "exp"); [reflexivity|]. destruct (String.eqb ty "sin"); reflexivity.
  - destruct q; reflexivity.
  - destruct q; reflexivity.
Qed.
Definition understood (d : option load_dict) : Prop := exists q, describes d q.
Lemma understood_check d : understood d -> exists o, check_load d = Ok o.
Proof. intros [q [|q0 b w|q0 b w]]; eexists; reflexivity. Qed.
Theorem C129_rejects eig P zs ts d e : bad_load d e ->
  shanetal2012 eig P zs ts (Some d) None None None None = Err e /\
  shanetal2012 eig P zs ts None (Some d) None None None = Err e /\
  shanetal2012 eig P zs ts None None (Some d) None None = Err e /\
  shanetal2012 eig P zs ts None None None (Some d) None = Err e /\
  shanetal2012 eig P zs ts None None None None (Some d) = Err e.
Proof. intros B. unfold shanetal2012. rewrite (bad_check d e B). cbn. auto. Qed.
Theorem C129_singular eig P zs ts f f1 f2 f3 f4 : s_Ca P * s_Cw P = 1 ->
  understood f -> understood f1 -> understood f2 -> understood f3 -> understood f4 ->
  shanetal2012 eig P zs ts f f1 f2 f3 f4 = Err LinAlgError.
Proof.
  intros E U0 U1 U2 U3 U4. apply understood_check in U0, U1, U2, U3, U4. destruct U0 as (? & E0), U1 as (? & E1), U2 as (? & E2), U3 as (? & E3), U4 as (? & E4). unfold shanetal2012. rewrite E0, E1, E2, E3, E4. cbn [bind].
  rewrite inv2_err; [reflexivity|]. unfold det2; cbn. lra.
Qed.

(** Any other drainage condition than 0 and 1 is refused (with UnboundLocalError). *)
Theorem C129_drainage eig P zs ts f f1 f2 f3 f4 : s_drn P <> 0%Z -> s_drn P <> 1%Z -> s_Ca P * s_Cw P <> 1 ->
  understood f -> understood f1 -> understood f2 -> understood f3 -> understood f4 ->
  shanetal2012 eig P zs ts f f1 f2 f3 f4 = Err UnboundLocalError.
Proof.
  intros D0 D1 E U0 U1 U2 U3 U4. apply understood_check in U0, U1, U2, U3, U4. destruct U0 as (? & E0), U1 as (? & E1), U2 as (? & E2), U3 as (? & E3), U4 as (? & E4). unfold shanetal2012. rewrite E0, E1, E2, E3, E4. cbn [bind].
  unfold inv2. rewrite (proj2 (Reqb_false _ 0)) by (unfold det2; cbn; lra). cbn [bind]. destruct (eig _) as [eigs v].
  apply Z.eqb_neq in D0, D1. rewrite D0, D1. reflexivity.
Qed.

(** C130: for a layer that drains, with loads that tend to a constant, the pressures tend to those prescribed at the top and the bottom. *)
Definition draining (P : shan) : Prop := s_Cvw P < 0 /\ s_Cva P < 0 /\ 0 <= s_Ca P * s_Cw P < 1.
(** the final value of a load: none, or exponential with b > 0 *)
Inductive settles : option load_dict -> R -> Prop :=
| s_none : settles None 0
| s_exp q0 b w : 0 < b -> settles (Some (mkDict (Some "exp"%string) (Some q0) (Some b) w)) q0.
Section Limit.
Variable P : shan.
Hypothesis Hs : sound_unsat (the_layer P).
Hypothesis Hd : draining P.
Variables (eigs : R * R) (v Iv IC : m22).
Hypothesis HIC : is_inverse (Cmat P) IC.
Hypothesis HIv : is_inverse v Iv.
Hypothesis He : is_eigen (dot2 IC (Kmat P)) (eigs, v).
Lemma e_neg e : e = fst eigs \/ e = snd eigs -> e < 0.
Proof.
  intros E. pose proof (char_poly P eigs v IC HIC He e E) as Q. pose proof (e_nonzero P Hs eigs v IC HIC He e E) as N. destruct Hd as (A & B & D1 & D2).
  destruct (Rlt_dec e 0) as [|G]; auto. assert (0 < e) by lra. assert (0 < e^2) by nra. assert (s_Ca P * s_Cw P * e^2 < e^2) by (rewrite <- (Rmult_1_l (e^2)) at 2; apply Rmult_lt_compat_r; auto). nra.
Qed.
Lemma lim_resp (E : R -> R -> R) X (p : R * R -> R) : (forall e, e = fst eigs \/ e = snd eigs -> is_lim (E e) p_infty 0) -> (p = fst \/ p = snd) ->
  is_lim (fun t => p (response eigs v Iv (fun e => E e t) X)) p_infty 0.
Proof.
  intros HE Hp. set (a := apply2 Iv X).
  assert (G : forall c d, is_lim (fun t => c * E (fst eigs) t + d * E (snd eigs) t) p_infty 0).
  { intros c d. replace (Finite 0) with (Finite (c * 0 + d * 0)) by (f_equal; ring). apply is_lim_plus'.
    - apply (is_lim_scal_l (E (fst eigs)) c p_infty 0). auto.
    - apply (is_lim_scal_l (E (snd eigs)) d p_infty 0). auto. }
  destruct Hp as [-> | ->].
  - apply (is_lim_ext (fun t => m11 v * fst a * E (fst eigs) t + m12 v * snd a * E (snd eigs) t)); [intros t; unfold response; fold a; unfold apply2; cbn [fst snd]; ring|]. apply G.
  - apply (is_lim_ext (fun t => m21 v * fst a * E (fst eigs) t + m22_ v * snd a * E (snd eigs) t)); [intros t; unfold response; fold a; unfold apply2; cbn [fst snd]; ring|]. apply G.
Qed.
Lemma lim_sum (E : nat -> R -> R -> R) X z (p : R * R -> R) : (forall k e, e = fst eigs \/ e = snd eigs -> is_lim (E k e) p_infty 0) -> (p = fst \/ p = snd) ->
  is_lim (fun t => p (sum_S P (fun k => response eigs v Iv (fun e => E k e t) (X k)) z)) p_infty 0.
Proof.
  intros HE Hp. apply (is_lim_ext (fun t => ssum (fun k => sin (s_M P k * z / s_H P) * p (response eigs v Iv (fun e => E k e t) (X k))) (s_nterms P))).
  { intros t. rewrite sum_S_eq. destruct Hp as [-> | ->]; reflexivity. }
  apply lim_ssum. intros k. replace (Finite 0) with (Rbar_mult (sin (s_M P k * z / s_H P)) 0) by (cbn; f_equal; ring). apply is_lim_scal_l. apply lim_resp; auto.
Qed.
Lemma lim_decay c e k : e < 0 -> is_lim (fun t => c * exp ((s_M P k / s_H P)^2 * e * t)) p_infty 0.
Proof.
  intros E. pose proof (sHH P Hs). pose proof (M_pos P (sHd P Hs) k). assert (0 < s_M P k / s_H P) by (apply Rdiv_lt_0_compat; auto).
  apply (is_lim_ext (fun t => c * exp (- ((- e * (s_M P k / s_H P)^2) * t)))); [intros t; f_equal; f_equal; ring|]. apply lim_exp_decay. apply Rmult_lt_0_compat; [lra|apply pow_lt; auto].
Qed.
Lemma lim_exp_load q0 b e k : 0 < b -> e < 0 -> is_lim (fun t => E_load (LExp q0 b) t (s_M P k / s_H P) e) p_infty 0.
Proof.
  intros Hb E. cbn [E_load]. unfold E_exp_load_dt. set (m := s_M P k / s_H P).
  apply (is_lim_ext (fun t => (- (b * q0) / (b + e * m^2)) * exp (- (b * t)) + (b * q0 / (b + e * m^2)) * exp (m^2 * e * t))).
  { intros t. replace (- b * t) with (- (b * t)) by ring. replace (e * m^2 * t) with (m^2 * e * t) by ring. unfold Rdiv. ring. }
  replace (Finite 0) with (Finite (0 + 0)) by (f_equal; ring). apply is_lim_plus'; [apply lim_exp_decay; auto|apply lim_decay; auto].
Qed.
Lemma lim_load_part o q d z ig Cs p : settles d q -> check_load d = Ok o -> (p = fst \/ p = snd) ->
  is_lim (fun t => p (match o with None => (0, 0) | Some l => load_part P eigs v Iv IC z t l ig Cs end)) p_infty 0.
Proof.
  intros [|q0 b w Hb] Ck Hp; cbn in Ck; injection Ck as <-.
  - apply (is_lim_ext (fun _ => 0)); [destruct Hp as [-> | ->]; auto|apply is_lim_const].
  - unfold load_part. apply (lim_sum (fun k e t => E_load (LExp q0 b) t (s_M P k / s_H P) e) (fun k => scal2 (ig k) (apply2 IC Cs))); auto.
    intros k e E. apply lim_exp_load; auto. apply e_neg; auto.
Qed.
Lemma lim_value o q d : settles d q -> check_load d = Ok o -> is_lim (o_value o) p_infty q.
Proof.
  intros [|q0 b w Hb] Ck; cbn in Ck; injection Ck as <-.
  - apply (is_lim_ext (fun _ => 0)); [auto|apply is_lim_const].
  - cbn [o_value l_value]. apply (is_lim_ext (fun t => q0 + (- q0) * exp (- (b * t)))); [intros t; cbn [o_value l_value]; replace (- b * t) with (- (b * t)) by ring; ring|].
    replace (Finite q0) with (Finite (q0 + 0)) by (f_equal; ring). apply is_lim_plus'; [apply is_lim_const|apply lim_exp_decay; auto].
Qed.
Variables (f f1 f2 f3 f4 : option load_dict) (o o1 o2 o3 o4 : option load) (q q1 q2 q3 q4 : R).
Hypotheses (S0 : settles f q) (S1 : settles f1 q1) (S2 : settles f2 q2) (S3 : settles f3 q3) (S4 : settles f4 q4).
Hypotheses (C0 : check_load f = Ok o) (C1 : check_load f1 = Ok o1) (C2 : check_load f2 = Ok o2) (C3 : check_load f3 = Ok o3) (C4 : check_load f4 = Ok o4).
Notation u := (fun z t => cell P eigs v Iv IC z t o o1 o2 o3 o4).
Lemma cell_sum z t : u z t = add2 (o_value o1 t * lift_top P z + o_value o3 t * lift_bot P z, o_value o2 t * lift_top P z + o_value o4 t * lift_bot P z)
  (add2 (initial_part P eigs v Iv z t) (add2 (match o with None => (0, 0) | Some l => load_part P eigs v Iv IC z t l (fun k => 2 * (1 - cos (s_M P k)) / s_M P k) (s_Csw P, s_Csa P) end)
  (add2 (add2 (match o1 with None => (0, 0) | Some l => load_part P eigs v Iv IC z t l (igral_top P) (-1, - s_Ca P) end) (match o2 with None => (0, 0) | Some l => load_part P eigs v Iv IC z t l (igral_top P) (- s_Cw P, -1) end))
  (add2 (match o3 with None => (0, 0) | Some l => load_part P eigs v Iv IC z t l (igral_bot P) (-1, - s_Ca P) end) (match o4 with None => (0, 0) | Some l => load_part P eigs v Iv IC z t l (igral_bot P) (- s_Cw P, -1) end))))).
Proof.
  unfold cell. cbn zeta. rewrite !with_sum. destruct o, o1, o2, o3, o4; cbn [o_value]; unfold add2; cbn [fst snd]; f_equal; ring.
Qed.
Lemma lim_initial z p : (p = fst \/ p = snd) -> is_lim (fun t => p (initial_part P eigs v Iv z t)) p_infty 0.
Proof.
  intros Hp. unfold initial_part. apply (lim_sum (fun k e t => exp ((s_M P k)^2 / (s_H P)^2 * e * t)) (fun k => (g_coef P (s_uwi P) k, g_coef P (s_uai P) k))); auto.
  intros k e E. apply (is_lim_ext (fun t => 1 * exp ((s_M P k / s_H P)^2 * e * t))); [intros t; rewrite Rmult_1_l; f_equal; pose proof (sHH P Hs); field; lra|]. apply lim_decay. apply e_neg; auto.
Qed.
Lemma lim_add2 (p : R * R -> R) (x y : R -> R * R) : (p = fst \/ p = snd) -> is_lim (fun t => p (x t)) p_infty 0 -> is_lim (fun t => p (y t)) p_infty 0 -> is_lim (fun t => p (add2 (x t) (y t))) p_infty 0.
Proof.
  intros Hp A B. apply (is_lim_ext (fun t => p (x t) + p (y t))); [intros t; destruct Hp as [-> | ->]; reflexivity|].
  replace (Finite 0) with (Finite (0 + 0)) by (f_equal; ring). apply is_lim_plus'; auto.
Qed.
Lemma lim_cell z : is_lim (fun t => fst (u z t)) p_infty (q1 * lift_top P z + q3 * lift_bot P z) /\ is_lim (fun t => snd (u z t)) p_infty (q2 * lift_top P z + q4 * lift_bot P z).
Proof.
  assert (G : forall (p : R * R -> R) a b (qa qb : R), (p = fst \/ p = snd) -> is_lim a p_infty qa -> is_lim b p_infty qb ->
    (forall t, p (u z t) = (a t * lift_top P z + b t * lift_bot P z) + p (snd (0, add2 (initial_part P eigs v Iv z t) (add2 (match o with None => (0, 0) | Some l => load_part P eigs v Iv IC z t l (fun k => 2 * (1 - cos (s_M P k)) / s_M P k) (s_Csw P, s_Csa P) end)
  (add2 (add2 (match o1 with None => (0, 0) | Some l => load_part P eigs v Iv IC z t l (igral_top P) (-1, - s_Ca P) end) (match o2 with None => (0, 0) | Some l => load_part P eigs v Iv IC z t l (igral_top P) (- s_Cw P, -1) end))
  (add2 (match o3 with None => (0, 0) | Some l => load_part P eigs v Iv IC z t l (igral_bot P) (-1, - s_Ca P) end) (match o4 with None => (0, 0) | Some l => load_part P eigs v Iv IC z t l (igral_bot P) (- s_Cw P, -1) end))))))) ->
    is_lim (fun t => p (u z t)) p_infty (qa * lift_top P z + qb * lift_bot P z)).
  { intros p a b qa qb Hp La Lb E. eapply is_lim_ext; [intros t; symmetry; apply E|]. cbn [snd]. replace (Finite (qa * lift_top P z + qb * lift_bot P z)) with (Finite ((qa * lift_top P z + qb * lift_bot P z) + 0)) by (f_equal; ring).
    apply is_lim_plus'.
    - apply is_lim_plus'; [apply (is_lim_scal_r a (lift_top P z) p_infty qa); auto|apply (is_lim_scal_r b (lift_bot P z) p_infty qb); auto].
    - apply lim_add2; [auto|apply lim_initial; auto|]. apply lim_add2; [auto|apply (lim_load_part o q f); auto|]. apply lim_add2; [auto| |].
      + apply lim_add2; [auto|apply (lim_load_part o1 q1 f1); auto|apply (lim_load_part o2 q2 f2); auto].
      + apply lim_add2; [auto|apply (lim_load_part o3 q3 f3); auto|apply (lim_load_part o4 q4 f4); auto]. }
  split.
  - apply (G fst (o_value o1) (o_value o3)); auto; [apply (lim_value o1 q1 f1); auto|apply (lim_value o3 q3 f3); auto|]. intros t. rewrite cell_sum. reflexivity.
  - apply (G snd (o_value o2) (o_value o4)); auto; [apply (lim_value o2 q2 f2); auto|apply (lim_value o4 q4 f4); auto|]. intros t. rewrite cell_sum. reflexivity.
Qed.
End Limit.
Lemma settles_check d q : settles d q -> exists o, check_load d = Ok o.
Proof. intros [|q0 b w Hb]; eexists; reflexivity. Qed.
Theorem C130_final eig P zs ts f f1 f2 f3 f4 q q1 q2 q3 q4 :
  sound_unsat (the_layer P) -> draining P -> good_eig eig ->
  settles f q -> settles f1 q1 -> settles f2 q2 -> settles f3 q3 -> settles f4 q4 ->
  exists uw ua porw pora, shanetal2012 eig P zs ts f f1 f2 f3 f4 = Ok (porw, pora) /\
    table zs ts uw porw /\ table zs ts ua pora /\ forall z,
    is_lim (uw z) p_infty (if Z.eqb (s_drn P) 0 then q1 * (1 - z / s_H P) + q3 * (z / s_H P) else q1 + q3 * z) /\
    is_lim (ua z) p_infty (if Z.eqb (s_drn P) 0 then q2 * (1 - z / s_H P) + q4 * (z / s_H P) else q2 + q4 * z).
Proof.
  intros Hs Hd Hg S0 S1 S2 S3 S4. destruct (settles_check f q S0) as (o & C0). destruct (settles_check f1 q1 S1) as (o1 & C1). destruct (settles_check f2 q2 S2) as (o2 & C2). destruct (settles_check f3 q3 S3) as (o3 & C3). destruct (settles_check f4 q4 S4) as (o4 & C4).
  destruct (run_ok eig P zs ts f f1 f2 f3 f4 o o1 o2 o3 o4 Hs Hg C0 C1 C2 C3 C4) as (IC & Iv & eigs & v & HIC & HIv & _ & He & Run).
  exists (fun z t => fst (cell P eigs v Iv IC z t o o1 o2 o3 o4)), (fun z t => snd (cell P eigs v Iv IC z t o o1 o2 o3 o4)). do 2 eexists. split; [exact Run|].
  split; [apply table_grid|split; [apply table_grid|]]. intros z.
  destruct (lim_cell P Hs Hd eigs v Iv IC HIC He f f1 f2 f3 f4 o o1 o2 o3 o4 q q1 q2 q3 q4 S0 S1 S2 S3 S4 C0 C1 C2 C3 C4 z) as [A B].
  unfold lift_top, lift_bot in A, B. destruct (Z.eqb (s_drn P) 0); [auto|]. rewrite Rmult_1_r in A, B. auto.
Qed.
(** C130: without loads the pressures die away. *)
Theorem C130_dies eig P zs ts : sound_unsat (the_layer P) -> draining P -> good_eig eig ->
  exists uw ua porw pora, shanetal2012 eig P zs ts None None None None None = Ok (porw, pora) /\
    table zs ts uw porw /\ table zs ts ua pora /\ forall z, is_lim (uw z) p_infty 0 /\ is_lim (ua z) p_infty 0.
Proof.
  intros Hs Hd Hg. destruct (C130_final eig P zs ts None None None None None 0 0 0 0 0 Hs Hd Hg) as (uw & ua & pw & pa & Run & T1 & T2 & Lm); try constructor.
  exists uw, ua, pw, pa. repeat (split; [assumption|]). intros z. destruct (Lm z) as [A B]. rewrite !Rmult_0_l, !Rplus_0_r in A, B. destruct (Z.eqb (s_drn P) 0); auto.
Qed.

(** C131: the result does not depend on which eigenvectors eig gives, nor on their order and scale. *)
Lemma resp_formula N eigs v Iv E X : is_inverse v Iv -> is_eigen N (eigs, v) -> fst eigs <> snd eigs ->
  response eigs v Iv E X = scal2 (/ (fst eigs - snd eigs)) (add2 (scal2 (E (fst eigs)) (add2 (apply2 N X) (scal2 (- snd eigs) X))) (scal2 (- E (snd eigs)) (add2 (apply2 N X) (scal2 (- fst eigs) X)))).
Proof.
  intros HIv (E1 & E2 & E3 & E4 & _) Hne. cbn [fst snd] in *. unfold response. set (a := apply2 Iv X).
  assert (Xa : X = apply2 v a) by (unfold a; rewrite <- apply_dot, (proj1 HIv), apply_1; reflexivity).
  assert (Na : apply2 N X = apply2 v (fst eigs * fst a, snd eigs * snd a)).
  { rewrite Xa. unfold apply2; cbn [fst snd]. f_equal.
    - transitivity ((m11 N * m11 v + m12 N * m21 v) * fst a + (m11 N * m12 v + m12 N * m22_ v) * snd a); [ring|]. rewrite E1, E3. ring.
    - transitivity ((m21 N * m11 v + m22_ N * m21 v) * fst a + (m21 N * m12 v + m22_ N * m22_ v) * snd a); [ring|]. rewrite E2, E4. ring. }
  rewrite Na. clearbody a. rewrite Xa. unfold apply2, add2, scal2; cbn [fst snd]. f_equal; field; lra.
Qed.
Lemma eig_trace N eigs v : is_eigen N (eigs, v) -> m11 N + m22_ N = fst eigs + snd eigs /\ m11 N * m22_ N - m12 N * m21 N = fst eigs * snd eigs.
Proof.
  intros (E1 & E2 & E3 & E4 & D). cbn [fst snd] in *. set (dd := m11 v * m22_ v - m12 v * m21 v) in *.
  assert (A : m11 N = (fst eigs * m11 v * m22_ v - snd eigs * m12 v * m21 v) / dd). { apply (Rmult_eq_reg_r dd); auto. transitivity ((m11 N * m11 v + m12 N * m21 v) * m22_ v - (m11 N * m12 v + m12 N * m22_ v) * m21 v); [unfold dd; ring|]. rewrite E1, E3. field. auto. }
  assert (B : m12 N = (snd eigs * m12 v * m11 v - fst eigs * m11 v * m12 v) / dd). { apply (Rmult_eq_reg_r dd); auto. transitivity ((m11 N * m12 v + m12 N * m22_ v) * m11 v - (m11 N * m11 v + m12 N * m21 v) * m12 v); [unfold dd; ring|]. rewrite E1, E3. field. auto. }
  assert (C' : m21 N = (fst eigs * m21 v * m22_ v - snd eigs * m22_ v * m21 v) / dd). { apply (Rmult_eq_reg_r dd); auto. transitivity ((m21 N * m11 v + m22_ N * m21 v) * m22_ v - (m21 N * m12 v + m22_ N * m22_ v) * m21 v); [unfold dd; ring|]. rewrite E2, E4. field. auto. }
  assert (D' : m22_ N = (snd eigs * m22_ v * m11 v - fst eigs * m21 v * m12 v) / dd). { apply (Rmult_eq_reg_r dd); auto. transitivity ((m21 N * m12 v + m22_ N * m22_ v) * m11 v - (m21 N * m11 v + m22_ N * m21 v) * m12 v); [unfold dd; ring|]. rewrite E2, E4. field. auto. }
  rewrite A, B, C', D'. clear - D. unfold dd in *. split; field; auto.
Qed.
Lemma resp_unique N eigs v Iv eigs' v' Iv' E X : is_inverse v Iv -> is_eigen N (eigs, v) -> is_inverse v' Iv' -> is_eigen N (eigs', v') ->
  response eigs v Iv E X = response eigs' v' Iv' E X.
Proof.
  intros I1 G1 I2 G2. destruct (eig_trace _ _ _ G1) as [T1 D1]. destruct (eig_trace _ _ _ G2) as [T2 D2].
  destruct eigs as [a b], eigs' as [c d]. cbn [fst snd] in *.
  assert (Sw : (c = a /\ d = b) \/ (c = b /\ d = a)).
  { assert (Z : (c - a) * (c - b) = 0) by (assert (d = a + b - c) by lra; subst d; nra). apply Rmult_integral in Z. destruct Z; [left|right]; split; lra. }
  destruct (Req_dec a b) as [Eab|Nab].
  - assert (c = a /\ d = a) as [-> ->] by (destruct Sw as [[-> ->]|[-> ->]]; auto). subst b.
    transitivity (scal2 (E a) X).
    + rewrite <- (resp_const (a, a) v Iv I1). apply resp_ext; reflexivity.
    + symmetry. rewrite <- (resp_const (a, a) v' Iv' I2). apply resp_ext; reflexivity.
  - rewrite (resp_formula N (a, b) v Iv) by auto. rewrite (resp_formula N (c, d) v' Iv'); auto; [|destruct Sw as [[-> ->]|[-> ->]]; auto].
    destruct Sw as [[-> ->]|[-> ->]]; cbn [fst snd]; [reflexivity|]. unfold add2, scal2; cbn [fst snd]. f_equal; field; lra.
Qed.
Lemma sum_S_ext' P X Y z : (forall k, X k = Y k) -> sum_S P X z = sum_S P Y z.
Proof. intros E. rewrite !sum_S_eq. f_equal; apply ssum_ext; intros; rewrite E; reflexivity. Qed.
Theorem C131_any_eigenvectors eig eig' P zs ts f f1 f2 f3 f4 : sound_unsat (the_layer P) -> good_eig eig -> good_eig eig' ->
  understood f -> understood f1 -> understood f2 -> understood f3 -> understood f4 ->
  shanetal2012 eig P zs ts f f1 f2 f3 f4 = shanetal2012 eig' P zs ts f f1 f2 f3 f4.
Proof.
  intros Hs Hg Hg' U0 U1 U2 U3 U4. apply understood_check in U0, U1, U2, U3, U4. destruct U0 as (o & C0), U1 as (o1 & C1), U2 as (o2 & C2), U3 as (o3 & C3), U4 as (o4 & C4).
  destruct (inv2_ok _ (detC P Hs)) as (IC & EI & HIC).
  assert (X : forall g, good_eig g -> exists Iv eigs v, is_inverse v Iv /\ is_eigen (dot2 IC (Kmat P)) (eigs, v) /\
     shanetal2012 g P zs ts f f1 f2 f3 f4 = Ok (map (fun z => map (fun t => fst (cell P eigs v Iv IC z t o o1 o2 o3 o4)) ts) zs, map (fun z => map (fun t => snd (cell P eigs v Iv IC z t o o1 o2 o3 o4)) ts) zs)).
  { intros g Gg. destruct (g (dot2 IC (Kmat P))) as [eigs v] eqn:Ee.
    assert (He : is_eigen (dot2 IC (Kmat P)) (eigs, v)) by (rewrite <- Ee; apply Gg, N_eigen; auto).
    assert (Dv : det2 v <> 0) by (destruct He as (_ & _ & _ & _ & D); exact D).
    destruct (inv2_ok _ Dv) as (Iv & EV & HIv). exists Iv, eigs, v. repeat (split; [auto|]).
    unfold shanetal2012. rewrite C0, C1, C2, C3, C4. cbn [bind]. rewrite EI. cbn [bind]. rewrite Ee.
    assert (Z : negb (Z.eqb (s_drn P) 0 || Z.eqb (s_drn P) 1) = false) by (destruct (sHd P Hs) as [D|D]; rewrite D; reflexivity). rewrite Z. rewrite EV. reflexivity. }
  destruct (X eig Hg) as (Iv & eigs & v & I1 & G1 & R1). destruct (X eig' Hg') as (Iv' & eigs' & v' & I2 & G2 & R2). rewrite R1, R2.
  assert (LP : forall z t l ig Cs, load_part P eigs v Iv IC z t l ig Cs = load_part P eigs' v' Iv' IC z t l ig Cs) by (intros; unfold load_part; apply sum_S_ext'; intros k; apply (resp_unique _ _ _ _ _ _ _ _ _ I1 G1 I2 G2)).
  assert (IP : forall z t, initial_part P eigs v Iv z t = initial_part P eigs' v' Iv' z t) by (intros; unfold initial_part; apply sum_S_ext'; intros k; apply (resp_unique _ _ _ _ _ _ _ _ _ I1 G1 I2 G2)).
  assert (Q : forall z t, cell P eigs v Iv IC z t o o1 o2 o3 o4 = cell P eigs' v' Iv' IC z t o o1 o2 o3 o4).
  { intros z t. unfold cell. cbn zeta. rewrite !with_sum. rewrite IP. destruct o, o1, o2, o3, o4; rewrite ?LP; reflexivity. }
  f_equal. f_equal; apply map_ext; intros z; apply map_ext; intros t; rewrite Q; reflexivity.
Qed.

(** A case that meets the hypotheses: an eig, a draining layer with both kinds of bottom, and loads. *)
Definition eig0 (N : m22) : (R * R) * m22 :=
  let (a, b, c, d) := N in
  if Reqb b 0 then (if Reqb c 0 then ((a, d), M22 1 0 0 1) else ((a, d), M22 (a - d) 0 c 1))
  else let s := sqrt ((a - d)^2 + 4 * (b * c)) in (((a + d + s) / 2, (a + d - s) / 2), M22 b b ((d - a + s) / 2) ((d - a - s) / 2)).
Lemma eig0_good : good_eig eig0.
Proof.
  intros N ((eigs & v) & G). destruct (eig_trace _ _ _ G) as [T D]. destruct eigs as [e1 e2]. cbn [fst snd] in *.
  assert (Dc : 0 < (m11 N - m22_ N)^2 + 4 * (m12 N * m21 N) \/ (m12 N = 0 /\ m21 N = 0)).
  { destruct (Req_dec e1 e2) as [<-|Ne].
    - right. destruct G as (E1 & E2 & E3 & E4 & Dv). cbn [fst snd] in *.
      assert (A : m12 N * (m11 v * m22_ v - m12 v * m21 v) = 0) by (transitivity ((m11 N * m12 v + m12 N * m22_ v) * m11 v - (m11 N * m11 v + m12 N * m21 v) * m12 v); [ring|rewrite E1, E3; ring]).
      assert (B : m21 N * (m11 v * m22_ v - m12 v * m21 v) = 0) by (transitivity ((m21 N * m11 v + m22_ N * m21 v) * m22_ v - (m21 N * m12 v + m22_ N * m22_ v) * m21 v); [ring|rewrite E2, E4; ring]).
      apply Rmult_integral in A, B. tauto.
    - left. replace ((m11 N - m22_ N)^2 + 4 * (m12 N * m21 N)) with ((m11 N + m22_ N)^2 - 4 * (m11 N * m22_ N - m12 N * m21 N)) by ring. rewrite T, D. replace ((e1 + e2)^2 - 4 * (e1 * e2)) with ((e1 - e2)^2) by ring. rewrite <- Rsqr_pow2. apply Rsqr_pos_lt. lra. }
  clear - Dc. destruct N as [a b c d]. unfold eig0. cbn [m11 m12 m21 m22_] in Dc. destruct (Reqb b 0) eqn:Eb; [destruct (Reqb c 0) eqn:Ec|].
  - apply Reqb_true in Eb, Ec. subst. unfold is_eigen, eigen; cbn. repeat split; lra.
  - apply Reqb_true in Eb. apply Reqb_false in Ec. destruct Dc as [Dc|[_ Dc]]; [|lra]. subst. unfold is_eigen, eigen; cbn. repeat split; try ring. intros e. assert (Z : a - d = 0) by lra. rewrite Z in Dc. lra.
  - apply Reqb_false in Eb. destruct Dc as [Dc|[Dc _]]; [|lra]. set (s := sqrt ((a - d)^2 + 4 * (b * c))). assert (Sp : 0 < s) by (apply sqrt_lt_R0; auto). assert (Ss : s * s = (a - d)^2 + 4 * (b * c)) by (apply sqrt_sqrt; lra).
    unfold is_eigen, eigen; cbn [fst snd m11 m12 m21 m22_]. repeat split; try field.
    + transitivity ((b * c * 4 + 2 * d * (d - a) + 2 * d * s) / 4); [field|]. replace (b * c * 4) with (s * s - (a - d)^2) by lra. field.
    + transitivity ((b * c * 4 + 2 * d * (d - a) - 2 * d * s) / 4); [field|]. replace (b * c * 4) with (s * s - (a - d)^2) by lra. field.
    + intros e. assert (Z : b * s = 0) by lra. apply Rmult_integral in Z. destruct Z; lra.
Qed.
Definition ex_P (drn : Z) : shan := mkShan 10 (-3/4) (-1) (-1/10) (-2) drn (1/4) (1/5) (40, 30) (20, 10) 50.
Lemma ex_sound drn : (drn = 0 \/ drn = 1)%Z -> sound_unsat (the_layer (ex_P drn)) /\ draining (ex_P drn).
Proof. intros D. unfold sound_unsat, draining; cbn. repeat split; auto; try lra. Qed.
Lemma ex_off drn q0 w : (drn = 0 \/ drn = 1)%Z -> off_resonance (ex_P drn) (Some (mkDict (Some "exp"%string) (Some q0) (Some (1/1000)) w)).
Proof.
  intros D _ k _. unfold decay_rate. assert (Q : 1/100 <= (wave_number (the_layer (ex_P drn)) k)^2).
  { assert (W : 1/10 <= wave_number (the_layer (ex_P drn)) k).
    { unfold wave_number; cbn [ul_drn ul_H the_layer ex_P s_drn s_H]. pose proof PI2_1. pose proof (pos_INR k). destruct D as [-> | ->]; cbn [Z.eqb]; nra. }
    replace (1/100) with ((1/10)^2) by field. apply pow_incr. lra. }
  cbn [ul_Cvw ul_Cva ul_Ca ul_Cw the_layer ex_P s_Cvw s_Cva s_Ca s_Cw]. set (m := _^2) in *. intros E. nra.
Qed.
Theorem C129_holds_somewhere drn zs ts : (drn = 0 \/ drn = 1)%Z ->
  let f := Some (mkDict (Some "exp"%string) (Some 100) (Some (1/1000)) None) in
  let g := Some (mkDict (Some "sin"%string) (Some 50) None (Some 2)) in
  exists uw ua porw pora, shanetal2012 eig0 (ex_P drn) zs ts f g f f g = Ok (porw, pora) /\ table zs ts uw porw /\ table zs ts ua pora /\
    unsat_ends (the_layer (ex_P drn)) (mkHist (fun t => 100 * (1 - exp (- (1/1000) * t))) (fun t => 50 * sin (2 * t)) (fun t => 100 * (1 - exp (- (1/1000) * t))) (fun t => 100 * (1 - exp (- (1/1000) * t))) (fun t => 50 * sin (2 * t))) uw ua.
Proof.
  intros D f g. destruct (C129_unsaturated eig0 (ex_P drn) zs ts f g f f g _ _ _ _ _ (proj1 (ex_sound drn D)) eig0_good (d_exp 100 (1/1000) None) (d_sin 50 None 2) (d_exp 100 (1/1000) None) (d_exp 100 (1/1000) None) (d_sin 50 None 2)) as (uw & ua & pw & pa & Run & T1 & T2 & _ & E & _); try (apply ex_off; auto); cbn; auto.
  exists uw, ua, pw, pa. auto.
Qed.
Theorem C130_holds_somewhere drn : (drn = 0 \/ drn = 1)%Z -> sound_unsat (the_layer (ex_P drn)) /\ draining (ex_P drn) /\ good_eig eig0 /\
  settles (Some (mkDict (Some "exp"%string) (Some 100) (Some (1/1000)) None)) 100.
Proof. intros D. destruct (ex_sound drn D). split; auto. split; auto. split; [apply eig0_good|]. constructor. lra. Qed.
(** another eig: the eigenvectors of eig0, swapped and scaled *)
Definition eig1 (N : m22) : (R * R) * m22 := let '((a, b), v) := eig0 N in ((b, a), M22 (2 * m12 v) (3 * m11 v) (2 * m22_ v) (3 * m21 v)).
Theorem C131_holds_somewhere : good_eig eig1.
Proof.
  intros N X. pose proof (eig0_good N X) as G. unfold eig1. destruct (eig0 N) as [[a b] v]. destruct G as (E1 & E2 & E3 & E4 & D). cbn [fst snd] in *. unfold is_eigen, eigen; cbn [fst snd m11 m12 m21 m22_]. repeat split.
  - transitivity (2 * (m11 N * m12 v + m12 N * m22_ v)); [ring|]. rewrite E3. ring.
  - transitivity (2 * (m21 N * m12 v + m22_ N * m22_ v)); [ring|]. rewrite E4. ring.
  - transitivity (3 * (m11 N * m11 v + m12 N * m21 v)); [ring|]. rewrite E1. ring.
  - transitivity (3 * (m21 N * m11 v + m22_ N * m21 v)); [ring|]. rewrite E2. ring.
  - intros Z. apply D. lra.
Qed.
