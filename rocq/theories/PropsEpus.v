(** * EPUS: saturation, histories, monotone steps, reported suctions and stresses *)
From Coq Require Import Reals List ZArith Bool Lia Lra.
From Coquelicot Require Import Rcomplements.
From Verif Require Import Base ConstitutiveModel ConstitutiveProofs SwccModel EpusModel EpusSpec EpusProofs1 EpusProofs2 EpusProofs3.
Import ListNotations.
Local Open Scope R_scope.

Lemma slurry_dry_ok p o o' : SlurryPoreSize p o = Ok o' -> List.Forall dry_ok (pores o').
Proof. intros H. apply slurry_all in H as (F & _). eapply Forall_impl; [|exact F]. intros q (X & _). left. exact X. Qed.
Lemma slurry_fit p o o' : proper p -> SlurryPoreSize p o = Ok o' -> fit o'.
Proof. intros P H. split; [|eapply slurry_dry_ok; eauto]. apply slurry_all in H as (F & _). eapply Forall_impl; [|exact F]. intros q (_ & _ & _ & _ & X & _). auto. Qed.

(** C159: water never more than voids, degree of saturation between 0 and 1, at every reported point of every stress path. *)
Lemma points_nonneg p pts o o' d : points_run p pts o o' d -> List.Forall dry_ok (pores o) ->
  List.Forall dry_ok (pores o') /\ List.Forall (fun a => exists ss st f, List.Forall nonneg f /\ a = finish p ss st (void_ratio f) (water_content p f)) d.
Proof.
  induction 1 as [|m ss st l o o1 o2 d C P IH]; intros F; [split; auto|]. assert (N := method_nonneg _ _ _ _ C F). destruct (IH (nonneg_dry_ok _ N)) as (I1 & I2).
  split; auto. constructor; auto. exists ss, st, (pores o1). auto.
Qed.
Lemma path_nonneg p l cs ct o o' ds : path_run p l cs ct o o' ds -> List.Forall dry_ok (pores o) ->
  List.Forall (List.Forall (fun a => exists ss st f, List.Forall nonneg f /\ a = finish p ss st (void_ratio f) (water_content p f))) ds.
Proof. induction 1; intros F; constructor; eapply points_nonneg in H0 as (A & B); eauto. Qed.
Theorem C159_saturation p l o o' ds d : 0 < Gs p -> 0 <= beta p <= 1 -> Calresults p l o = Ok (o', ds) -> In d (concat ds) ->
  0 <= d_e d /\ 0 <= d_w d /\ d_w d * Gs p <= d_e d /\
  match d_Sr d, d_vw d with
  | Some sr, Some v => 0 < d_e d /\ 0 <= sr <= 1 /\ sr * d_e d = Gs p * d_w d /\ 0 <= v < 1 /\ v * (1 + d_e d) = Gs p * d_w d
  | None, None => d_e d = 0
  | _, _ => False
  end.
Proof.
  intros G B H I. apply calresults_run in H as (o1 & o2 & S & P). cbn [fst snd] in P. apply path_nonneg in P; [|eapply slurry_dry_ok; eauto].
  apply in_concat in I as (ds0 & I1 & I2). rewrite Forall_forall in P. specialize (P _ I1). rewrite Forall_forall in P. destruct (P _ I2) as (ss & st & f & N & ->). clear - N G B.
  destruct (water_bounds p f G B N) as (W1 & W2 & W3). unfold finish. cbn [d_e d_w d_Sr d_vw]. set (e := void_ratio f) in *. set (w := water_content p f) in *.
  repeat (match goal with |- _ /\ _ => split end); auto. unfold Reqb. destruct (Req_EM_T e 0) as [Z|Z]; [auto|].
  assert (E : 0 < e) by lra. assert (IE : 0 < / e) by (apply Rinv_0_lt_compat; auto). assert (IE1 : 0 < / (e + 1)) by (apply Rinv_0_lt_compat; lra). assert (GW : 0 <= w * Gs p) by (apply Rmult_le_pos; lra).
  assert (S1 : w * Gs p / e <= 1) by (apply Rmult_le_reg_r with e; auto; unfold Rdiv; rewrite Rmult_assoc, Rinv_l by lra; lra).
  assert (S0 : 0 <= w * Gs p / e) by (apply Rmult_le_pos; lra).
  assert (V : w * Gs p / e * e / (e + 1) = w * Gs p / (e + 1)) by (field; lra).
  repeat (match goal with |- _ /\ _ => split end); auto; [field; lra|rewrite V; apply Rmult_le_pos; lra| |rewrite V; field; lra].
  rewrite V. apply Rmult_lt_reg_r with (e + 1); [lra|]. unfold Rdiv. rewrite Rmult_assoc, Rinv_l by lra. lra.
Qed.
(** Whatever methods are called in whatever order: the groups stay what they are, yield stresses never fall, a group that has been dry counts as holding entrapped air for ever, volumes are not negative. *)
Theorem C159_history p h o o' : calls p h o = Ok o' ->
  Forall2 (fun q q' => AEV q' = AEV q /\ WEV q' = WEV q /\ Ccp q' = Ccp q /\ Csp q' = Csp q /\ RV q' = RV q /\
                       YieldSt q <= YieldSt q' /\ (Airentrapped q = true -> Airentrapped q' = true) /\ (0 <= RVC q -> 0 <= RVC q')) (pores o) (pores o').
Proof.
  revert o. induction h as [|m h IH]; intros o H; cbn [calls] in H.
  - injection H as <-. induction (pores o) as [|q f If]; constructor; auto. repeat split; auto. lra.
  - unbind H. apply IH in H. apply method_groups in Q. clear - Q H. revert H. generalize (pores o'). induction Q as [|q q1 f f1 E Q IH]; intros f2 H; inversion H; subst; constructor; auto.
    destruct H2 as (A1 & A2 & A3 & A4 & A5 & A6 & A7 & A8), E as ((B1 & B2 & B3 & B4 & B5 & B6) & B7 & B8 & B9).
    repeat (match goal with |- _ /\ _ => split end); try congruence; auto. lra.
Qed.
(** Filling and draining: drying fills nothing, wetting and loading drain nothing, unloading does neither. *)
Theorem C159_fill p m o o' : call p m o = Ok o' ->
  Forall2 (fun q q' => match m with Dry _ => Filled q' = true -> Filled q = true | Wet _ | Load _ => Filled q = true -> Filled q' = true | Unload _ => Filled q' = Filled q end) (pores o) (pores o').
Proof.
  destruct m; cbn [call]; unfold Drying, Wetting, Loading, Unloading; intros H; unbind H; injection H as <-; cbn [pores].
  - apply mapM_Ok_Forall2 in Q0. eapply Forall2_impl; [|exact Q0]. intros q1 q2 E. apply dry_stepped in E. tauto.
  - apply mapM_Ok_Forall2 in Q0. eapply Forall2_impl; [|exact Q0]. intros q1 q2 E. apply wet_stepped in E. tauto.
  - apply mapM_Ok_Forall2 in Q. eapply Forall2_impl; [|exact Q]. intros q1 q2 E. apply load_stepped in E. tauto.
  - apply mapM_Ok_Forall2 in Q. eapply Forall2_impl; [|exact Q]. intros q1 q2 E. apply unload_stepped in E. tauto.
Qed.

(** C161: within one step. *)
Lemma chain {A} (P : A -> A -> Prop) (l : list A) : (forall a, P a a) -> (forall a b c, P a b -> P b c -> P a c) ->
  (forall j a b, nth_error l j = Some a -> nth_error l (S j) = Some b -> P a b) -> forall i j a b, (i <= j)%nat -> nth_error l i = Some a -> nth_error l j = Some b -> P a b.
Proof.
  intros R T HS i j a b L E1. revert b. induction L as [|j L IH]; intros b E2; [rewrite E1 in E2; injection E2 as ->; apply R|].
  destruct (nth_error l j) as [c|] eqn:E; [|exfalso; apply nth_error_None in E; assert (nth_error l (S j) <> None) by congruence; apply nth_error_Some in H; lia].
  eapply T; [apply IH; reflexivity|eapply HS; eauto].
Qed.
Lemma step_of p l1 s l2 o o' ds : proper p -> Calresults p (l1 ++ s :: l2) o = Ok (o', ds) ->
  exists d o1 o2, nth_error ds (length l1) = Some d /\ fit o1 /\ 0 < vl s /\ points_run p (step_points p s (at_suction p l1) (at_stress p l1)) o1 o2 d.
Proof.
  intros P H. apply calresults_run in H as (oa & ob & S & R). cbn [fst snd] in R. apply path_split in R as (ds1 & d & ds2 & o1 & o2 & -> & L & F & V & R); [|eapply slurry_fit; eauto].
  exists d, o1, o2. rewrite nth_error_app2 by lia. rewrite L, Nat.sub_diag. cbn. unfold at_suction, at_stress.
  replace (Rpower 10 (MinSuction p)) with (pow10 (MinSuction p)) by (unfold Rpower, pow10; f_equal; ring). auto.
Qed.
Lemma path_positive p l cs ct o o' ds : path_run p l cs ct o o' ds -> List.Forall (fun s => 0 < vl s) l.
Proof. induction 1; constructor; auto. Qed.
Lemma start_pos (l : list step) (s : R) : 0 < s -> List.Forall (fun x => 0 < vl x) l -> 0 < fold_left (fun c x => if ist x then c else vl x) l s /\ 0 < fold_left (fun c x => if ist x then vl x else c) l s.
Proof.
  intros S F. revert S. cut (forall a b, 0 < a -> 0 < b -> 0 < fold_left (fun c x => if ist x then c else vl x) l a /\ 0 < fold_left (fun c x => if ist x then vl x else c) l b); [auto|].
  induction F as [|x l V F IH]; intros a b A B; cbn; auto. destruct (ist x); auto.
Qed.
Lemma starts p l1 l2 o r : Calresults p (l1 ++ l2) o = Ok r -> 0 < at_suction p l1 /\ 0 < at_stress p l1.
Proof.
  intros H. apply calresults_run in H as (oa & ob & S & R). apply path_positive, Forall_app in R as (R & _). unfold at_suction, at_stress.
  assert (0 < Rpower 10 (MinSuction p)) by apply exp_pos. split; apply start_pos; auto. apply Rdiv_lt_0_compat; lra.
Qed.
Lemma nth_error_map' {A B} (f : A -> B) l j b : nth_error (map f l) j = Some b -> exists a, nth_error l j = Some a /\ b = f a.
Proof. rewrite nth_error_map. destruct (nth_error l j); [|discriminate]. intros H. injection H as <-. eauto. Qed.
Section Monotone.
Variables (p : par) (l1 : list step) (s : step) (l2 : list step) (o o' : state) (ds : list DataResults) (d : DataResults) (i j : nat) (a b : datum).
Hypotheses (HP : proper p) (HG : 0 < Gs p) (HB : 0 <= beta p <= 1) (HC : Calresults p (l1 ++ s :: l2) o = Ok (o', ds)).
Hypotheses (Hd : nth_error ds (length l1) = Some d) (Hij : (i <= j)%nat) (Ha : nth_error d i = Some a) (Hb : nth_error d j = Some b).
(** Drying never adds water or voids. *)
Theorem C161_drying : ist s = false -> at_suction p l1 < vl s -> d_e b <= d_e a /\ d_w b <= d_w a.
Proof.
  intros I V. destruct (starts _ _ _ _ _ HC) as (A1 & A2). destruct (step_of _ _ _ _ _ _ _ HP HC) as (d' & o1 & o2 & E & F & V0 & R). rewrite E in Hd. injection Hd as ->.
  revert Hij Ha Hb. apply (chain (fun a b => d_e b <= d_e a /\ d_w b <= d_w a)); [intros; split; lra|intros ? ? ? [] []; split; lra|]. clear - I V R F HG HB A1 V0. intros j a b E1 E2.
  destruct (points_consecutive _ _ _ _ _ _ _ _ R F E1 E2) as (m & ss & st & m' & ss' & st' & oa & ob & oc & P1 & P2 & C1 & C2 & K & N & -> & ->). unfold step_points in P1, P2. rewrite I in P1, P2.
  apply nth_error_map' in P1 as (x & G1 & P1). apply nth_error_map' in P2 as (y & G2 & P2). destruct (Rlt_dec _ _) as [_|]; [|lra]. injection P1 as -> -> ->. injection P2 as -> -> ->.
  apply (drying_mono p y ob oc); auto; [eapply settled_after; eauto|]. apply call_state in C1 as (-> & _). destruct (geometric_step _ _ _ _ _ _ A1 V0 G1 G2) as (X & _). apply X. lra.
Qed.
(** Wetting never removes water. *)
Theorem C161_wetting : ist s = false -> vl s <= at_suction p l1 -> d_w a <= d_w b.
Proof.
  intros I V. destruct (starts _ _ _ _ _ HC) as (A1 & A2). destruct (step_of _ _ _ _ _ _ _ HP HC) as (d' & o1 & o2 & E & F & V0 & R). rewrite E in Hd. injection Hd as ->.
  revert Hij Ha Hb. apply (chain (fun a b => d_w a <= d_w b)); [intros; lra|intros; lra|]. clear - I V R F HG HB A1 V0. intros j a b E1 E2.
  destruct (points_consecutive _ _ _ _ _ _ _ _ R F E1 E2) as (m & ss & st & m' & ss' & st' & oa & ob & oc & P1 & P2 & C1 & C2 & K & N & -> & ->). unfold step_points in P1, P2. rewrite I in P1, P2.
  apply nth_error_map' in P1 as (x & G1 & P1). apply nth_error_map' in P2 as (y & G2 & P2). destruct (Rlt_dec _ _) as [|_]; [lra|]. injection P1 as -> -> ->. injection P2 as -> -> ->.
  apply (wetting_mono p y ob oc); auto; [eapply settled_after; eauto|eapply yielded_after_wet; eauto|]. apply call_state in C1 as (-> & _). destruct (geometric_step _ _ _ _ _ _ A1 V0 G1 G2) as (_ & X). apply X. lra.
Qed.
(** Unloading never removes water or voids. *)
Theorem C161_unloading : ist s = true -> vl s <= at_stress p l1 -> - (1 / 2) <= K0 p -> d_e a <= d_e b /\ d_w a <= d_w b.
Proof.
  intros I V K2. destruct (starts _ _ _ _ _ HC) as (A1 & A2). destruct (step_of _ _ _ _ _ _ _ HP HC) as (d' & o1 & o2 & E & F & V0 & R). rewrite E in Hd. injection Hd as ->.
  revert Hij Ha Hb. apply (chain (fun a b => d_e a <= d_e b /\ d_w a <= d_w b)); [intros; split; lra|intros ? ? ? [] []; split; lra|]. clear - I V R F HG HB A2 V0 K2. intros j a b E1 E2.
  destruct (points_consecutive _ _ _ _ _ _ _ _ R F E1 E2) as (m & ss & st & m' & ss' & st' & oa & ob & oc & P1 & P2 & C1 & C2 & K & N & -> & ->). unfold step_points in P1, P2. rewrite I in P1, P2.
  apply nth_error_map' in P1 as (x & G1 & P1). apply nth_error_map' in P2 as (y & G2 & P2). destruct (Rlt_dec _ _) as [|_]; [lra|]. injection P1 as -> -> ->. injection P2 as -> -> ->.
  apply (unloading_mono p (y * CVStress p) ob oc); auto; [eapply settled_after; eauto|]. apply call_state in C1 as (_ & ->). destruct (geometric_step _ _ _ _ _ _ A2 V0 G1 G2) as (_ & X).
  apply Rmult_le_compat_r; [unfold CVStress; lra|]. apply X. lra.
Qed.
End Monotone.

(** C163: the suctions and stresses that are reported. *)
Lemma path_split' p l1 s l2 cs ct o o' ds : path_run p (l1 ++ s :: l2) cs ct o o' ds ->
  exists ds1 d ds2 o1 o2, ds = ds1 ++ d :: ds2 /\ length ds1 = length l1 /\
    points_run p (step_points p s (fold_left (fun c s => if ist s then c else vl s) l1 cs) (fold_left (fun c s => if ist s then vl s else c) l1 ct)) o1 o2 d.
Proof.
  revert cs ct o ds. induction l1 as [|s0 l1 IH]; intros cs ct o ds H; inversion H; subst.
  - exists [], d, ds0, o, o1. cbn. auto 8.
  - match goal with HP : path_run p (l1 ++ s :: l2) _ _ _ _ _ |- _ => destruct (IH _ _ _ _ HP) as (ds1 & d' & ds2 & a1 & a2 & -> & A2 & A5) end. exists (d :: ds1), d', ds2, a1, a2. cbn. auto 8.
Qed.
Theorem C163_points p l1 s l2 o o' ds : Calresults p (l1 ++ s :: l2) o = Ok (o', ds) ->
  length ds = length (l1 ++ s :: l2) /\ exists d, nth_error ds (length l1) = Some d /\ length d = npp s /\
    map d_ss d = map reported (if ist s then repeat (at_suction p l1) (npp s) else geometric (at_suction p l1) (vl s) (npp s)) /\
    map d_st d = map reported (if ist s then geometric (at_stress p l1) (vl s) (npp s) else repeat (at_stress p l1) (npp s)).
Proof.
  intros H. apply calresults_run in H as (oa & ob & S & R). cbn [fst snd] in R. split; [apply path_length in R; auto|].
  assert (X : exists ds1 d ds2 o1 o2, ds = ds1 ++ d :: ds2 /\ length ds1 = length l1 /\ points_run p (step_points p s (at_suction p l1) (at_stress p l1)) o1 o2 d).
  { unfold at_suction, at_stress. replace (Rpower 10 (MinSuction p)) with (pow10 (MinSuction p)) by (unfold Rpower, pow10; f_equal; ring). apply path_split' in R. exact R. }
  destruct X as (ds1 & d & ds2 & o1 & o2 & -> & L & P). exists d. rewrite nth_error_app2 by lia. rewrite L, Nat.sub_diag. cbn. split; [reflexivity|].
  pose proof (points_length _ _ _ _ _ P) as PL. apply points_reported in P as (P1 & P2). rewrite PL, P1, P2. unfold step_points. destruct (ist s); rewrite !map_map, ?map_length, geometric_length; cbn [fst snd]; (split; [reflexivity|]).
  - split; auto. assert (G : length (geometric (at_stress p l1) (vl s) (npp s)) = npp s) by apply geometric_length. revert G. generalize (geometric (at_stress p l1) (vl s) (npp s)). intros g <-. clear. induction g; cbn; f_equal; auto.
  - split; auto. assert (G : length (geometric (at_suction p l1) (vl s) (npp s)) = npp s) by apply geometric_length. revert G. generalize (geometric (at_suction p l1) (vl s) (npp s)). intros g <-. clear. induction g; cbn; f_equal; auto.
Qed.
(** The progression starts at c, ends at v and has equal ratios. *)
Theorem C163_geometric c v n : 0 < c -> 0 < v -> (2 <= n)%nat ->
  length (geometric c v n) = n /\ nth_error (geometric c v n) 0 = Some c /\ nth_error (geometric c v n) (n - 1) = Some v /\
  (forall j x y, nth_error (geometric c v n) j = Some x -> nth_error (geometric c v n) (S j) = Some y -> y / x = Rpower (v / c) (1 / (INR n - 1))).
Proof.
  intros C V N. split; [apply geometric_length|]. split. { rewrite geometric_first by lia. f_equal. rewrite Rpower_O by (apply Rdiv_lt_0_compat; auto). ring. }
  split; [apply geometric_last; auto|]. intros j x y E1 E2. assert (L : (S j < n)%nat). { rewrite <- (geometric_length c v n). apply nth_error_Some. rewrite E2. discriminate. }
  rewrite geometric_nth in E1, E2 by lia. rewrite S_INR in E2. injection E1 as <-. injection E2 as <-.
  replace ((INR j + 1) / (INR n - 1)) with (INR j / (INR n - 1) + 1 / (INR n - 1)) by (unfold Rdiv; ring). rewrite Rpower_plus. field. split; [apply Rgt_not_eq, exp_pos|lra].
Qed.
