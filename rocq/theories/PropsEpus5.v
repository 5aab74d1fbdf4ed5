(** * EPUS: stress paths, the water content function, the pore-size distribution *)
From Coq Require Import Reals List ZArith Bool Lia Lra String.
From Coquelicot Require Import Coquelicot.
From Verif Require Import Base ConstitutiveModel ConstitutiveProofs LnBounds SwccModel EpusModel EpusSpec EpusProofs1 EpusProofs2 EpusProofs3 PropsEpus PropsEpus4.
Import ListNotations.
Local Open Scope R_scope.

(** ** C156: the dictionaries of a stress path *)
Theorem C156_steps ds l : StressPath ds = Ok l ->
  Forall2 (fun d s => d_vl d = Some (vl s) /\ d_name d = Some (name s) /\
                      (match d_ist d with Some b => ist s = b | None => ist s = true end) /\
                      (match d_npp d with Some n => npp s = n | None => npp s = 100%nat end)) ds l.
Proof.
  intros H. apply mapM_Ok_Forall2 in H. eapply Forall2_impl; [|exact H]. intros d s E. unfold make_step in E. destruct (d_vl d) as [v|]; [|discriminate]. cbn [bind] in E. destruct (d_name d) as [nm|]; [|discriminate]. cbn [bind] in E.
  injection E as <-. cbn [ist vl npp name]. destruct (d_ist d), (d_npp d); auto.
Qed.
Theorem C156_accepted ds : (forall d, In d ds -> d_vl d <> None /\ d_name d <> None) <-> exists l, StressPath ds = Ok l.
Proof.
  split.
  - intros H. apply mapM_exists. intros d I. destruct (H d I) as (V & N). unfold make_step. destruct (d_vl d); [|contradiction]. destruct (d_name d); [|contradiction]. cbn. eauto.
  - intros (l & E) d I. apply C156_steps in E. induction E as [|a s t u (E1 & E2 & _) E IH]; [destruct I|]. destruct I as [->|I]; [split; congruence|auto].
Qed.
(** The first dictionary without a value raises KeyError. *)
Theorem C156_missing ds d es : (forall d, In d ds -> d_vl d <> None /\ d_name d <> None) -> d_vl d = None -> StressPath (ds ++ d :: es)%list = Err KeyError.
Proof.
  unfold StressPath. induction ds as [|a ds IH]; intros H V; cbn [mapM app].
  - unfold make_step. rewrite V. reflexivity.
  - assert (exists s, make_step a = Ok s) as (s & ->). { destruct (H a) as (X & Y); [cbn; auto|]. unfold make_step. destruct (d_vl a); [|contradiction]. destruct (d_name a); [|contradiction]. cbn. eauto. }
    cbn [bind]. rewrite IH; auto. intros; apply H. cbn. auto.
Qed.
(** Known defect: the name is documented as optional; a step without one raises TypeError. *)
Theorem C156_unnamed_refuted ds d es : (forall d, In d ds -> d_vl d <> None /\ d_name d <> None) -> d_vl d <> None -> d_name d = None -> StressPath (ds ++ d :: es)%list = Err TypeError.
Proof.
  unfold StressPath. induction ds as [|a ds IH]; intros H V N; cbn [mapM app].
  - unfold make_step. destruct (d_vl d); [|contradiction]. rewrite N. reflexivity.
  - assert (exists s, make_step a = Ok s) as (s & ->). { destruct (H a) as (X & Y); [cbn; auto|]. unfold make_step. destruct (d_vl a); [|contradiction]. destruct (d_name a); [|contradiction]. cbn. eauto. }
    cbn [bind]. rewrite IH; auto. intros; apply H. cbn. auto.
Qed.
(** combine_datapoints: the points of all steps, in order; without steps the sum is the number 0. *)
Theorem C156_combine l : combine_datapoints l = match l with [] => None | _ => Some (List.concat l) end.
Proof.
  unfold combine_datapoints. assert (X : forall l a, sum_results (Some a) l = Some ((a ++ List.concat l)%list)). { induction l0 as [|d t IH]; intros a; cbn [sum_results List.concat]; [rewrite app_nil_r; auto|]. rewrite IH. unfold add_results. rewrite app_assoc. auto. }
  destruct l; [reflexivity|]. cbn [sum_results List.concat]. apply X.
Qed.

(** ** C157: the derivative of the water content function *)
Lemma dRpower x b : 0 < x -> is_derive (fun x => Rpower x b) x (b * Rpower x b / x).
Proof. intros H. unfold Rpower. auto_derive; [auto|]. field. lra. Qed.
(** Scale of the correction: psi = a^(1/b); C(s) = 1 - ln (1 + s/psi) / ln (1 + 10^6/psi). *)
Definition correction (c : SWCC) (s : R) : R := 1 - ln (1 + s / Rpower (sw_a c) (1 / sw_b c)) / ln (1 + 1000000 / Rpower (sw_a c) (1 / sw_b c)).
Lemma dWc c G s : 0 < sw_a c -> G <> 0 -> 0 < s ->
  let t1 := sw_wsat c - sw_sl c * ln s / (ln 10 * G) - sw_wr c in
  let t2 := - sw_a c * sw_b c * Rpower s (sw_b c) * (Rpower 10 (- 6 * sw_b c) * sw_a c + 1) / (s * (Rpower s (sw_b c) + sw_a c) ^ 2) in
  let t3 := (sw_a c - sw_a c * Rpower s (sw_b c) / Rpower 10 (6 * sw_b c)) / (Rpower s (sw_b c) + sw_a c) in
  sw_Wc c G s = t1 * t3 /\ is_derive (sw_Wc c G) s (t1 * t2 - t3 * (sw_sl c / (s * ln 10 * G))).
Proof.
  intros A HG HS. cbn zeta. assert (L := ln10_pos). assert (P : forall x, 0 < Rpower x (sw_b c)) by (intros; apply exp_pos). assert (Q : 0 < Rpower 10 (6 * sw_b c)) by apply exp_pos.
  assert (E6 : Rpower 10 (- 6 * sw_b c) = / Rpower 10 (6 * sw_b c)) by (replace (- 6 * sw_b c) with (- (6 * sw_b c)) by ring; apply Rpower_Ropp). rewrite E6.
  assert (P0 := P s). split; [unfold sw_Wc, log10; field; repeat split; lra|].
  unfold sw_Wc, log10. set (M := Rpower 10 (6 * sw_b c)) in *. clearbody M. unfold Rpower in *. set (b := sw_b c) in *. auto_derive.
  - repeat split; auto. specialize (P s). lra.
  - set (u := exp (b * ln s)) in *. clearbody u. field. repeat split; lra.
Qed.
Theorem C157_derivative c G s : 0 < sw_a c -> sw_b c <> 0 -> G <> 0 -> 0 < s ->
  derivable_pt_lim (fun x => (sw_Wc c G x + sw_wr c) * correction c x) s (sw_DWc c G s).
Proof.
  intros A B HG HS. apply is_derive_Reals. destruct (dWc c G s A HG HS) as (E & D). cbn zeta in E, D. assert (L := ln10_pos).
  set (psi := Rpower (sw_a c) (1 / sw_b c)). assert (PS : 0 < psi) by apply exp_pos. assert (IP : 0 < / psi) by (apply Rinv_0_lt_compat; auto).
  assert (X : 0 < ln (1 + 1000000 / psi)). { rewrite <- ln_1. apply ln_increasing; [lra|]. assert (0 < 1000000 / psi) by (apply Rdiv_lt_0_compat; lra). lra. }
  assert (DC : is_derive (correction c) s (- / (psi * (1 + s / psi) * ln (1 + 1000000 / psi)))).
  { unfold correction. fold psi. assert (0 < s * / psi) by (apply Rmult_lt_0_compat; auto). auto_derive; [lra|]. field. split; [lra|]. split; [|lra]. lra. }
  replace (sw_DWc c G s) with (((sw_wsat c - sw_sl c * ln s / (ln 10 * G) - sw_wr c) * (- sw_a c * sw_b c * Rpower s (sw_b c) * (Rpower 10 (- 6 * sw_b c) * sw_a c + 1) / (s * (Rpower s (sw_b c) + sw_a c) ^ 2)) - (sw_a c - sw_a c * Rpower s (sw_b c) / Rpower 10 (6 * sw_b c)) / (Rpower s (sw_b c) + sw_a c) * (sw_sl c / (s * ln 10 * G))) * correction c s + (sw_Wc c G s + sw_wr c) * (- / (psi * (1 + s / psi) * ln (1 + 1000000 / psi)))).
  - apply (is_derive_mult (fun x => sw_Wc c G x + sw_wr c) (correction c)); [|exact DC|intros; apply Rmult_comm].
    match goal with |- is_derive _ _ ?d => replace d with (plus d zero) by apply plus_zero_r end. apply (is_derive_plus (sw_Wc c G) (fun _ => sw_wr c)); [exact D|apply @is_derive_const].
  - rewrite E. unfold sw_DWc, correction, million. fold psi. cbn zeta. unfold Rdiv. ring.
Qed.
(** Known defect: DWc is documented as the derivative of Wc; it is not: in every soil with wr = 0, at a suction of 10^6 DWc gives 0 where Wc falls. *)
Theorem C157_derivative_refuted c G : 0 < sw_a c -> sw_b c <> 0 -> G <> 0 -> sw_wr c = 0 -> sw_wsat c - 6 * sw_sl c / G <> 0 ->
  sw_DWc c G 1000000 = 0 /\ exists d, derivable_pt_lim (sw_Wc c G) 1000000 d /\ d <> 0.
Proof.
  intros A B HG W T. assert (L := ln10_pos). assert (L6 : ln 1000000 = 6 * ln 10). { replace 1000000 with (10 ^ 6) by ring. rewrite ln_pow by lra. cbn [INR]. ring. }
  assert (P6 : Rpower 1000000 (sw_b c) = Rpower 10 (6 * sw_b c)) by (unfold Rpower; rewrite L6; f_equal; ring). assert (Q : 0 < Rpower 10 (6 * sw_b c)) by apply exp_pos. assert (Q' : 0 < Rpower 10 (- 6 * sw_b c)) by apply exp_pos.
  assert (T3 : (sw_a c - sw_a c * Rpower 1000000 (sw_b c) / Rpower 10 (6 * sw_b c)) / (Rpower 1000000 (sw_b c) + sw_a c) = 0) by (rewrite P6; field; lra).
  split.
  - unfold sw_DWc, million. cbn zeta. rewrite T3, W. set (psi := Rpower (sw_a c) (1 / sw_b c)). assert (PS : 0 < psi) by apply exp_pos.
    assert (X : 0 < ln (1 + 1000000 / psi)). { rewrite <- ln_1. apply ln_increasing; [lra|]. assert (0 < 1000000 / psi) by (apply Rdiv_lt_0_compat; lra). lra. }
    replace (ln (1 + 1000000 / psi) / ln (1 + 1000000 / psi)) with 1 by (field; lra). unfold Rdiv at 1. replace (1 - 1) with 0 by ring. rewrite Rmult_0_r. unfold Rdiv. ring.
  - assert (S : 0 < 1000000) by lra. destruct (dWc c G 1000000 A HG S) as (_ & D). cbn zeta in D. rewrite T3 in D. eexists. split; [apply is_derive_Reals; exact D|].
    rewrite Rmult_0_l, Rminus_0_r. apply Rmult_integral_contrapositive_currified.
    + rewrite L6, W. intros E. apply T. rewrite <- E. field. split; lra.
    + rewrite P6. unfold Rdiv. apply Rmult_integral_contrapositive_currified; [|apply Rinv_neq_0_compat; apply Rmult_integral_contrapositive_currified; [lra|apply pow_nonzero; lra]].
      assert (0 < Rpower 10 (- 6 * sw_b c) * sw_a c) by (apply Rmult_lt_0_compat; auto). repeat apply Rmult_integral_contrapositive_currified; lra.
Qed.

(** ** C158: the groups of pores *)
(** Suction in log10 above which the tail of the wetting curve is a straight line. *)
Definition tail (p : par) : R := log10 (27 / 10 * sw_a (swcc p)) / sw_b (swcc p).
(** The horizontal distance of the two curves there. *)
Definition gap (p : par) : R := logDS p - (logRS p - 1) * (log10 (27 / 10) / sw_b (swcc p)).
(** The density of the drying curve: - d/ds of a (1 - (s/10^6)^b) / (s^b + a). *)
Definition density (p : par) (s : R) : R :=
  let a := sw_a (swcc p) in let b := sw_b (swcc p) in a * b * Rpower s b * (1 + a * Rpower 10 (- 6 * b)) / (s * (Rpower s b + a) ^ 2).
Definition width (p : par) : R := (MaxSuction p - MinSuction p) / INR (Npoint p).
Lemma log10_Rpower x y : log10 (Rpower x y) = y * log10 x.
Proof. unfold log10, Rpower. rewrite ln_exp. unfold Rdiv. ring. Qed.
Lemma log10_mult x y : 0 < x -> 0 < y -> log10 (x * y) = log10 x + log10 y.
Proof. intros. unfold log10. rewrite ln_mult by auto. unfold Rdiv. ring. Qed.
Lemma ok_inj1 {A} (a b : A) : Ok a = Ok b -> a = b.
Proof. congruence. Qed.
Theorem C158_group p i q : 0 < sw_a (swcc p) -> 0 < sw_b (swcc p) -> slurry_pore p i = Ok q ->
  let x := MinSuction p + INR i * width p in let s := Rpower 10 x in
  AEV q = x /\
  Ccp q = Ccs p * density p s * (Rpower 10 (x + width p) - s) /\
  Csp q = Css p * density p s * (Rpower 10 (x + width p) - s) /\
  Ccd q * Ccs p = CcdAll p * Ccp q /\
  RV q = INR i * width p * Ccp q + (- Gs p * sw_DWc (swcc p) (Gs p) s * s * ln 10 - Ccs p * (sw_a (swcc p) * (1 - Rpower (s / 1000000) (sw_b (swcc p))) / (Rpower s (sw_b (swcc p)) + sw_a (swcc p)))) * width p /\
  WEV q = (if Rlt_dec (tail p) x then x - gap p * ((6 - x) / (6 - tail p))
           else x - logDS p + (logRS p - 1) * (x - log10 (sw_a (swcc p)) / sw_b (swcc p))).
Proof.
  intros A B H x s. unfold slurry_pore in H. destruct (dry_pore_size p i) as [q0|] eqn:H0; [|discriminate]. cbn [bind] in H. injection H as <-. cbn [AEV WEV Ccp Csp Ccd RV].
  unfold dry_pore_size in H0. cbn zeta in H0. 
  assert (E10 : forall z, pow10 z = Rpower 10 z) by (intros; unfold Rpower, pow10; f_equal; ring). rewrite !E10 in H0.
  fold (width p) in H0. assert (EX : INR i * width p + MinSuction p = x) by (unfold x; ring). rewrite !EX in H0. fold s in H0.
  unfold fdiv at 1 in H0. rewrite Reqb_false in H0 by lra. cbn [bind] in H0. unfold fdiv at 1 in H0. destruct (Reqb (Ccs p) 0) eqn:C0; [discriminate|]. apply Base.Reqb_false in C0. cbn [bind] in H0.
  unfold fdiv at 1 in H0. destruct (Reqb (logRS p) 0) eqn:R0; [discriminate|]. assert (R1 : logRS p <> 0) by (apply Base.Reqb_false; auto). cbn [bind] in H0. unfold fdiv at 1 in H0. rewrite R0 in H0. cbn [bind] in H0.
  assert (BR : sw_b (swcc p) / logRS p <> 0) by (apply Rmult_integral_contrapositive_currified; [lra|apply Rinv_neq_0_compat; auto]).
  rewrite (fdiv_nz 1 _ BR) in H0. cbn [bind] in H0.
  assert (P0 : 0 < s) by apply exp_pos. assert (P1 : 0 < Rpower s (sw_b (swcc p))) by apply exp_pos. assert (P2 : 0 < Rpower 10 (6 * sw_b (swcc p))) by apply exp_pos.
  assert (L6 : ln 1000000 = 6 * ln 10). { replace 1000000 with (10 ^ 6) by ring. rewrite ln_pow by lra. cbn [INR]. ring. }
  assert (PQ : Rpower (s / 1000000) (sw_b (swcc p)) = Rpower s (sw_b (swcc p)) / Rpower 10 (6 * sw_b (swcc p))).
  { unfold Rpower. rewrite ln_div by lra. rewrite L6. unfold Rdiv. rewrite <- exp_Ropp, <- exp_plus. f_equal. ring. }
  match type of H0 with bind ?m _ = _ => destruct m as [w|] eqn:W; [|discriminate] end. cbn [bind] in H0. apply ok_inj1 in H0. subst q0. cbn [AEV WEV Ccp Csp Ccd RV].
  assert (D1 : - (- sw_a (swcc p) * sw_b (swcc p) * Rpower s (sw_b (swcc p)) * (sw_a (swcc p) * Rpower 10 (- 6 * sw_b (swcc p)) + 1) / (s * (Rpower s (sw_b (swcc p)) + sw_a (swcc p)) ^ 2)) = density p s) by (unfold density; unfold Rdiv; ring).
  rewrite !D1. repeat (match goal with |- _ /\ _ => split end).
  - reflexivity.
  - ring.
  - ring.
  - field. auto.
  - rewrite PQ. unfold x, Rdiv. ring.
  - assert (TT : log10 (Rpower (27 / 10 * sw_a (swcc p)) (1 / sw_b (swcc p))) = tail p) by (rewrite log10_Rpower; unfold tail, Rdiv; ring). rewrite TT in W.
    assert (LB : log10 (Rpower (sw_a (swcc p) / Rpower (Rpower 10 (logDS p)) (sw_b (swcc p))) (1 / logRS p)) = (log10 (sw_a (swcc p)) - logDS p * sw_b (swcc p)) / logRS p).
    { rewrite log10_Rpower. unfold log10 at 1. rewrite ln_div by (auto; apply exp_pos). unfold Rpower. rewrite !ln_exp. unfold log10. assert (L := ln10_pos). field. split; lra. }
    unfold Rltb in W. destruct (Rlt_dec (tail p) x).
    + match type of W with bind ?m _ = _ => destruct m as [t|] eqn:T; [|discriminate] end. cbn [bind] in W. injection W as <-. apply fdiv_ok in T as (T0 & ->).
      rewrite log10_Rpower, log10_mult, LB by (try apply exp_pos; lra).
      match goal with |- x - (tail p - ?g) * _ / _ = _ => assert (EG : tail p - g = gap p) end.
      { unfold tail, gap. rewrite log10_mult by lra. field. split; lra. }
      rewrite EG. unfold Rdiv. ring.
    + injection W as <-. rewrite LB. field. split; auto; lra.
Qed.
(** Compression indexes: none negative, unloading never above compression, nothing lost. *)
Theorem C158_indexes p i q : 0 < sw_a (swcc p) -> 0 < sw_b (swcc p) -> 0 <= Css p <= Ccs p -> MinSuction p <= MaxSuction p -> slurry_pore p i = Ok q -> 0 <= Csp q <= Ccp q.
Proof.
  intros A B C M H. destruct (C158_group _ _ _ A B H) as (_ & E1 & E2 & _). rewrite E1, E2.
  set (x := MinSuction p + INR i * width p) in *. assert (W : 0 <= width p). { unfold width, Rdiv. apply Rmult_le_pos; [lra|]. destruct (Npoint p); [cbn; rewrite Rinv_0; lra|]. left. apply Rinv_0_lt_compat. apply lt_0_INR. lia. }
  assert (D : 0 <= density p (Rpower 10 x)). { unfold density. cbn zeta. assert (P : forall a b, 0 < Rpower a b) by (intros; apply exp_pos). assert (P1 := P 10 x). assert (P2 := P (Rpower 10 x) (sw_b (swcc p))). assert (P3 := P 10 (- 6 * sw_b (swcc p))).
    assert (0 < sw_a (swcc p) * Rpower 10 (- 6 * sw_b (swcc p))) by (apply Rmult_lt_0_compat; auto). left. apply Rdiv_lt_0_compat; repeat apply Rmult_lt_0_compat; auto; lra. }
  assert (G : 0 <= Rpower 10 (x + width p) - Rpower 10 x). { assert (Rpower 10 x <= Rpower 10 (x + width p)); [|lra]. apply Rle_Rpower; lra. }
  assert (DG : 0 <= density p (Rpower 10 x) * (Rpower 10 (x + width p) - Rpower 10 x)) by (apply Rmult_le_pos; auto). rewrite !Rmult_assoc. split; [apply Rmult_le_pos; lra|apply Rmult_le_compat_r; lra].
Qed.
(** The air-entry values are evenly spaced on the logarithmic scale, from MinSuction up to one width below MaxSuction. *)
Theorem C158_spacing p o o' : 0 < sw_a (swcc p) -> 0 < sw_b (swcc p) -> SlurryPoreSize p o = Ok o' ->
  map AEV (pores o') = map (fun i => MinSuction p + INR i * width p) (seq 0 (Npoint p)) /\ ((0 < Npoint p)%nat -> MinSuction p + INR (Npoint p) * width p = MaxSuction p) /\
  List.Forall (fun q => Filled q = true /\ Airentrapped q = false /\ RVC q = RV q) (pores o').
Proof.
  intros A B H. unfold SlurryPoreSize in H. destruct (mapM _ _) as [f|] eqn:E; [|discriminate]. cbn [bind] in H. injection H as <-. cbn [pores]. apply mapM_Ok_Forall2 in E. split; [|split].
  - clear - E A B. induction E as [|i q l f E E' IH]; cbn [map]; [auto|]. destruct (C158_group _ _ _ A B E) as (-> & _). f_equal. auto.
  - intros N. unfold width. field. apply lt_INR in N. cbn in N. lra.
  - clear - E. induction E as [|i q l f E E' IH]; constructor; auto. unfold slurry_pore in E. destruct (dry_pore_size p i); [|discriminate]. cbn [bind] in E. injection E as <-. auto.
Qed.
(** Without a shift (logDS = 0) and with equal slopes (logRS = 1) there is no hysteresis. *)
Theorem C158_no_hysteresis p i q : 0 < sw_a (swcc p) -> 0 < sw_b (swcc p) -> logDS p = 0 -> logRS p = 1 -> slurry_pore p i = Ok q -> WEV q = AEV q.
Proof. intros A B D S H. destruct (C158_group _ _ _ A B H) as (-> & _ & _ & _ & _ & ->). unfold gap. rewrite D, S. destruct (Rlt_dec _ _); ring. Qed.
(** Wetting at or below drying. *)
Theorem C158_hysteresis p i q : 0 < sw_a (swcc p) -> 0 < sw_b (swcc p) -> 1 <= logRS p -> 0 <= gap p -> tail p < 6 -> slurry_pore p i = Ok q -> AEV q <= 6 -> WEV q <= AEV q.
Proof.
  intros A B S G T H. destruct (C158_group _ _ _ A B H) as (-> & _ & _ & _ & _ & ->). set (x := _ + _). intros X. destruct (Rlt_dec _ _) as [L|L].
  - assert (0 <= (6 - x) / (6 - tail p)) by (apply Rmult_le_pos; [lra|left; apply Rinv_0_lt_compat; lra]). assert (0 <= gap p * ((6 - x) / (6 - tail p))) by (apply Rmult_le_pos; auto). lra.
  - assert (E : tail p = log10 (27 / 10) / sw_b (swcc p) + log10 (sw_a (swcc p)) / sw_b (swcc p)) by (unfold tail; rewrite log10_mult by lra; field; lra). unfold gap in G.
    assert ((logRS p - 1) * (x - log10 (sw_a (swcc p)) / sw_b (swcc p)) <= (logRS p - 1) * (log10 (27 / 10) / sw_b (swcc p))) by (apply Rmult_le_compat_l; lra). lra.
Qed.
(** The two pieces of the wetting curve meet. *)
Lemma wetting_continuous p : 0 < sw_a (swcc p) -> 0 < sw_b (swcc p) -> tail p <> 6 ->
  tail p - gap p * ((6 - tail p) / (6 - tail p)) = tail p - logDS p + (logRS p - 1) * (tail p - log10 (sw_a (swcc p)) / sw_b (swcc p)).
Proof. intros A B T. replace ((6 - tail p) / (6 - tail p)) with 1 by (field; lra). unfold gap. assert (E : tail p = log10 (27 / 10) / sw_b (swcc p) + log10 (sw_a (swcc p)) / sw_b (swcc p)) by (unfold tail; rewrite log10_mult by lra; field; lra). rewrite E. field. lra. Qed.
