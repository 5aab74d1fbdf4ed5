(** * EPUS: monotonicity, and the place of a step in a path *)
From Coq Require Import Reals List ZArith Bool Lia Lra.
From Coquelicot Require Import Rcomplements.
From Verif Require Import Base ConstitutiveModel ConstitutiveProofs SwccModel EpusModel EpusSpec EpusProofs1 EpusProofs2.
Import ListNotations.
Local Open Scope R_scope.

(** After any method the filled groups have the volume of their yield stress and the stress they are under. *)
Definition settled (p : par) (o : state) : Prop :=
  List.Forall (fun q => Filled q = true -> RVC q = vol p q (YieldSt q) (Stress o + Suction o) /\ 0 < Stress o + Suction o /\ 0 < YieldSt q) (pores o).
Definition yielded (o : state) : Prop := List.Forall (fun q => Filled q = true -> Stress o + Suction o <= YieldSt q) (pores o).
Lemma Forall2_right {A B} (P : A -> B -> Prop) (Q : B -> Prop) l r : (forall a b, P a b -> Q b) -> Forall2 P l r -> List.Forall Q r.
Proof. intros H. induction 1; constructor; eauto. Qed.
Lemma settled_after p m o o' : call p m o = Ok o' -> settled p o'.
Proof.
  unfold settled. destruct m; cbn [call]; unfold Drying, Wetting, Loading, Unloading; intros H; unbind H; injection H as <-; cbn [pores Stress Suction].
  - apply mapM_Ok_Forall2 in Q0. eapply Forall2_right; [|exact Q0]. intros q1 q2 E F. apply dry_stepped in E as (_ & E & _). destruct (E F) as (_ & _ & E1 & E2 & E3). repeat split; auto; lra.
  - apply mapM_Ok_Forall2 in Q0. eapply Forall2_right; [|exact Q0]. intros q1 q2 E F. apply wet_stepped in E as (_ & _ & _ & E & _). destruct (E F) as (E1 & E2 & E3). repeat split; auto; lra.
  - apply mapM_Ok_Forall2 in Q. eapply Forall2_right; [|exact Q]. intros q1 q2 E F. apply load_stepped in E as (_ & _ & _ & E & _). rewrite (Rplus_comm st). apply E. auto.
  - apply mapM_Ok_Forall2 in Q. eapply Forall2_right; [|exact Q]. intros q1 q2 E F. apply unload_stepped in E as (_ & _ & _ & _ & _ & E). rewrite (Rplus_comm st). apply E. auto.
Qed.
Lemma yielded_after_wet p x o o' : call p (Wet x) o = Ok o' -> yielded o'.
Proof.
  unfold yielded. cbn [call]; unfold Wetting; intros H; unbind H; injection H as <-; cbn [pores Stress Suction].
  apply mapM_Ok_Forall2 in Q0. eapply Forall2_right; [|exact Q0]. intros q1 q2 E F. apply wet_stepped in E as (_ & _ & _ & E & _). apply E. auto.
Qed.
Lemma call_state p m o o' : call p m o = Ok o' ->
  match m with Dry x | Wet x => Suction o' = x /\ Stress o' = Stress o | Load x | Unload x => Suction o' = Suction o /\ Stress o' = x end.
Proof. destruct m; cbn [call]; unfold Drying, Wetting, Loading, Unloading; intros H; unbind H; injection H as <-; auto. Qed.

(** Sums over groups compared one by one. *)
Definition share (p : par) (q : pore) : R := if Filled q then if Airentrapped q then RVC q / Gs p * (1 - beta p) else RVC q / Gs p else 0.
Lemma void_le l r : Forall2 (fun q q' => RVC q <= RVC q') l r -> void_ratio l <= void_ratio r.
Proof. induction 1; [lra|]. rewrite !void_cons. lra. Qed.
Lemma water_le p l r : Forall2 (fun q q' => share p q <= share p q') l r -> water_content p l <= water_content p r.
Proof. induction 1; [lra|]. rewrite !water_cons. unfold share in H. lra. Qed.
Lemma Forall2_flip {A B} (P : A -> B -> Prop) l r : Forall2 P l r -> Forall2 (fun b a => P a b) r l.
Proof. induction 1; constructor; auto. Qed.
Lemma share_le p q q' : 0 < Gs p -> 0 <= beta p <= 1 -> Filled q' = true -> Airentrapped q' = Airentrapped q -> RVC q <= RVC q' -> Filled q = true \/ 0 <= RVC q' -> share p q <= share p q'.
Proof.
  intros G B F A V D. unfold share. rewrite F, A. assert (IG : 0 < / Gs p) by (apply Rinv_0_lt_compat; auto).
  assert (X : RVC q / Gs p <= RVC q' / Gs p) by (apply Rmult_le_compat_r; lra).
  destruct (Filled q); [destruct (Airentrapped q); auto; apply Rmult_le_compat_r; lra|].
  destruct D as [D|D]; [discriminate|]. assert (0 <= RVC q' / Gs p) by (apply Rmult_le_pos; lra). destruct (Airentrapped q); auto. apply Rmult_le_pos; lra.
Qed.
Lemma share_nonneg p q : 0 < Gs p -> 0 <= beta p <= 1 -> 0 <= RVC q -> 0 <= share p q.
Proof.
  intros G B V. unfold share. assert (IG : 0 < / Gs p) by (apply Rinv_0_lt_compat; auto). assert (0 <= RVC q / Gs p) by (apply Rmult_le_pos; lra).
  destruct (Filled q); [|lra]. destruct (Airentrapped q); auto. apply Rmult_le_pos; lra.
Qed.
Lemma Forall2_with {A B} (P : A -> B -> Prop) (Q : A -> Prop) (S : A -> B -> Prop) l r : (forall a b, P a b -> Q a -> S a b) -> Forall2 P l r -> List.Forall Q l -> Forall2 S l r.
Proof. intros H. induction 1; intros F; constructor; inversion F; subst; eauto. Qed.
Lemma Forall_and' {A} (P Q : A -> Prop) l : List.Forall P l -> List.Forall Q l -> List.Forall (fun x => P x /\ Q x) l.
Proof. induction 1; intros F; constructor; inversion F; subst; auto. Qed.

Lemma drying_mono p x o o' : 0 < Gs p -> 0 <= beta p <= 1 -> call p (Dry x) o = Ok o' -> settled p o -> List.Forall stiff (pores o) -> List.Forall nonneg (pores o) -> Suction o <= x ->
  void_ratio (pores o') <= void_ratio (pores o) /\ water_content p (pores o') <= water_content p (pores o).
Proof.
  intros G B H S K N X. cbn [call] in H. unfold Drying in H. unbind H. injection H as <-. cbn [pores]. apply mapM_Ok_Forall2 in Q0.
  assert (V : Forall2 (fun q q' => RVC q' <= RVC q /\ share p q' <= share p q) (pores o) a0).
  { eapply Forall2_with; [|exact Q0|exact (Forall_and' _ _ _ S (Forall_and' _ _ _ K N))]. cbn beta. intros q q' E (Hs & Hk & Hn). apply dry_stepped in E as (E1 & E2 & E3 & E4).
    destruct (Filled q) eqn:F.
    - destruct (E4 eq_refl) as (E5 & E6 & E7). destruct (Hs eq_refl) as (E8 & E9 & E10). destruct E1 as (E1 & Y & _).
      assert (V : RVC q' <= RVC q). { rewrite E5, E8, (vol_same p q q' _ _ E1). apply vol_mono; auto; lra. }
      split; auto. destruct (Filled q') eqn:F'; [|unfold share at 1; rewrite F'; apply share_nonneg; auto].
      destruct (E2 eq_refl) as (_ & EA & _). apply share_le; auto.
    - rewrite (E3 eq_refl). lra. }
  split; [apply void_le|apply water_le]; (eapply Forall2_impl; [|apply Forall2_flip; exact V]); cbn; tauto.
Qed.
Lemma wetting_mono p x o o' : 0 < Gs p -> 0 <= beta p <= 1 -> call p (Wet x) o = Ok o' -> settled p o -> yielded o -> List.Forall stiff (pores o) -> List.Forall nonneg (pores o) -> x <= Suction o ->
  water_content p (pores o) <= water_content p (pores o').
Proof.
  intros G B H S Y K N X. assert (N' := method_nonneg _ _ _ _ H (nonneg_dry_ok _ N)). cbn [call] in H. unfold Wetting in H. unbind H. injection H as <-. cbn [pores] in *. apply mapM_Ok_Forall2 in Q0.
  apply water_le. eapply Forall2_with; [|exact Q0|exact (Forall_and' _ _ _ S (Forall_and' _ _ _ Y (Forall_and' _ _ _ K N)))]. cbn beta. intros q q' E (Hs & Hy & Hk & Hn).
  apply wet_stepped in E as ((E1 & _ & Ev & _) & E2 & E3 & E4 & E5). destruct (Filled q) eqn:F.
  - assert (F' : Filled q' = true) by auto. apply share_le; auto. destruct (Hs eq_refl) as (V & P0 & Yp). destruct (E4 F') as (Q1 & Q2 & Q3). rewrite V, Q2, (vol_same p q q' _ _ E1). rewrite (E5 eq_refl) in *.
    specialize (Hy eq_refl). rewrite Rmax_left by lra. apply vol_mono; auto; lra.
  - unfold share at 1. rewrite F. apply share_nonneg; auto.
Qed.
Lemma unloading_mono p x o o' : 0 < Gs p -> 0 <= beta p <= 1 -> call p (Unload x) o = Ok o' -> settled p o -> List.Forall stiff (pores o) -> List.Forall nonneg (pores o) -> x <= Stress o ->
  void_ratio (pores o) <= void_ratio (pores o') /\ water_content p (pores o) <= water_content p (pores o').
Proof.
  intros G B H S K N X. cbn [call] in H. unfold Unloading in H. unbind H. injection H as <-. cbn [pores]. apply mapM_Ok_Forall2 in Q.
  assert (V : Forall2 (fun q q' => RVC q <= RVC q' /\ share p q <= share p q') (pores o) a).
  { eapply Forall2_with; [|exact Q|exact (Forall_and' _ _ _ S (Forall_and' _ _ _ K N))]. cbn beta. intros q q' E (Hs & Hk & Hn). apply unload_stepped in E as ((E1 & _) & E2 & E3 & E4 & E5 & E6).
    destruct (Filled q) eqn:F.
    - destruct (E6 E2) as (E7 & E8 & E9). destruct (Hs eq_refl) as (E10 & E11 & E12).
      assert (V : RVC q <= RVC q'). { rewrite E10, E7, (vol_same p q q' _ _ E1), E4. apply vol_mono; auto; lra. }
      split; auto. apply share_le; auto.
    - rewrite (E5 eq_refl). lra. }
  split; [apply void_le|apply water_le]; (eapply Forall2_impl; [|exact V]); cbn; tauto.
Qed.

(** ** Consecutive points *)
Definition fit (o : state) : Prop := List.Forall stiff (pores o) /\ List.Forall dry_ok (pores o).
Lemma fit_call p m o o' : call p m o = Ok o' -> fit o -> fit o' /\ List.Forall nonneg (pores o').
Proof. intros H (A & B). assert (N := method_nonneg _ _ _ _ H B). split; auto. split; [eapply method_stiff; eauto|apply nonneg_dry_ok; auto]. Qed.
Lemma fit_points p pts o o' d : points_run p pts o o' d -> fit o -> fit o'.
Proof. induction 1; auto. intros F. apply IHpoints_run. eapply fit_call; eauto. Qed.
Lemma fit_path p l cs ct o o' ds : path_run p l cs ct o o' ds -> fit o -> fit o'.
Proof. induction 1; auto. intros F. apply IHpath_run. eapply fit_points; eauto. Qed.
Lemma points_nth p pts o o' d j a : points_run p pts o o' d -> fit o -> nth_error d j = Some a ->
  exists m ss st oa ob, nth_error pts j = Some (m, ss, st) /\ fit oa /\ call p m oa = Ok ob /\ a = finish p ss st (void_ratio (pores ob)) (water_content p (pores ob)).
Proof.
  intros H. revert j. induction H as [|m ss st l o o1 o2 d C P IH]; intros j F E; [destruct j; discriminate|].
  destruct j as [|j]; cbn in E.
  - injection E as <-. exists m, ss, st, o, o1. cbn. auto.
  - destruct (IH j) as (m' & ss' & st' & oa & ob & A1 & A2 & A3 & A4); auto. { eapply fit_call; eauto. } exists m', ss', st', oa, ob. cbn. auto.
Qed.
Lemma points_consecutive p pts o o' d j a b : points_run p pts o o' d -> fit o -> nth_error d j = Some a -> nth_error d (S j) = Some b ->
  exists m ss st m' ss' st' oa ob oc, nth_error pts j = Some (m, ss, st) /\ nth_error pts (S j) = Some (m', ss', st') /\
    call p m oa = Ok ob /\ call p m' ob = Ok oc /\ List.Forall stiff (pores ob) /\ List.Forall nonneg (pores ob) /\
    a = finish p ss st (void_ratio (pores ob)) (water_content p (pores ob)) /\ b = finish p ss' st' (void_ratio (pores oc)) (water_content p (pores oc)).
Proof.
  intros H. revert j. induction H as [|m ss st l o o1 o2 d C P IH]; intros j F E E'; [destruct j; discriminate|].
  destruct (fit_call _ _ _ _ C F) as ((F1 & F2) & F3). destruct j as [|j]; cbn in E, E'.
  - injection E as <-. inversion P; subst; [discriminate|]. cbn in E'. injection E' as <-. exists m, ss, st, m0, ss0, st0, o, o1, o3. cbn. auto 10.
  - destruct (IH j) as (m' & ss' & st' & m'' & ss'' & st'' & oa & ob & oc & X); auto. { split; auto. } exists m', ss', st', m'', ss'', st'', oa, ob, oc. cbn. exact X.
Qed.
Lemma points_length p pts o o' d : points_run p pts o o' d -> length d = length pts.
Proof. induction 1; cbn; auto. Qed.
Lemma points_reported p pts o o' d : points_run p pts o o' d -> map d_ss d = map (fun x => reported (snd (fst x))) pts /\ map d_st d = map (fun x => reported (snd x)) pts.
Proof.
  induction 1 as [|m ss st l o o1 o2 d C P (I1 & I2)]; [split; reflexivity|]. cbn [map fst snd]. rewrite I1, I2. unfold finish at 1 2. cbn [d_ss d_st].
  assert (R : forall x, capped x = reported x) by (intros x; unfold capped, reported, Rleb; destruct (Rle_dec _ _); auto). rewrite !R. auto.
Qed.
(** ** Splitting a path *)
Lemma path_split p l1 s l2 cs ct o o' ds : path_run p (l1 ++ s :: l2) cs ct o o' ds -> fit o ->
  exists ds1 d ds2 o1 o2, ds = ds1 ++ d :: ds2 /\ length ds1 = length l1 /\ fit o1 /\ 0 < vl s /\
    points_run p (step_points p s (fold_left (fun c s => if ist s then c else vl s) l1 cs) (fold_left (fun c s => if ist s then vl s else c) l1 ct)) o1 o2 d.
Proof.
  revert cs ct o ds. induction l1 as [|s0 l1 IH]; intros cs ct o ds H F; inversion H; subst.
  - exists [], d, ds0, o, o1. cbn. auto 8.
  - assert (F1 : fit o1) by (eapply fit_points; eauto). match goal with HP : path_run p (l1 ++ s :: l2) _ _ _ _ _ |- _ => destruct (IH _ _ _ _ HP F1) as (ds1 & d' & ds2 & a1 & a2 & -> & A2 & A3 & A4 & A5) end. exists (d :: ds1), d', ds2, a1, a2. cbn. auto 8.
Qed.
Lemma path_length p l cs ct o o' ds : path_run p l cs ct o o' ds -> length ds = length l.
Proof. induction 1; cbn; auto. Qed.
(** ** The geometric progression *)
Lemma geometric_nth c v n j : (j < n)%nat -> nth_error (geometric c v n) j = Some (c * Rpower (v / c) (INR j / (INR n - 1))).
Proof. intros H. unfold geometric. rewrite nth_error_map. rewrite (nth_error_nth' _ 0%nat) by (rewrite seq_length; auto). rewrite seq_nth by auto. reflexivity. Qed.
Lemma geometric_length c v n : length (geometric c v n) = n. Proof. unfold geometric. rewrite map_length, seq_length. reflexivity. Qed.
Lemma geometric_pos c v n x : 0 < c -> In x (geometric c v n) -> 0 < x.
Proof. unfold geometric. rewrite in_map_iff. intros C (j & <- & _). apply Rmult_lt_0_compat; auto. apply exp_pos. Qed.
Lemma Rpower_mono x a b : 1 <= x -> a <= b -> Rpower x a <= Rpower x b.
Proof. intros X H. unfold Rpower. assert (0 <= ln x) by (destruct X as [X| <-]; [left; rewrite <- ln_1; apply ln_increasing; lra|rewrite ln_1; lra]). destruct (Req_dec (a * ln x) (b * ln x)) as [->|N]; [lra|]. left. apply exp_increasing. assert (a * ln x <= b * ln x) by (apply Rmult_le_compat_r; auto). lra. Qed.
Lemma Rpower_anti x a b : 0 < x <= 1 -> a <= b -> Rpower x b <= Rpower x a.
Proof. intros X H. unfold Rpower. assert (ln x <= 0) by (destruct X as [X0 [X| ->]]; [left; rewrite <- ln_1; apply ln_increasing; lra|rewrite ln_1; lra]). destruct (Req_dec (a * ln x) (b * ln x)) as [->|N]; [lra|]. left. apply exp_increasing. assert (b * ln x <= a * ln x) by nra. lra. Qed.
Lemma geometric_step c v n j x y : 0 < c -> 0 < v -> nth_error (geometric c v n) j = Some x -> nth_error (geometric c v n) (S j) = Some y -> (c <= v -> x <= y) /\ (v <= c -> y <= x).
Proof.
  intros C V E1 E2. assert (L : (S j < n)%nat). { rewrite <- (geometric_length c v n). apply nth_error_Some. rewrite E2. discriminate. }
  rewrite geometric_nth in E1, E2 by lia. injection E1 as <-. injection E2 as <-. assert (N : 0 < INR n - 1). { assert (2 <= n)%nat by lia. apply le_INR in H. cbn in H. lra. }
  assert (J : INR j / (INR n - 1) <= INR (S j) / (INR n - 1)). { apply Rmult_le_compat_r; [left; apply Rinv_0_lt_compat; auto|]. rewrite S_INR. lra. }
  split; intros H; apply Rmult_le_compat_l; try lra.
  - apply Rpower_mono; auto. apply Rmult_le_reg_r with c; auto. unfold Rdiv. rewrite Rmult_assoc, Rinv_l by lra. lra.
  - apply Rpower_anti; auto. split; [apply Rdiv_lt_0_compat; auto|]. apply Rmult_le_reg_r with c; auto. unfold Rdiv. rewrite Rmult_assoc, Rinv_l by lra. lra.
Qed.
Lemma geometric_first c v n : (1 <= n)%nat -> nth_error (geometric c v n) 0 = Some (c * Rpower (v / c) 0).
Proof. intros H. rewrite geometric_nth by lia. cbn [INR]. unfold Rdiv at 2. rewrite Rmult_0_l. reflexivity. Qed.
Lemma geometric_last c v n : 0 < c -> 0 < v -> (2 <= n)%nat -> nth_error (geometric c v n) (n - 1) = Some v.
Proof.
  intros C V H. rewrite geometric_nth by lia. f_equal. rewrite minus_INR by lia. cbn [INR]. assert (0 < INR n - 1) by (apply le_INR in H; cbn in H; lra).
  replace ((INR n - 1) / (INR n - 1)) with 1 by (field; lra). rewrite Rpower_1 by (apply Rdiv_lt_0_compat; auto). field. lra.
Qed.
