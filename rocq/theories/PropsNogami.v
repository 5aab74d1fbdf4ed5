(** * Properties C132-C135: consolidation of layered soil around a vertical drain (nogamiandli2003.py) *)
From Coq Require Import Reals List Arith ZArith Bool Lia Lra.
From Coquelicot Require Import Coquelicot.
From Verif Require Import Base PiecewiseModel RootModel ConstitutiveModel SpecRoot SpecPiecewise SpecLoad SpecStein SteinModel NogamiModel SpecNogami PropsRoot PiBounds TerzaghiProofs SteinProofs SteinProofs3 SteinProofs4 SteinProofs5 PropsStein NogamiProofs NogamiProofs2 NogamiProofs3 NogamiProofs4 NogamiProofs5 NogamiProofs6 NogamiProofs7 NogamiProofs8.
Import ListNotations.
Local Open Scope R_scope.

(** The ground described by the input. *)
Definition the_ground (P : nogami) (d : drain) : ground := mkGround (mkSoil (g_h P) (g_kv P) (g_mv P)) (d_kh d) (d_r0 d) (d_r1 d).
(** The settings of the two searches are positive. *)
Definition good_search (P : nogami) : Prop := 0 < g_rx0 P /\ 0 < g_rdx P /\ 0 < g_rp P /\ 0 < g_vx0 P /\ 0 < g_vdx P /\ 0 < g_vp P.
(** The solver gave zeros of the functions. *)
Definition exact_radial (J Y : nat -> R -> R) (d : drain) (sn : list R) : Prop := forall s, In s sn -> radial_characteristic J Y d s = 0.
Definition exact_vertical (P : nogami) (sn : list R) (alps : list (list R)) : Prop := forall p a0 i, In p (pairs_of sn alps) -> phia0 P = Ok a0 -> phi_i_check P = Ok i ->
  vertical_characteristic P a0 i (fst p) (snd p) = 0.
(** No shape with depth is straight in a layer (there the program is wrong, see C135_straight_refuted). *)
Definition never_straight (P : nogami) (d : drain) (sn : list R) (alps : list (list R)) : Prop := forall p i, In p (pairs_of sn alps) -> (i < layers (nsoil P))%nat ->
  (snd p)^2 * at_ (g_mv P) i <> at_ (d_kh d) i * (fst p / d_r0 d)^2.
(** The series: one term for each pair of numbers (s, alpha), with wavenumber s/r0 and decay alpha squared. *)
Definition rseries_of (P : nogami) (d : drain) (sn : list R) (alps : list (list R)) (ms : list rmode) : Prop :=
  map (fun m => (wavenumber m, decay (vert m))) ms = map (fun p => (fst p / d_r0 d, (snd p)^2)) (pairs_of sn alps) /\
  forall m, In m ms -> rfound (the_ground P d) (g_bctop P) m.
(** por[k][j] is the effect of the load at time tp[j], depth zs[k], at the radius asked for or averaged over radius *)
Definition rpressures (g : ground) (rcalc : option R) (tim mag : list R) (rate : R -> R) (ms : list rmode) (zs tp : list R) (A : list (list R)) : Prop :=
  length A = length zs /\ forall k j, (k < length zs)%nat -> (j < length tp)%nat -> 0 <= at_ zs k <= depth (earth g) (layers (earth g)) ->
    exists i u, (i < layers (earth g))%nat /\ depth (earth g) i <= at_ zs k <= depth (earth g) (S i) /\
      (forall r, effect tim mag rate (at_ tp j) (rresponse ms i r (at_ zs k)) (u r)) /\ observed g rcalc u (nth j (nth k A []) 0).

Lemma total_over_derive {T} (l : list T) (f : T -> R -> R) (g : T -> R) (x : R) : (forall m, In m l -> is_derive (f m) x (g m)) -> is_derive (fun y => total_over l (fun m => f m y)) x (total_over l g).
Proof.
  intros H. unfold total_over. induction l as [|a l IH]; cbn [map fold_right]; [exact (is_derive_const (V := R_NormedModule) 0 x)|]. apply (is_derive_plus (V := R_NormedModule)); [apply H; left; auto|apply IH; intros; apply H; right; auto].
Qed.
Lemma total_over_plus {T} (l : list T) (f g : T -> R) : total_over l (fun m => f m + g m) = total_over l f + total_over l g.
Proof. unfold total_over. induction l as [|a l IH]; cbn [map fold_right]; [ring|]. rewrite IH. ring. Qed.
(** a product of a function of radius and one of depth, over the ground *)
Lemma og_direct g (u : R -> R) f a b : is_RInt (fun r => r * u r) (r_in g) (r_out g) a -> over_depth (earth g) (weight (earth g)) f b -> over_ground g (fun i r z => u r * f i z) (a * b).
Proof.
  intros Hu (h & H1 & H2). exists (fun i z => a * f i z). split.
  - intros i z Hi. apply (is_RInt_ext (fun r => scal (f i z) (r * u r))); [intros r _; unfold scal; cbn; unfold mult; cbn; match goal with |- ?u = ?v => change (@eq R u v) end; ring|].
    eapply rint_val; [apply (is_RInt_scal (V := R_NormedModule)); exact Hu|]. unfold scal; cbn; unfold mult; cbn. match goal with |- ?u = ?v => change (@eq R u v) end. ring.
  - exists (fun i => a * h i). split; [intros i Hi; apply (is_RInt_scal (V := R_NormedModule)); auto|]. rewrite H2, <- total_scal. apply total_ext. intros i Hi. ring.
Qed.
Lemma NoDup_pairs {X Y} (Q : Y -> Y -> Prop) (f : X -> Y) l : NoDup l -> (forall x y, In x l -> In y l -> x <> y -> Q (f x) (f y)) -> ForallOrdPairs Q (map f l).
Proof.
  intros H. induction H as [|a l Na H IH]; intros K; [constructor|]. cbn [map]. constructor; [|apply IH; intros; apply K; auto; right; auto].
  apply List.Forall_forall. intros y Hy. apply in_map_iff in Hy. destruct Hy as (b & <- & Hb). apply K; [left; auto|right; auto|]. intros ->. contradiction.
Qed.

Section Drain.
Variables J Y : nat -> R -> R.
Hypothesis HB : are_bessel J Y.
Variable P : nogami.
Variable d : drain.
Hypothesis Hd : g_drain P = Some d.
Hypothesis Hg : is_ground (the_ground P d).
Notation g := (the_ground P d).
Notation s := (nsoil P).
Notation N := (g_layers P).
Lemma dHs : is_soil s. Proof. apply Hg. Qed.
Lemma dr : 0 < d_r0 d < d_r1 d. Proof. apply Hg. Qed.
Lemma dHr : 0 < rad P. Proof. unfold rad. rewrite Hd. apply dr. Qed.
Lemma dcoef a sv k : coef P a sv k = (a^2 * at_ (g_mv P) k - at_ (d_kh d) k * (sv / d_r0 d)^2) / at_ (g_kv P) k.
Proof. unfold coef, lat, rad. rewrite Hd. reflexivity. Qed.
Lemma coef_nz a sv k : (k < N)%nat -> a^2 * at_ (g_mv P) k <> at_ (d_kh d) k * (sv / d_r0 d)^2 -> coef P a sv k <> 0.
Proof. intros Hk H Q. rewrite dcoef in Q. pose proof (gkv_pos P dHs k Hk) as K. unfold gkv in K. apply H. unfold at_ in *. apply Rmult_integral in Q. destruct Q as [Q|Q]; [lra|]. exfalso. revert Q. apply Rinv_neq_0_compat. lra. Qed.
Variables p0 q0 : R.
Hypothesis Hpq : (g_bctop P = 0%Z /\ p0 = 0 /\ q0 = 1) \/ (g_bctop P = 1%Z /\ p0 = 1 /\ q0 = 0).
Lemma pq : p0 <> 0 \/ q0 <> 0. Proof. destruct Hpq as [(_ & -> & ->)|(_ & -> & ->)]; [right|left]; lra. Qed.
(** the term belonging to a pair *)
Definition rm (p : R * R) : rmode := mkRmode (vmode P (snd p) (fst p) p0 q0 (gC J Y P p0 q0 p)) (fst p / d_r0 d) (U J Y d (fst p)) (fun r => - (fst p / d_r0 d) * V J Y d (fst p) r).

Section One.
Variable p : R * R.
Hypothesis H1 : 0 < fst p. Hypothesis H2 : 0 < snd p.
Hypothesis Hc : forall k, (k < N)%nat -> coef P (snd p) (fst p) k <> 0.
Lemma rm_around : around_equation (rm p).
Proof. exact (U_eq J Y HB d dr (fst p) H1). Qed.
Lemma rm_vert : vert_equation g (rm p).
Proof. intros i z Hi. change (layers (earth g)) with (layers s) in Hi. rewrite <- (gN P dHs) in Hi. pose proof (v_equation P (snd p) (fst p) Hc p0 q0 i z Hi) as Q. rewrite dcoef in Q. exact Q. Qed.
Lemma rm_drained : drained g (rm p).
Proof. exact (U_in J Y d dr (fst p)). Qed.
Lemma rm_top : at_top (g_bctop P) (vert (rm p)).
Proof.
  destruct (v_top P (snd p) (fst p) p0 q0) as [T1 T2]. unfold at_top. cbn [shape slope vert rm vmode]. rewrite T1, T2. destruct Hpq as [(E & -> & ->)|(E & -> & ->)]; rewrite E; split; intros; try discriminate; auto.
Qed.
Lemma rm_joined : joined s (vert (rm p)).
Proof. apply (v_joined P dHs (snd p) (fst p)). Qed.
Lemma shape_moves : exists i z, (i < layers s)%nat /\ vshape P (snd p) (fst p) p0 q0 i z <> 0.
Proof.
  assert (N0 : (0 < N)%nat) by (pose proof (gN_pos P dHs); lia). destruct (v_top P (snd p) (fst p) p0 q0) as [T1 T2]. exists 0%nat. rewrite <- (gN P dHs).
  destruct Hpq as [(E & E1 & E2)|(E & E1 & E2)]; [|exists 0; split; [auto|]; rewrite T1, E1; lra].
  destruct (Classical_Prop.classic (exists z, vshape P (snd p) (fst p) p0 q0 0 z <> 0)) as [(z & Q)|Q]; [exists z; auto|]. exfalso.
  assert (Z : forall z, vshape P (snd p) (fst p) p0 q0 0 z = 0) by (intros z; destruct (Req_dec (vshape P (snd p) (fst p) p0 q0 0 z) 0); auto; exfalso; apply Q; eauto).
  destruct (v_equation P (snd p) (fst p) Hc p0 q0 0 0 N0) as [D _].
  assert (D0 : is_derive (vshape P (snd p) (fst p) p0 q0 0) 0 0) by (apply (is_derive_ext (fun _ => 0)); [intros t; rewrite Z; auto|apply (is_derive_const (V := R_NormedModule))]).
  apply is_derive_unique in D. apply is_derive_unique in D0. rewrite D0, T2 in D. lra.
Qed.
Lemma around_moves : exists r, 0 < r /\ U J Y d (fst p) r <> 0.
Proof.
  destruct (Classical_Prop.classic (exists r, 0 < r /\ U J Y d (fst p) r <> 0)) as [Q|Q]; [auto|]. exfalso.
  assert (Z : forall r, 0 < r -> U J Y d (fst p) r = 0) by (intros r Hr; destruct (Req_dec (U J Y d (fst p) r) 0); auto; exfalso; apply Q; eauto).
  pose proof (U2_pos J Y HB d dr (fst p) H1 0) as K. assert (0 < 0); [|lra]. apply K.
  apply (is_RInt_ext (fun _ => 0)); [intros r Hr; rewrite Rmin_left, Rmax_right in Hr by (pose proof dr; lra); rewrite Z by (pose proof dr; lra); cbn; match goal with |- ?u = ?v => change (@eq R u v) end; ring|].
  eapply rint_val; [apply (is_RInt_const (V := R_NormedModule))|]. unfold scal; cbn; unfold mult; cbn. match goal with |- ?u = ?v => change (@eq R u v) end. ring.
Qed.
Lemma rm_moves : exists i z r, (i < layers (earth g))%nat /\ 0 < r /\ shape (vert (rm p)) i z * around (rm p) r <> 0.
Proof. destruct shape_moves as (i & z & A1 & A2). destruct around_moves as (r & B1 & B2). exists i, z, r. split; [exact A1|]. split; [auto|]. apply Rmult_integral_contrapositive_currified; auto. Qed.
Lemma rm_found : rfound g (g_bctop P) (rm p).
Proof.
  constructor; [exact (pow_lt _ 2 H2)|exact (w_pos d dr (fst p) H1)|apply rm_around|apply rm_vert|apply rm_drained|apply rm_top|apply rm_joined|apply rm_moves].
Qed.
Lemma rm_closed : radial_characteristic J Y d (fst p) = 0 <-> closed g (rm p).
Proof.
  unfold closed. cbn [around_slope rm r_out]. unfold radial_characteristic. change (un_normalised J Y d (d_r1 d) (fst p) 1) with (V J Y d (fst p) (d_r1 d)).
  cbn [the_ground r_out]. split; intros Q; [rewrite Q; ring|]. apply Rmult_integral in Q. destruct Q as [Q|Q]; [|auto]. pose proof (w_pos d dr (fst p) H1). lra.
Qed.
Lemma rm_bottom i : phi_i_check P = Ok i -> vertical_characteristic P (RtoC p0, RtoC q0) i (fst p) (snd p) = 0 <-> at_bottom s (g_bcbot P) (vert (rm p)).
Proof.
  intros Ei. rewrite (char_real P dHs dHr (snd p) (fst p) Hc p0 q0 i). unfold at_bottom. cbv zeta. rewrite <- (gN P dHs). cbn [vert rm vmode shape slope].
  destruct (i_real P i Ei) as [(E & ->)|(E & ->)]; rewrite E; split; intros Q; try (split; intros; try discriminate; auto; fail); apply Q; auto.
Qed.
Hypothesis Hroot : radial_characteristic J Y d (fst p) = 0.
Lemma rm_project : rproject g (rm p).
Proof.
  exists (Un J Y d (fst p) * vn P (snd p) (fst p) p0 q0), (Ud J Y d (fst p) * vd P (snd p) (fst p) p0 q0).
  pose proof (Ud_pos J Y HB d dr (fst p) H1 Hroot) as D1. pose proof (vd_pos P dHs (snd p) (fst p) Hc p0 q0 pq) as D2.
  split; [|split; [|split]].
  - apply (og_direct g (U J Y d (fst p)) (vshape P (snd p) (fst p) p0 q0)); [exact (Un_ok J Y HB d dr (fst p) H1 Hroot)|apply vn_ok; auto using dHs].
  - eapply (og_ext g Hg); [|apply (og_direct g (fun r => (U J Y d (fst p) r)^2) (fun k z => (vshape P (snd p) (fst p) p0 q0 k z)^2)); [exact (Ud_ok J Y HB d dr (fst p) H1 Hroot)|apply vd_ok; auto using dHs]].
    intros i r z _ _. cbn [around rm vert vmode shape]. ring.
  - apply Rmult_lt_0_compat; auto.
  - cbn [amp vert rm vmode]. unfold gC, Cn. rewrite Hd. cbv zeta. fold (Un J Y d (fst p)).
    change (- d_r0 d ^ 2 / fst p * un_normalised J Y d (d_r0 d) (fst p) 1) with (Un J Y d (fst p)).
    change (d_r0 d ^ 2 / 2 * (d_r1 d ^ 2 / d_r0 d ^ 2 * un_normalised J Y d (d_r1 d) (fst p) 0 ^ 2 - un_normalised J Y d (d_r0 d) (fst p) 1 ^ 2)) with (Ud J Y d (fst p)).
    field. split; lra.
Qed.
End One.

(** the whole response *)
Variable prs : list (R * R).
Hypothesis Hp : forall p, In p prs -> 0 < fst p /\ 0 < snd p /\ forall k, (k < N)%nat -> coef P (snd p) (fst p) k <> 0.
Lemma r_consolidates : rconsolidates g (rresponse (map rm prs)).
Proof.
  exists (fun i r z t => total_over (map rm prs) (fun m => amp (vert m) * around m r * slope (vert m) i z * exp (- decay (vert m) * t))),
         (fun i r z t => total_over (map rm prs) (fun m => amp (vert m) * around_slope m r * shape (vert m) i z * exp (- decay (vert m) * t))).
  intros i r z t Hi Hr. set (K := fun m => ((decay (vert m) * at_ (comp (earth g)) i - at_ (lateral g) i * (wavenumber m)^2) / at_ (perm (earth g)) i)).
  exists (total_over (map rm prs) (fun m => amp (vert m) * around m r * shape (vert m) i z * (- decay (vert m) * exp (- decay (vert m) * t)))),
         (total_over (map rm prs) (fun m => amp (vert m) * around m r * (- K m * shape (vert m) i z) * exp (- decay (vert m) * t))),
         (total_over (map rm prs) (fun m => amp (vert m) * (- (wavenumber m)^2 * around m r - around_slope m r / r) * shape (vert m) i z * exp (- decay (vert m) * t))).
  assert (E : forall m, In m (map rm prs) -> around_equation m /\ vert_equation g m).
  { intros m Hm. apply in_map_iff in Hm. destruct Hm as (p & <- & Hin). destruct (Hp p Hin) as (A1 & A2 & A3). split; [apply rm_around; auto|apply rm_vert; auto]. }
  assert (SC : forall (f : R -> R) x l a b, is_derive f x l -> is_derive (fun y => a * f y * b) x (a * l * b)).
  { intros f x l a b D. apply (is_derive_ext (fun y => (a * b) * f y)); [intros y; match goal with |- ?u = ?v => change (@eq R u v) end; ring|]. replace (a * l * b) with ((a * b) * l) by ring. apply is_derive_scal. exact D. }
  split; [|split; [|split; [|split; [|split]]]]; try (apply total_over_derive; intros m Hm; destruct (E m Hm) as [E1 E2]; destruct (E1 r Hr) as [E3 E4]; destruct (E2 i z Hi) as [E5 E6]).
  - apply SC. auto.
  - apply SC. auto.
  - apply (is_derive_ext (fun x => amp (vert m) * around m x * (shape (vert m) i z * exp (- decay (vert m) * t)))); [intros; match goal with |- ?u = ?v => change (@eq R u v) end; ring|]. rewrite (Rmult_assoc (amp (vert m) * around_slope m r)). apply SC. auto.
  - apply (is_derive_ext (fun x => amp (vert m) * around_slope m x * (shape (vert m) i z * exp (- decay (vert m) * t)))); [intros; match goal with |- ?u = ?v => change (@eq R u v) end; ring|]. rewrite (Rmult_assoc (amp (vert m) * _)). apply SC. auto.
  - auto_derive; auto. ring.
  - cbv beta. match goal with |- _ = _ + _ * (?A + ?B / r) => replace (B / r) with (/ r * B) by (unfold Rdiv; ring) end. rewrite <- (total_over_scal _ (/ r)), <- total_over_plus, <- !total_over_scal, <- total_over_plus.
    apply total_over_ext. intros m Hm. unfold K. assert (0 < at_ (perm (earth g)) i) by (destruct Hg as ((_ & _ & _ & Q) & _); apply Q; auto). field. split; [lra|apply Rgt_not_eq; lra].
Qed.
Variable rate : R -> R.
Hypothesis Hl : is_load (g_tim P) (g_mag P) rate.
Lemma rr_effect i rr z t : effect (g_tim P) (g_mag P) rate t (rresponse (map rm prs) i rr z) (gu J Y P p0 q0 prs (fun sv => U J Y d sv rr) i z t).
Proof.
  eapply effect_ext; [|apply (gu_effect J Y P rate Hl p0 q0 prs)].
  - intros w. unfold rresponse. rewrite total_over_map. reflexivity.
  - intros p Hin. destruct (Hp p Hin) as (A1 & A2 & A3). auto.
Qed.
Lemma rr_observed i z t : (g_rcalc P = None -> forall p, In p prs -> radial_characteristic J Y d (fst p) = 0) ->
  observed g (g_rcalc P) (fun rr => gu J Y P p0 q0 prs (fun sv => U J Y d sv rr) i z t) (gu J Y P p0 q0 prs (g_un J Y P) i z t).
Proof.
  intros Hx. unfold observed. destruct (g_rcalc P) as [rr|] eqn:Er; [apply total_over_ext; intros p Hin; unfold g_un; rewrite Hd, Er; reflexivity|].
  apply (is_RInt_ext (fun r => total_over prs (fun p => gC J Y P p0 q0 p * vshape P (snd p) (fst p) p0 q0 i z * gtm P (snd p) t * (2 * r * U J Y d (fst p) r)))).
  { intros r _. unfold gu. match goal with |- ?u = ?v => change (@eq R u v) end. rewrite <- total_over_scal. apply total_over_ext. intros p Hin. ring. }
  eapply rint_val.
  - apply (total_over_int prs (fun p r => gC J Y P p0 q0 p * vshape P (snd p) (fst p) p0 q0 i z * gtm P (snd p) t * (2 * r * U J Y d (fst p) r))). intros p Hin. destruct (Hp p Hin) as (A1 & A2 & A3).
    apply (is_RInt_scal (V := R_NormedModule)). apply (U_average J Y HB d dr (fst p) A1). apply Hx; auto.
  - unfold gu. cbn [the_ground r_in r_out]. rewrite Rmult_comm, <- total_over_scal. apply total_over_ext. intros p Hin. unfold g_un. rewrite Hd, Er. unfold scal; cbn; unfold mult; cbn. match goal with |- ?u = ?v => change (@eq R u v) end. ring.
Qed.
End Drain.

Lemma after_numbers J Y P a0 sn alps zs ts tpor out : g_after J Y P a0 sn alps zs ts tpor = Ok out -> sn = o_sn out /\ alps = o_alp out.
Proof.
  unfold g_after. cbv zeta. destruct tpor as [tp|]; [destruct (mapM _ zs) as [A|e]; cbn [bind]; [|discriminate]|cbn [bind]];
    (destruct ts as [ts'|]; [destruct (mapM (g_avp1 P _) ts'); cbn [bind]; [|discriminate]|cbn [bind]]; intros H; injection H as <-; auto).
Qed.
(** What a run with a drain comes down to. *)
Lemma drain_run J Y fsolve P d fuel zs ts tpor out : are_bessel J Y -> g_drain P = Some d -> is_ground (the_ground P d) -> good_search P ->
  (forall f x, 0 < x -> 0 < fsolve f x) -> g_make_output J Y fsolve P fuel zs ts tpor = Some (Ok out) ->
  exists sn alps p0 q0, sn = o_sn out /\ alps = o_alp out /\ numbers_of J Y fsolve P sn alps /\ ((g_bctop P = 0%Z /\ p0 = 0 /\ q0 = 1) \/ (g_bctop P = 1%Z /\ p0 = 1 /\ q0 = 0)) /\ phia0 P = Ok (RtoC p0, RtoC q0) /\
    length (pairs_of sn alps) = (g_nh P * g_nv P)%nat /\ (pairs_of sn alps <> [] -> exists i, phi_i_check P = Ok i) /\
    g_after J Y P (RtoC p0, RtoC q0) sn alps zs ts tpor = Ok out /\ (forall p, In p (pairs_of sn alps) -> In (fst p) sn) /\
    (never_straight P d sn alps -> forall p, In p (pairs_of sn alps) -> 0 < fst p /\ 0 < snd p /\ forall k, (k < g_layers P)%nat -> coef P (snd p) (fst p) k <> 0).
Proof.
  intros HB Hd Hg Hx Hf H. pose proof (dHs P d Hg) as Hs. destruct (run_numbers J Y fsolve P Hf Hx fuel zs ts tpor out H Hs) as (sn & alps & a0 & N1 & N2 & N3 & N4 & N5 & N6).
  destruct (a0_real P a0 N2) as (p & q & -> & Epq). exists sn, alps, p, q. assert (L : length alps = length sn) by apply N1.
  destruct (after_numbers _ _ _ _ _ _ _ _ _ _ N3) as [O1 O2]. split; [auto|]. split; [auto|]. split; [auto|]. split; [auto|]. split; [auto|]. split; [rewrite <- N4; apply pairs_len; [auto|intros n Hn; apply N1; auto]|]. split; [|split; [auto|split]].
  - intros Ne. destruct (pairs_of sn alps) as [|x l] eqn:E; [congruence|]. assert (Hin : In x (pairs_of sn alps)) by (rewrite E; left; auto). apply pairs_in in Hin; [|auto].
    destruct Hin as (n & Hn & _ & Ha). destruct (N6 n _ Hn Ha) as (_ & i & _ & Q & _). eauto.
  - intros x Hin. apply pairs_in in Hin; [|auto]. destruct Hin as (n & Hn & -> & _). apply nth_In. auto.
  - intros Hns x Hin. pose proof Hin as Hin'. apply pairs_in in Hin; [|auto]. destruct Hin as (n & Hn & E1 & Ha). destruct (N6 n _ Hn Ha) as (Pa & _).
    assert (In (fst x) sn) by (rewrite E1; apply nth_In; auto). pose proof (N5 _ H0) as Q. rewrite Hd in Q. split; [apply Q|]. split; [auto|].
    intros k Hk. apply (coef_nz P d Hd Hg); auto. apply Hns; auto. rewrite <- (gN P Hs). auto.
Qed.

(** ** C132: the pore pressures *)
(** The pressures returned at depths within the profile are the effect of the whole load history at the
    radius asked for, or its average over the ground around the drain, through a response that obeys the
    equation of flow with depth and radius in every layer and whose terms all meet the conditions at the
    drain, at the top and between the layers.  (The average needs exact zeros of the radial function.) *)
Theorem C132_pressures : forall J Y fsolve P d fuel zs ts tp out rate,
  are_bessel J Y -> g_drain P = Some d -> is_ground (the_ground P d) -> good_search P -> (forall f x, 0 < x -> 0 < fsolve f x) -> is_load (g_tim P) (g_mag P) rate ->
  g_make_output J Y fsolve P fuel zs ts (Some tp) = Some (Ok out) ->
  numbers_of J Y fsolve P (o_sn out) (o_alp out) /\
    (never_straight P d (o_sn out) (o_alp out) -> g_rcalc P <> None \/ exact_radial J Y d (o_sn out) ->
     exists ms A, rseries_of P d (o_sn out) (o_alp out) ms /\ rconsolidates (the_ground P d) (rresponse ms) /\ o_por out = Some A /\
       rpressures (the_ground P d) (g_rcalc P) (g_tim P) (g_mag P) rate ms zs tp A).
Proof.
  intros J Y fsolve P d fuel zs ts tp out rate HB Hd Hg Hx Hf Hl Hrun.
  destruct (drain_run _ _ _ _ _ _ _ _ _ _ HB Hd Hg Hx Hf Hrun) as (sn & alps & p0 & q0 & OA & OB & N1 & N2 & N3 & N4 & N5 & N6 & N7 & N8).
  rewrite <- OA, <- OB. split; [auto|]. intros Hns Hor. specialize (N8 Hns). exists (map (rm J Y P d p0 q0) (pairs_of sn alps)).
  assert (Hp : forall p, In p (pairs_of sn alps) -> 0 < snd p /\ forall k, (k < g_layers P)%nat -> coef P (snd p) (fst p) k <> 0) by (intros p Hin; destruct (N8 p Hin) as (A1 & A2 & A3); auto).
  destruct (results_por J Y P (dHs P d Hg) (dHr P d Hd Hg) rate Hl p0 q0 (pq P p0 q0 N2) sn alps Hp zs ts (Some tp) out N6 tp eq_refl) as (A & R1 & R2 & R3).
  exists A. split; [|split; [|split; [auto|]]].
  - split; [rewrite map_map; reflexivity|]. intros m Hm. apply in_map_iff in Hm. destruct Hm as (p & <- & Hin). destruct (N8 p Hin) as (A1 & A2 & A3). apply rm_found; auto.
  - apply r_consolidates; auto.
  - split; [auto|]. intros k j Hk Hj Hz. destruct (R3 k j Hk Hj Hz) as (i & I1 & I2 & I3). exists i, (fun rr => gu J Y P p0 q0 (pairs_of sn alps) (fun sv => U J Y d sv rr) i (at_ zs k) (at_ tp j)).
    split; [auto|]. split; [auto|]. split; [intros r; apply rr_effect; auto|]. rewrite I3. apply rr_observed; auto. intros Er p Hin. destruct Hor as [Hor|Hor]; [contradiction|]. apply Hor. auto.
Qed.
(** The two equations solved have the wavenumbers and decays of the ground, and nothing else, as solutions. *)
Theorem C132_equation : forall J Y P d s a a0 i, are_bessel J Y -> g_drain P = Some d -> is_ground (the_ground P d) -> phia0 P = Ok a0 -> phi_i_check P = Ok i -> 0 < s -> 0 < a ->
  (forall k, (k < layers (nsoil P))%nat -> a^2 * at_ (g_mv P) k <> at_ (d_kh d) k * (s / d_r0 d)^2) ->
  (radial_characteristic J Y d s = 0 /\ vertical_characteristic P a0 i s a = 0 <-> reigen (the_ground P d) (g_bctop P) (g_bcbot P) (s / d_r0 d) (a^2)).
Proof.
  intros J Y P d s a a0 i HB Hd Hg E0 Ei Hs Ha Hn. pose proof (dHs P d Hg) as HS. pose proof (gN P HS) as NL. pose proof (dr P d Hg) as Hr.
  destruct (a0_real P a0 E0) as (p0 & q0 & -> & Epq).
  assert (Hc : forall k, (k < g_layers P)%nat -> coef P a s k <> 0) by (intros k Hk; apply (coef_nz P d Hd Hg); auto; apply Hn; lia).
  pose proof (rm_closed J Y P d Hg p0 q0 (s, a) Hs) as Cl. pose proof (rm_bottom J Y P d Hd Hg p0 q0 (s, a) Hc i Ei) as Bo. cbn [fst snd] in Cl, Bo. split.
  - intros [Q1 Q2]. exists (rm J Y P d p0 q0 (s, a)). split; [reflexivity|]. split; [reflexivity|]. destruct (rm_found J Y HB P d Hd Hg p0 q0 Epq (s, a) Hs Ha Hc). tauto.
  - intros (m & M1 & M2 & M3 & M4 & M5 & M6 & M7 & M8 & M9 & (k0 & z0 & r0 & K1 & K2 & K3)).
    assert (N1 : around m r0 <> 0) by (intros Q; apply K3; rewrite Q; ring). assert (N2 : shape (vert m) k0 z0 <> 0) by (intros Q; apply K3; rewrite Q; ring).
    split.
    + assert (RE : radial_eq (s / d_r0 d) (around m) (around_slope m)) by (intros r Hr0; destruct (M3 r Hr0) as [D1 D2]; rewrite M1 in D2; auto).
      pose proof (U_only J Y HB d Hr s Hs _ _ RE M5) as K. destruct (K r0 K2) as [K4 _]. destruct (K (d_r1 d) ltac:(lra)) as [_ K5].
      unfold closed in M6. cbn [r_out the_ground] in M6. rewrite M6 in K5. symmetry in K5. apply Rmult_integral in K5. destruct K5 as [K5|K5]; [rewrite K5 in K4; exfalso; apply N1; rewrite K4; ring|].
      apply Rmult_integral in K5. destruct K5 as [K5|K5]; [|exact K5]. pose proof (w_pos d Hr s Hs). lra.
    + assert (VE : forall k z, (k < g_layers P)%nat -> is_derive (shape (vert m) k) z (slope (vert m) k z) /\ is_derive (slope (vert m) k) z (- coef P a s k * shape (vert m) k z)).
      { intros k z Hk. destruct (M4 k z) as [D1 D2]; [cbn [earth the_ground]; change (k < layers (nsoil P))%nat; lia|]. rewrite M1, M2 in D2. rewrite (dcoef P d Hd). auto. }
      assert (C0 : exists c, shape (vert m) 0%nat 0 = c * p0 /\ slope (vert m) 0%nat 0 = c * q0).
      { destruct M7 as [T1 T2]. destruct Epq as [(E & -> & ->)|(E & -> & ->)]; [exists (slope (vert m) 0%nat 0); rewrite (T1 E)|exists (shape (vert m) 0%nat 0); rewrite (T2 E)]; split; ring. }
      destruct C0 as (c & C1 & C2).
      pose proof (v_only P HS a s Hc p0 q0 (shape (vert m)) (slope (vert m)) VE) as K.
      assert (JJ : forall k, (S k < g_layers P)%nat -> shape (vert m) k (depth (nsoil P) (S k)) = shape (vert m) (S k) (depth (nsoil P) (S k)) /\ gkv P k * slope (vert m) k (depth (nsoil P) (S k)) = gkv P (S k) * slope (vert m) (S k) (depth (nsoil P) (S k))).
      { intros k Hk. apply (M8 k). cbn [earth the_ground]. change (S k < layers (nsoil P))%nat. lia. }
      specialize (K JJ c C1 C2). assert (Cn0 : c <> 0) by (intros Q; apply N2; destruct (K k0 ltac:(rewrite NL; exact K1) z0) as [Q2 _]; rewrite Q2, Q; ring).
      apply Bo. pose proof (gN_pos P HS) as NP. destruct (K (g_layers P - 1)%nat ltac:(lia) (depth (nsoil P) (g_layers P))) as [Z1 Z2].
      unfold at_bottom in *. cbv zeta in *. cbn [earth the_ground] in M9. change (mkSoil (g_h P) (g_kv P) (g_mv P)) with (nsoil P) in M9. rewrite <- NL in *. cbn [vert rm vmode shape slope fst snd].
      split; intros E; [destruct M9 as [M9 _]; rewrite (M9 E) in Z1|destruct M9 as [_ M9]; rewrite (M9 E) in Z2]; [symmetry in Z1; apply Rmult_integral in Z1|symmetry in Z2; apply Rmult_integral in Z2]; tauto.
Qed.
(** If the solver returns zeros, every term also meets the conditions at the outer boundary and at the
    bottom, its amplitude is that of the best approximation of a uniform pressure, the terms are orthogonal,
    and at the moment of loading the series is the best approximation of the uniform pressure by its terms. *)
Theorem C132_best : forall J Y fsolve P d fuel zs ts tp out rate,
  are_bessel J Y -> g_drain P = Some d -> is_ground (the_ground P d) -> good_search P -> (forall f x, 0 < x -> 0 < fsolve f x) -> is_load (g_tim P) (g_mag P) rate ->
  g_make_output J Y fsolve P fuel zs ts (Some tp) = Some (Ok out) ->
  numbers_of J Y fsolve P (o_sn out) (o_alp out) /\
    (never_straight P d (o_sn out) (o_alp out) -> exact_radial J Y d (o_sn out) -> exact_vertical P (o_sn out) (o_alp out) ->
     exists ms A, rseries_of P d (o_sn out) (o_alp out) ms /\ o_por out = Some A /\ rpressures (the_ground P d) (g_rcalc P) (g_tim P) (g_mag P) rate ms zs tp A /\
       (forall m, In m ms -> closed (the_ground P d) m /\ at_bottom (nsoil P) (g_bcbot P) (vert m) /\ rproject (the_ground P d) m) /\
       (forall m l, In m ms -> In l ms -> wavenumber m <> wavenumber l \/ decay (vert m) <> decay (vert l) ->
          over_ground (the_ground P d) (fun i r z => around m r * shape (vert m) i z * (around l r * shape (vert l) i z)) 0) /\
       (NoDup (pairs_of (o_sn out) (o_alp out)) -> forall c e e', length c = length ms ->
          over_ground (the_ground P d) (fun i r z => (1 - rresponse ms i r z 0)^2) e ->
          over_ground (the_ground P d) (fun i r z => (1 - rcombination c ms i r z)^2) e' -> e <= e')).
Proof.
  intros J Y fsolve P d fuel zs ts tp out rate HB Hd Hg Hx Hf Hl Hrun.
  destruct (drain_run _ _ _ _ _ _ _ _ _ _ HB Hd Hg Hx Hf Hrun) as (sn & alps & p0 & q0 & OA & OB & N1 & N2 & N3 & N4 & N5 & N6 & N7 & N8).
  rewrite <- OA, <- OB. split; [auto|]. intros Hns Er Ev. specialize (N8 Hns). exists (map (rm J Y P d p0 q0) (pairs_of sn alps)).
  assert (Hp : forall p, In p (pairs_of sn alps) -> 0 < snd p /\ forall k, (k < g_layers P)%nat -> coef P (snd p) (fst p) k <> 0) by (intros p Hin; destruct (N8 p Hin) as (A1 & A2 & A3); auto).
  destruct (results_por J Y P (dHs P d Hg) (dHr P d Hd Hg) rate Hl p0 q0 (pq P p0 q0 N2) sn alps Hp zs ts (Some tp) out N6 tp eq_refl) as (A & R1 & R2 & R3).
  assert (All : forall m, In m (map (rm J Y P d p0 q0) (pairs_of sn alps)) -> rfull (the_ground P d) (g_bctop P) (g_bcbot P) m /\ rproject (the_ground P d) m /\ 0 < wavenumber m).
  { intros m Hm. apply in_map_iff in Hm. destruct Hm as (p & <- & Hin). destruct (N8 p Hin) as (A1 & A2 & A3). pose proof (Er _ (N7 _ Hin)) as Z.
    destruct (N5 ltac:(intros Q; rewrite Q in Hin; destruct Hin)) as (i & Ei). pose proof (Ev _ _ _ Hin N3 Ei) as Z2.
    split; [|split; [apply rm_project; auto|exact (w_pos d (dr P d Hg) (fst p) A1)]].
    destruct (rm_found J Y HB P d Hd Hg p0 q0 N2 p A1 A2 A3). split; [auto|]. split; [auto|]. split; [auto|]. split; [apply rm_closed; auto|]. split; [auto|]. split; [auto|]. apply (rm_bottom J Y P d Hd Hg p0 q0 p A3 i Ei). auto. }
  exists A. split; [|split; [auto|split; [|split; [|split]]]].
  - split; [rewrite map_map; reflexivity|]. intros m Hm. apply in_map_iff in Hm. destruct Hm as (p & <- & Hin). destruct (N8 p Hin) as (A1 & A2 & A3). apply rm_found; auto.
  - split; [auto|]. intros k j Hk Hj Hz. destruct (R3 k j Hk Hj Hz) as (i & I1 & I2 & I3). exists i, (fun rr => gu J Y P p0 q0 (pairs_of sn alps) (fun sv => U J Y d sv rr) i (at_ zs k) (at_ tp j)).
    split; [auto|]. split; [auto|]. split; [intros r; apply rr_effect; auto|]. rewrite I3. apply rr_observed; auto.
  - intros m Hm. destruct (All m Hm) as ((_ & _ & _ & F4 & _ & _ & F7) & Pr & _). auto.
  - intros m l Hm Hk Ne. destruct (All m Hm) as (F1 & _ & W1). destruct (All l Hk) as (F2 & _ & W2).
    assert (Ap : apart m l). { unfold apart. destruct (Req_dec (wavenumber m) (wavenumber l)) as [E|E]; [right; tauto|left]. intros Q. apply E. apply Rsqr_inj; [lra|lra|]. unfold Rsqr. cbn in Q. lra. }
    pose proof Hm as Hm'. apply in_map_iff in Hm'. destruct Hm' as (p & _ & Hin). destruct (N5 ltac:(intros Q; rewrite Q in Hin; destruct Hin)) as (i & Ei).
    assert (Bb : (g_bcbot P = 0 \/ g_bcbot P = 1)%Z) by (destruct (i_real P i Ei) as [(Q & _)|(Q & _)]; auto). assert (Bt : (g_bctop P = 0 \/ g_bctop P = 1)%Z) by (destruct N2 as [(Q & _)|(Q & _)]; auto).
    pose proof (orthogonal2 (the_ground P d) Hg (g_bctop P) (g_bcbot P) Bt Bb m l F1 F2 Ap) as O. cbv beta in O.
    pose proof (sep_og (the_ground P d) Hg _ (sep_mult _ _ _ (mode_sep _ _ _ _ F1) (mode_sep _ _ _ _ F2))) as O2. cbv beta in O2. rewrite O in O2. exact O2.
  - intros ND c e e' Lc O1 O2. destruct (pairs_of sn alps) as [|x0 l0] eqn:E0.
    + destruct c; [|discriminate]. rewrite (og_I2 _ _ _ O1), (og_I2 _ _ _ O2). apply Req_le. reflexivity.
    + rewrite <- E0 in *. destruct (N5 ltac:(rewrite E0; discriminate)) as (i & Ei).
      assert (Bb : (g_bcbot P = 0 \/ g_bcbot P = 1)%Z) by (destruct (i_real P i Ei) as [(Q & _)|(Q & _)]; auto). assert (Bt : (g_bctop P = 0 \/ g_bctop P = 1)%Z) by (destruct N2 as [(Q & _)|(Q & _)]; auto).
      assert (Best := rbest (the_ground P d) Hg (g_bctop P) (g_bcbot P) Bt Bb (map (rm J Y P d p0 q0) (pairs_of sn alps)) c).
      assert (H1 : forall m, In m (map (rm J Y P d p0 q0) (pairs_of sn alps)) -> rfull (the_ground P d) (g_bctop P) (g_bcbot P) m /\ rproject (the_ground P d) m) by (intros m Hm; destruct (All m Hm) as (F1 & F2 & _); auto).
      assert (H2 : ForallOrdPairs apart (map (rm J Y P d p0 q0) (pairs_of sn alps))).
      { apply NoDup_pairs; [auto|]. intros x y Hx0 Hy0 Ne. destruct (N8 x Hx0) as (A1 & A2 & _). destruct (N8 y Hy0) as (C1 & C2 & _). unfold apart. cbn [wavenumber rm vert vmode decay]. pose proof (dr P d Hg) as Hr.
        destruct (Req_dec (fst x) (fst y)) as [E|E].
        - right. rewrite E. split; [auto|]. intros Q. apply Ne. destruct x as [x1 x2], y as [y1 y2]. cbn in *. f_equal; auto. apply Rsqr_inj; [lra|lra|]. unfold Rsqr. lra.
        - left. intros Q. apply E. assert (Q1 : fst x / d_r0 d = fst y / d_r0 d). { apply Rsqr_inj; [apply Rlt_le, Rdiv_lt_0_compat; lra|apply Rlt_le, Rdiv_lt_0_compat; lra|]. unfold Rsqr. cbn in Q. lra. }
          apply (Rmult_eq_reg_r (/ d_r0 d)); [exact Q1|apply Rinv_neq_0_compat; lra]. }
      specialize (Best H1 H2 Lc). rewrite (og_I2 _ _ _ O1), (og_I2 _ _ _ O2). eapply Rle_trans; [|exact Best]. apply Req_le.
      eapply I2_ext; eauto.
      * assert (SC : Sep (the_ground P d) (fun _ _ _ => 1)) by (apply sep_const; auto).
        assert (Sep (the_ground P d) (fun i r z => 1 * 1 + -1 * rresponse (map (rm J Y P d p0 q0) (pairs_of sn alps)) i r z 0)) as S1.
        { apply sep_lin; [auto|]. eapply sep_ext; [|eapply rcomb_sep with (a := map (fun m => amp (vert m)) (map (rm J Y P d p0 q0) (pairs_of sn alps))); eauto; intros m Hm; apply (H1 m Hm)].
          intros i0 r z _ _. unfold rcombination, rresponse. clear. induction (map (rm J Y P d p0 q0) (pairs_of sn alps)) as [|m ms IH]; [reflexivity|]. unfold total_over in *. cbn [map combine fold_right fst snd]. rewrite IH.
          rewrite Rmult_0_r, exp_0. ring. }
        eapply sep_ext; [|eapply sep_mult; [exact S1|exact S1]]. intros i0 r z _ _. cbv beta. ring.
      * intros i0 r z _ _. cbv beta. do 2 f_equal. unfold rcombination, rresponse. clear. induction (map (rm J Y P d p0 q0) (pairs_of sn alps)) as [|m ms IH]; [reflexivity|]. unfold total_over in *. cbn [map combine fold_right fst snd]. rewrite IH.
        rewrite Rmult_0_r, exp_0. ring.
Qed.

(** ** C133: average pore pressure and settlement *)
(** avp is the mean over the depth of the same pore pressure (at the radius asked for, or averaged over
    radius); the settlement is the integral over the depth of mv times the load less that pore pressure. *)
Theorem C133_average_and_settlement : forall J Y fsolve P d fuel zs ts tpor out rate,
  are_bessel J Y -> g_drain P = Some d -> is_ground (the_ground P d) -> good_search P -> (forall f x, 0 < x -> 0 < fsolve f x) -> is_load (g_tim P) (g_mag P) rate ->
  (1 <= d_nh d)%nat -> (1 <= g_nv P)%nat -> g_make_output J Y fsolve P fuel zs (Some ts) tpor = Some (Ok out) ->
  numbers_of J Y fsolve P (o_sn out) (o_alp out) /\
    (never_straight P d (o_sn out) (o_alp out) -> g_rcalc P <> None \/ exact_radial J Y d (o_sn out) ->
     exists av se ms, o_avp out = Some av /\ o_set out = Some se /\ length av = length ts /\ length se = length ts /\
     rseries_of P d (o_sn out) (o_alp out) ms /\
     (forall tp, tpor = Some tp -> exists A, o_por out = Some A /\ rpressures (the_ground P d) (g_rcalc P) (g_tim P) (g_mag P) rate ms zs tp A) /\
     forall j, (j < length ts)%nat -> exists u w q,
       (forall i r z, effect (g_tim P) (g_mag P) rate (at_ ts j) (rresponse ms i r z) (u i r z)) /\
       (forall i z, observed (the_ground P d) (g_rcalc P) (fun r => u i r z) (w i z)) /\
       load_value (g_tim P) (g_mag P) (at_ ts j) q /\
       over_depth (nsoil P) (fun _ => 1) w (at_ av j * depth (nsoil P) (layers (nsoil P))) /\
       over_depth (nsoil P) (weight (nsoil P)) (fun i z => q - w i z) (at_ se j)).
Proof.
  intros J Y fsolve P d fuel zs ts tpor out rate HB Hd Hg Hx Hf Hl Nh Nv Hrun.
  destruct (drain_run _ _ _ _ _ _ _ _ _ _ HB Hd Hg Hx Hf Hrun) as (sn & alps & p0 & q0 & OA & OB & N1 & N2 & N3 & N4 & N5 & N6 & N7 & N8).
  rewrite <- OA, <- OB. split; [auto|]. intros Hns Hor.
  specialize (N8 Hns).
  assert (Hp : forall p, In p (pairs_of sn alps) -> 0 < snd p /\ forall k, (k < g_layers P)%nat -> coef P (snd p) (fst p) k <> 0) by (intros p Hin; destruct (N8 p Hin) as (A1 & A2 & A3); auto).
  destruct (results_avp J Y P (dHs P d Hg) (dHr P d Hd Hg) rate Hl p0 q0 (pq P p0 q0 N2) sn alps Hp zs (Some ts) tpor out N6 ts eq_refl) as (av & se & R1 & R2 & R3 & R4 & R5); auto.
  { unfold g_nh. rewrite Hd. auto. }
  assert (Ob : forall i z t, observed (the_ground P d) (g_rcalc P) (fun rr => gu J Y P p0 q0 (pairs_of sn alps) (fun sv => U J Y d sv rr) i z t) (gu J Y P p0 q0 (pairs_of sn alps) (g_un J Y P) i z t)).
  { intros. apply rr_observed; auto. intros Er p Hin. destruct Hor as [Hor|Hor]; [contradiction|]. apply Hor. auto. }
  exists av, se, (map (rm J Y P d p0 q0) (pairs_of sn alps)). split; [auto|]. split; [auto|]. split; [auto|]. split; [auto|]. split; [|split].
  - split; [rewrite map_map; reflexivity|]. intros m Hm. apply in_map_iff in Hm. destruct Hm as (p & <- & Hin). destruct (N8 p Hin) as (A1 & A2 & A3). apply rm_found; auto.
  - intros tp ->. destruct (results_por J Y P (dHs P d Hg) (dHr P d Hd Hg) rate Hl p0 q0 (pq P p0 q0 N2) sn alps Hp zs (Some ts) (Some tp) out N6 tp eq_refl) as (A & S1 & S2 & S3).
    exists A. split; [auto|]. split; [auto|]. intros k j Hk Hj Hz. destruct (S3 k j Hk Hj Hz) as (i & I1 & I2 & I3). exists i, (fun rr => gu J Y P p0 q0 (pairs_of sn alps) (fun sv => U J Y d sv rr) i (at_ zs k) (at_ tp j)).
    split; [auto|]. split; [auto|]. split; [intros r; apply rr_effect; auto|]. rewrite I3. apply Ob.
  - intros j Hj. destruct (R5 j Hj) as (q & Q1 & Q2 & Q3).
    exists (fun i rr z => gu J Y P p0 q0 (pairs_of sn alps) (fun sv => U J Y d sv rr) i z (at_ ts j)), (fun i z => gu J Y P p0 q0 (pairs_of sn alps) (g_un J Y P) i z (at_ ts j)), q.
    split; [intros; apply rr_effect; auto|]. split; [intros; apply Ob|]. auto.
Qed.

(** ** C134: without a drain *)
Section NoDrain.
Variables J Y : nat -> R -> R.
Variable P : nogami.
Hypothesis Hd : g_drain P = None.
Hypothesis Hs : is_soil (nsoil P).
Notation s := (nsoil P).
Notation N := (g_layers P).
Lemma nHr : 0 < rad P. Proof. unfold rad. rewrite Hd. lra. Qed.
Lemma ncoef a k : coef P a 0 k = a^2 * at_ (g_mv P) k / at_ (g_kv P) k.
Proof. unfold coef, lat, gmv, gkv, at_. rewrite Hd. unfold Rdiv. ring. Qed.
Lemma ncoef_nz a k : 0 < a -> (k < N)%nat -> coef P a 0 k <> 0.
Proof.
  intros Ha Hk. rewrite ncoef. pose proof (gkv_pos P Hs k Hk) as K1. pose proof (gmv_pos P Hs k Hk) as K2. unfold gkv, gmv in *. change (nth k (g_kv P) 0) with (at_ (g_kv P) k) in K1. change (nth k (g_mv P) 0) with (at_ (g_mv P) k) in K2.
  apply Rgt_not_eq. apply Rdiv_lt_0_compat; [apply Rmult_lt_0_compat; [apply pow_lt; auto|auto]|auto].
Qed.
Variables p0 q0 : R.
Hypothesis Hpq : (g_bctop P = 0%Z /\ p0 = 0 /\ q0 = 1) \/ (g_bctop P = 1%Z /\ p0 = 1 /\ q0 = 0).
Definition nm (a : R) : mode := vmode P a 0 p0 q0 (gC J Y P p0 q0 (0, a)).
Section One.
Variable a : R.
Hypothesis Ha : 0 < a.
Lemma nm_equation : mode_equation s (nm a).
Proof. intros i z Hi. rewrite <- (gN P Hs) in Hi. pose proof (v_equation P a 0 (fun k Hk => ncoef_nz a k Ha Hk) p0 q0 i z Hi) as Q. rewrite ncoef in Q. exact Q. Qed.
Lemma nm_top : at_top (g_bctop P) (nm a).
Proof.
  destruct (v_top P a 0 p0 q0) as [T1 T2]. unfold at_top. cbn [shape slope nm vmode]. rewrite T1, T2. destruct Hpq as [(E & -> & ->)|(E & -> & ->)]; rewrite E; split; intros; try discriminate; auto.
Qed.
Lemma nm_joined : joined s (nm a).
Proof. apply (v_joined P Hs a 0). Qed.
Lemma nm_project : project s (nm a).
Proof.
  exists (vn P a 0 p0 q0), (vd P a 0 p0 q0). pose proof (fun k Hk => ncoef_nz a k Ha Hk) as Hc. split; [apply vn_ok; auto|]. split; [apply vd_ok; auto|]. split; [apply vd_pos; auto; apply (pq P p0 q0 Hpq)|].
  cbn [amp nm vmode]. unfold gC, Cn. rewrite Hd. cbn [fst snd]. ring.
Qed.
Lemma nm_bottom i : phi_i_check P = Ok i -> vertical_characteristic P (RtoC p0, RtoC q0) i 0 a = 0 <-> at_bottom s (g_bcbot P) (nm a).
Proof.
  intros Ei. pose proof (fun k Hk => ncoef_nz a k Ha Hk) as Hc. rewrite (char_real P Hs nHr a 0 Hc p0 q0 i). unfold at_bottom. cbv zeta. rewrite <- (gN P Hs). cbn [nm vmode shape slope].
  destruct (i_real P i Ei) as [(E & ->)|(E & ->)]; rewrite E; split; intros Q; try (split; intros; try discriminate; auto; fail); apply Q; auto.
Qed.
Lemma nm_moves : exists i z, (i < layers s)%nat /\ shape (nm a) i z <> 0.
Proof.
  destruct (nm_project) as (n & e & _ & (h & Q1 & Q2) & Q3 & _). destruct (Classical_Prop.classic (exists i z, (i < layers s)%nat /\ shape (nm a) i z <> 0)) as [K|K]; [auto|]. exfalso.
  assert (Z : forall i, (i < layers s)%nat -> h i = 0).
  { intros i Hi. pose proof (Q1 i Hi) as I1. apply (is_RInt_unique (V := R_CompleteNormedModule)) in I1. rewrite <- I1. apply (is_RInt_unique (V := R_CompleteNormedModule)).
    apply (is_RInt_ext (fun _ => 0)); [intros z _; destruct (Req_dec (shape (nm a) i z) 0) as [E|E]; [rewrite E; match goal with |- ?u = ?v => change (@eq R u v) end; ring|exfalso; apply K; eauto]|].
    eapply rint_val; [apply (is_RInt_const (V := R_NormedModule))|]. unfold scal; cbn; unfold mult; cbn. match goal with |- ?u = ?v => change (@eq R u v) end. ring. }
  rewrite (total_ext _ _ (fun _ => 0 * 0)) in Q2 by (intros i Hi; rewrite Z by auto; ring). rewrite total_scal in Q2. lra.
Qed.
End One.
End NoDrain.
(** The equation solved has the decays of the soil, and nothing else, as solutions. *)
Theorem C134_equation : forall P a a0 i, g_drain P = None -> is_soil (nsoil P) -> phia0 P = Ok a0 -> phi_i_check P = Ok i -> 0 < a ->
  (vertical_characteristic P a0 i 0 a = 0 <-> eigenvalue (nsoil P) (g_bctop P) (g_bcbot P) (a^2)).
Proof.
  intros P a a0 i Hd Hs E0 Ei Ha. destruct (a0_real P a0 E0) as (p0 & q0 & -> & Epq). pose proof (gN P Hs) as NL.
  set (J := fun (_ : nat) (_ : R) => 0). rewrite (nm_bottom J J P Hd Hs p0 q0 a Ha i Ei). split.
  - intros B. exists (nm J J P p0 q0 a). split; [reflexivity|]. split; [apply nm_equation; auto|]. split; [apply nm_top; auto|]. split; [apply nm_joined; auto|]. split; [auto|]. apply nm_moves; auto.
  - intros (m & M1 & M2 & M3 & M4 & M5 & (k0 & z0 & K1 & K2)).
    assert (Hc : forall k, (k < g_layers P)%nat -> coef P a 0 k <> 0) by (intros k Hk; apply ncoef_nz; auto).
    assert (VE : forall k z, (k < g_layers P)%nat -> is_derive (shape m k) z (slope m k z) /\ is_derive (slope m k) z (- coef P a 0 k * shape m k z)).
    { intros k z Hk. destruct (M2 k z ltac:(lia)) as [D1 D2]. rewrite M1 in D2. rewrite (ncoef P Hd). auto. }
    assert (C0 : exists c, shape m 0%nat 0 = c * p0 /\ slope m 0%nat 0 = c * q0).
    { destruct M3 as [T1 T2]. destruct Epq as [(E & -> & ->)|(E & -> & ->)]; [exists (slope m 0%nat 0); rewrite (T1 E)|exists (shape m 0%nat 0); rewrite (T2 E)]; split; ring. }
    destruct C0 as (c & C1 & C2). pose proof (v_only P Hs a 0 Hc p0 q0 (shape m) (slope m) VE) as K.
    assert (JJ : forall k, (S k < g_layers P)%nat -> shape m k (depth (nsoil P) (S k)) = shape m (S k) (depth (nsoil P) (S k)) /\ gkv P k * slope m k (depth (nsoil P) (S k)) = gkv P (S k) * slope m (S k) (depth (nsoil P) (S k))) by (intros k Hk; apply (M4 k); lia).
    specialize (K JJ c C1 C2). assert (Cn0 : c <> 0) by (intros Q; apply K2; destruct (K k0 ltac:(lia) z0) as [Q2 _]; rewrite Q2, Q; ring).
    pose proof (gN_pos P Hs) as NP. destruct (K (g_layers P - 1)%nat ltac:(lia) (depth (nsoil P) (g_layers P))) as [Z1 Z2].
    unfold at_bottom in *. cbv zeta in *. rewrite <- NL in *. cbn [nm vmode shape slope].
    split; intros E; [destruct M5 as [M5 _]; rewrite (M5 E) in Z1|destruct M5 as [_ M5]; rewrite (M5 E) in Z2]; [symmetry in Z1; apply Rmult_integral in Z1|symmetry in Z2; apply Rmult_integral in Z2]; tauto.
Qed.
(** Without a drain the program computes consolidation by vertical flow: pore pressures, their mean over
    the depth and settlement are the effect of the load through a response whose terms are shapes of the
    soil; with exact zeros it is the best approximation of the uniform pressure at the moment of loading. *)
Theorem C134_no_drain : forall J Y fsolve P fuel zs ts tp out rate,
  g_drain P = None -> is_soil (nsoil P) -> good_search P -> (forall f x, 0 < x -> 0 < fsolve f x) -> is_load (g_tim P) (g_mag P) rate -> (1 <= g_nv P)%nat ->
  g_make_output J Y fsolve P fuel zs (Some ts) (Some tp) = Some (Ok out) ->
  exists alp ms A av se, o_sn out = [0] /\ o_alp out = [alp] /\ numbers_of J Y fsolve P [0] [alp] /\ map decay ms = map (fun a => a^2) alp /\
    (forall m, In m ms -> 0 < decay m /\ mode_equation (nsoil P) m /\ at_top (g_bctop P) m /\ joined (nsoil P) m /\ exists n d,
       over_depth (nsoil P) (weight (nsoil P)) (shape m) n /\ over_depth (nsoil P) (weight (nsoil P)) (fun i z => (shape m i z)^2) d /\ 0 < d /\ amp m = n / d) /\
    consolidates (nsoil P) (response ms) /\ o_por out = Some A /\ pressures (nsoil P) (g_tim P) (g_mag P) rate ms zs tp A /\
    o_avp out = Some av /\ o_set out = Some se /\ length av = length ts /\ length se = length ts /\
    (forall j, (j < length ts)%nat -> exists u q, (forall i z, effect (g_tim P) (g_mag P) rate (at_ ts j) (response ms i z) (u i z)) /\
       load_value (g_tim P) (g_mag P) (at_ ts j) q /\
       over_depth (nsoil P) (fun _ => 1) u (at_ av j * depth (nsoil P) (layers (nsoil P))) /\
       over_depth (nsoil P) (weight (nsoil P)) (fun i z => q - u i z) (at_ se j)) /\
    (exact_vertical P [0] [alp] -> (forall m, In m ms -> at_bottom (nsoil P) (g_bcbot P) m) /\
       (NoDup alp -> forall a e e', length a = length ms ->
         over_depth (nsoil P) (weight (nsoil P)) (fun i z => (1 - response ms i z 0)^2) e ->
         over_depth (nsoil P) (weight (nsoil P)) (fun i z => (1 - combination a ms i z)^2) e' -> e <= e')).
Proof.
  intros J Y fsolve P fuel zs ts tp out rate Hd Hs Hx Hf Hl Nv Hrun.
  destruct (run_numbers J Y fsolve P Hf Hx fuel zs (Some ts) (Some tp) out Hrun Hs) as (sn & alps & a0 & N1 & N2 & N3 & N4 & N5 & N6).
  assert (E : sn = [0]) by (destruct N1 as [Q _]; rewrite Hd in Q; auto). subst sn. assert (La : length alps = 1%nat) by apply N1. destruct alps as [|alp [|]]; try discriminate.
  destruct (a0_real P a0 N2) as (p0 & q0 & -> & Epq). assert (Pr : pairs_of [0] [alp] = map (pair 0) alp) by (unfold pairs_of; cbn [combine map concat fst snd]; apply app_nil_r).
  assert (Pos : forall a, In a alp -> 0 < a) by (intros a Ha; apply (N6 0%nat a); cbn; auto).
  assert (Hp : forall p, In p (pairs_of [0] [alp]) -> 0 < snd p /\ forall k, (k < g_layers P)%nat -> coef P (snd p) (fst p) k <> 0).
  { intros p Hin. rewrite Pr in Hin. apply in_map_iff in Hin. destruct Hin as (a & <- & Ha). cbn [fst snd]. split; [auto|]. intros k Hk. apply ncoef_nz; auto. }
  destruct (results_por J Y P Hs (nHr P Hd) rate Hl p0 q0 (pq P p0 q0 Epq) [0] [alp] Hp zs (Some ts) (Some tp) out N3 tp eq_refl) as (A & S1 & S2 & S3).
  assert (Nh : g_nh P = 1%nat) by (unfold g_nh; rewrite Hd; reflexivity).
  assert (Ln : length (pairs_of [0] [alp]) = (g_nh P * g_nv P)%nat) by (rewrite <- N4; apply pairs_len; [auto|intros n Hn; apply N1; auto]).
  destruct (results_avp J Y P Hs (nHr P Hd) rate Hl p0 q0 (pq P p0 q0 Epq) [0] [alp] Hp zs (Some ts) (Some tp) out N3 ts eq_refl Ln) as (av & se & R1 & R2 & R3 & R4 & R5); [lia|auto|].
  assert (Eff : forall i z t, effect (g_tim P) (g_mag P) rate t (response (map (nm J Y P p0 q0) alp) i z) (gu J Y P p0 q0 (pairs_of [0] [alp]) (g_un J Y P) i z t)).
  { intros i z t. eapply effect_ext; [|apply (gu_effect J Y P rate Hl p0 q0 _ Hp)]. intros w. rewrite Pr. unfold response. rewrite !total_over_map. apply total_over_ext. intros a Ha. cbn [fst snd nm vmode amp shape decay].
    unfold g_un. rewrite Hd. rewrite Rmult_1_r. reflexivity. }
  assert (Ms : forall m, In m (map (nm J Y P p0 q0) alp) -> 0 < decay m /\ mode_equation (nsoil P) m /\ at_top (g_bctop P) m /\ joined (nsoil P) m /\ project (nsoil P) m).
  { intros m Hm. apply in_map_iff in Hm. destruct Hm as (a & <- & Ha). specialize (Pos a Ha). split; [exact (pow_lt _ 2 Pos)|]. split; [apply nm_equation; auto|]. split; [apply nm_top; auto|]. split; [apply nm_joined; auto|apply nm_project; auto]. }
  destruct (after_numbers _ _ _ _ _ _ _ _ _ _ N3) as [OA OB].
  exists alp, (map (nm J Y P p0 q0) alp), A, av, se. split; [auto|]. split; [auto|]. split; [auto|]. split; [rewrite map_map; reflexivity|]. split; [exact Ms|]. split; [|split; [auto|split; [|split; [auto|split; [auto|split; [auto|split; [auto|split]]]]]]].
  - exists (fun i z t => total_over (map (nm J Y P p0 q0) alp) (fun m => amp m * slope m i z * exp (- decay m * t))). intros i z t Hi.
    exists (total_over (map (nm J Y P p0 q0) alp) (fun m => amp m * shape m i z * (- decay m * exp (- decay m * t)))),
           (total_over (map (nm J Y P p0 q0) alp) (fun m => amp m * (- (decay m * at_ (comp (nsoil P)) i / at_ (perm (nsoil P)) i) * shape m i z) * exp (- decay m * t))).
    assert (SC : forall (f : R -> R) x l a b, is_derive f x l -> is_derive (fun y => a * f y * b) x (a * l * b)).
    { intros f x l a b D. apply (is_derive_ext (fun y => (a * b) * f y)); [intros y; match goal with |- ?u = ?v => change (@eq R u v) end; ring|]. replace (a * l * b) with ((a * b) * l) by ring. apply is_derive_scal. exact D. }
    split; [|split; [|split]]; try (apply total_over_derive; intros m Hm; destruct (Ms m Hm) as (_ & E2 & _); destruct (E2 i z Hi) as [E3 E4]).
    + apply SC. auto.
    + apply SC. auto.
    + auto_derive; auto. ring.
    + rewrite <- !total_over_scal. apply total_over_ext. intros m Hm. assert (0 < at_ (perm (nsoil P)) i) by (apply Hs; auto). field. lra.
  - split; [auto|]. intros k j Hk Hj Hz. destruct (S3 k j Hk Hj Hz) as (i & I1 & I2 & ->). exists i. split; [auto|]. split; [auto|]. apply Eff.
  - intros j Hj. destruct (R5 j Hj) as (q & Q1 & Q2 & Q3). exists (fun i z => gu J Y P p0 q0 (pairs_of [0] [alp]) (g_un J Y P) i z (at_ ts j)), q. split; [intros; apply Eff|]. auto.
  - intros Ev.
    destruct alp as [|a1 al] eqn:Ea; [assert (length (nth 0 [@nil R] []) = g_nv P) by (apply (proj2 (proj2 N1) 0%nat); cbn; lia); cbn in H; lia|]. rewrite <- Ea in *.
    assert (Ei : exists i, phi_i_check P = Ok i) by (destruct (N6 0%nat a1) as (_ & i & _ & Q & _); [cbn; lia|cbn; rewrite Ea; left; auto|eauto]). destruct Ei as (i & Ei).
    assert (Bb : (g_bcbot P = 0 \/ g_bcbot P = 1)%Z) by (destruct (i_real P i Ei) as [(Q & _)|(Q & _)]; auto). assert (Bt : (g_bctop P = 0 \/ g_bctop P = 1)%Z) by (destruct Epq as [(Q & _)|(Q & _)]; auto).
    assert (Bot : forall m, In m (map (nm J Y P p0 q0) alp) -> at_bottom (nsoil P) (g_bcbot P) m).
    { intros m Hm. apply in_map_iff in Hm. destruct Hm as (a & <- & Ha). apply (nm_bottom J Y P Hd Hs p0 q0 a (Pos a Ha) i Ei). apply (Ev (0, a)); auto. rewrite Pr. apply in_map. auto. }
    split; [auto|]. intros ND c e e' Lc O1 O2.
    assert (Full : forall m, In m (map (nm J Y P p0 q0) alp) -> full (nsoil P) (g_bctop P) (g_bcbot P) m /\ project (nsoil P) m).
    { intros m Hm. destruct (Ms m Hm) as (_ & F1 & F2 & F3 & F4). split; [|auto]. split; [auto|]. split; [auto|]. split; auto. }
    assert (ND' : NoDup (map decay (map (nm J Y P p0 q0) alp))).
    { rewrite map_map. apply NoDup_map_inj; auto. intros x y Hx' Hy' Q. cbn in Q. apply Rsqr_inj; [apply Rlt_le; auto|apply Rlt_le; auto|]. unfold Rsqr. lra. }
    pose proof (best (nsoil P) Hs (g_bctop P) (g_bcbot P) Bt Bb _ c Full ND' Lc) as Best.
    assert (Sm : forall b, smooth (nsoil P) (fun i z => (1 - combination b (map (nm J Y P p0 q0) alp) i z)^2)).
    { intros b. pose proof (comb_smooth (nsoil P) b (map (nm J Y P p0 q0) alp) ltac:(intros m Hm; apply (Ms m Hm))) as C. pose proof (smooth_lin (nsoil P) (fun _ _ => 1) _ 1 (-1) (smooth_const (nsoil P) 1) C) as C2.
      pose proof (smooth_mult (nsoil P) _ _ C2 C2) as C3. intros i0 z Hi. apply (continuous_ext (fun z => (1 * 1 + -1 * combination b (map (nm J Y P p0 q0) alp) i0 z) * (1 * 1 + -1 * combination b (map (nm J Y P p0 q0) alp) i0 z))); [intros x; match goal with |- ?u = ?v => change (@eq R u v) end; ring|]. apply (C3 i0 z Hi). }
    apply (over_depth_integral (nsoil P) _ _ (Sm c)) in O2.
    assert (O1' : over_depth (nsoil P) (weight (nsoil P)) (fun i z => (1 - combination (map amp (map (nm J Y P p0 q0) alp)) (map (nm J Y P p0 q0) alp) i z)^2) e).
    { destruct O1 as (h & O1 & O3). exists h. split; [|auto]. intros i0 Hi. eapply is_RInt_ext; [|apply O1; auto]. intros z _. cbv beta. do 2 f_equal. unfold combination, response. clear.
      induction (map (nm J Y P p0 q0) alp) as [|m ms IH]; [reflexivity|]. unfold total_over in *. cbn [map combine fold_right fst snd]. rewrite IH, Rmult_0_r, exp_0. ring. }
    apply (over_depth_integral (nsoil P) _ _ (Sm _)) in O1'. rewrite O1', O2. exact Best.
Qed.

(** ** C135: what is rejected, what is written *)
(** The tables of average and of point pore pressures hold the values of the attributes; the one named
    settlement holds the average pore pressures again. *)
Theorem C135_tables : forall J Y fsolve P fuel zs ts tpor out, g_make_output J Y fsolve P fuel zs ts tpor = Some (Ok out) ->
  (o_avp out = None <-> ts = None) /\ (o_set out = None <-> ts = None) /\ (o_por out = None <-> tpor = None) /\
  (forall tab, In (data_avp, tab) (o_files out) <-> exists av, o_avp out = Some av /\ tab = column av) /\
  (forall tab, In (data_set, tab) (o_files out) <-> exists av, o_avp out = Some av /\ tab = column av) /\
  (forall tab, In (data_por, tab) (o_files out) <-> exists tp A, tpor = Some tp /\ o_por out = Some A /\
     tab = map (fun j => map (fun k => nth j (nth k A []) 0) (seq 0 (length zs))) (seq 0 (length tp))).
Proof.
  intros J Y fsolve P fuel zs ts tpor out H.
  assert (Q : exists a0 sn alps, g_after J Y P a0 sn alps zs ts tpor = Ok out).
  { unfold g_make_output in H. destruct (negb _); [discriminate|]. destruct (find_sn _ _ _ _ _) as [[sn|]|]; try discriminate. destruct (phia0 P) as [a0|]; [|discriminate]. destruct (Nat.eqb _ 0); [discriminate|].
    destruct sn as [|x sn]; [injection H as H; eauto|]. destruct (phi_i_check P); [|discriminate]. destruct (find_alp _ _ _ _ _ _ _) as [[alps|]|]; try discriminate. injection H as H. eauto. }
  clear H. destruct Q as (a0 & sn & alps & H). unfold g_after in H. cbv zeta in H.
  destruct tpor as [tp|]; [destruct (mapM _ zs) as [A|e]; cbn [bind] in H; [|discriminate]|cbn [bind] in H];
    (destruct ts as [ts'|]; [destruct (mapM (g_avp1 P _) ts'); cbn [bind] in H; [|discriminate]|cbn [bind] in H]; injection H as <-; cbn [o_avp o_set o_por o_files option_map app]).
  all: repeat (match goal with |- _ /\ _ => split end); try (split; intros; discriminate || congruence).
  all: intros tab; cbn [In]; split; intros K.
  all: try (repeat destruct K as [K|K]; try contradiction; try discriminate; injection K as <-; eauto; fail).
  all: try (destruct K as (tp0 & A0 & K1 & K2 & ->); injection K1 as <-; injection K2 as <-; auto; fail).
  all: try (destruct K as (tp0 & A0 & K1 & _); discriminate).
  all: try (destruct K as (av & K1 & ->); injection K1 as <-; auto; fail).
  all: try (destruct K as (av & K1 & _); discriminate).
  all: repeat destruct K as [K|K]; try contradiction; try discriminate; injection K as <-; exists tp, A; auto.
Qed.
(** Layers given with different numbers of values are rejected, and so is asking for nothing. *)
Theorem C135_lengths : forall J Y fsolve P fuel zs ts tpor,
  ~ (length (g_h P) = length (g_kv P) /\ length (g_kv P) = length (g_mv P) /\ forall d, g_drain P = Some d -> length (d_kh d) = length (g_h P)) \/ (ts = None /\ tpor = None) ->
  g_make_output J Y fsolve P fuel zs ts tpor = Some (Err ValueError).
Proof.
  intros J Y fsolve P fuel zs ts tpor H. unfold g_make_output. match goal with |- (if negb ?b then _ else _) = _ => assert (E : b = false); [|rewrite E; reflexivity] end.
  destruct H as [H|[-> ->]]; [|apply andb_false_r]. apply not_true_is_false. intros Q. apply H. apply andb_prop in Q. destruct Q as [Q _]. apply andb_prop in Q. destruct Q as [Q Q3]. apply andb_prop in Q. destruct Q as [Q1 Q2].
  apply Nat.eqb_eq in Q1. apply Nat.eqb_eq in Q2. split; [auto|]. split; [auto|]. intros d E. rewrite E in Q3. apply Nat.eqb_eq in Q3. auto.
Qed.
(** Only 0 and 1 are accepted as conditions at the top and at the bottom. *)
Theorem C135_conditions : forall J Y fsolve P fuel zs ts tpor out, good_search P -> (1 <= g_nh P)%nat -> g_make_output J Y fsolve P fuel zs ts tpor = Some (Ok out) ->
  (g_bctop P = 0 \/ g_bctop P = 1)%Z /\ (g_bcbot P = 0 \/ g_bcbot P = 1)%Z.
Proof.
  intros J Y fsolve P fuel zs ts tpor out Hx Nh H. unfold g_make_output in H. destruct (negb _); [discriminate|]. destruct (find_sn _ _ _ _ _) as [[sn|]|] eqn:E; try discriminate. destruct (phia0 P) as [a0|] eqn:E0; [|discriminate]. destruct (Nat.eqb _ 0); [discriminate|].
  assert (L : length sn = g_nh P). { unfold find_sn in E. unfold g_nh. destruct (g_drain P) as [d|]; [|injection E as <-; reflexivity]. destruct Hx as (X1 & X2 & X3 & _). exact (proj1 (C47_search _ _ _ _ _ _ _ _ _ _ _ X3 X2 E)). }
  destruct sn as [|x sn]; [cbn in L; lia|]. destruct (phi_i_check P) as [i|] eqn:E1; [|discriminate].
  split; [destruct (a0_real P a0 E0) as (p & q & _ & [(Q & _)|(Q & _)]); auto|destruct (i_real P i E1) as [(Q & _)|(Q & _)]; auto].
Qed.
(** A depth below the last layer is an error. *)
Theorem C135_depths : forall J Y fsolve P d fuel zs ts tp out, g_drain P = Some d -> is_ground (the_ground P d) -> good_search P -> (forall f x, 0 < x -> 0 < fsolve f x) ->
  (1 <= g_nh P)%nat -> (1 <= g_nv P)%nat -> tp <> [] -> g_make_output J Y fsolve P fuel zs ts (Some tp) = Some (Ok out) ->
  forall z, In z zs -> z <= depth (nsoil P) (layers (nsoil P)).
Proof.
  intros J Y fsolve P d fuel zs ts tp out Hd Hg Hx Hf Nh Nv Ht H z Hz. pose proof (dHs P d Hg) as Hs.
  destruct (run_numbers J Y fsolve P Hf Hx fuel zs ts (Some tp) out H Hs) as (sn & alps & a0 & N1 & N2 & N3 & N4 & N5 & N6).
  assert (L : length alps = length sn) by apply N1. assert (Ln : length (pairs_of sn alps) = (length sn * g_nv P)%nat) by (apply pairs_len; [auto|intros n Hn; apply N1; auto]).
  unfold g_after in N3. rewrite pairs_terms in N3. cbv zeta in N3. destruct (pairs_of sn alps) as [|p l]; [cbn in Ln; nia|]. destruct (mapM _ zs) as [A|e] eqn:EA; cbn [bind] in N3; [|discriminate].
  apply mapM_Ok_Forall2 in EA. destruct (In_nth zs z 0 Hz) as (k & Hk & Ek). pose proof (Forall2_nth _ _ _ 0 [] EA k Hk) as F. cbv beta in F. rewrite Ek in F.
  destruct tp as [|t tp]; [congruence|]. cbn [mapM] in F. destruct (g_por1 P _ z t) as [v|e] eqn:Ev; cbn [bind] in F; [|discriminate].
  unfold g_por1 in Ev. cbn [map mapM] in Ev. destruct (g_Tm P _ t); cbn [bind] in Ev; [|discriminate]. destruct (Nat.ltb_spec (searchsorted (g_zlayer P) z) (g_layers P)) as [Lt|Lt]; [|discriminate].
  destruct (searchsorted_cumsum (g_h P) 0 z) as (_ & I2 & _). change (cumsum 0 (g_h P)) with (g_zlayer P) in I2.
  assert (LN : length (g_h P) = g_layers P) by (rewrite (gN P Hs); reflexivity). rewrite LN in I2. specialize (I2 Lt). pose proof (gtop P Hs _ Lt) as T. pose proof (gdepth P _ Lt) as D.
  rewrite <- (gN P Hs). eapply Rle_trans; [exact I2|]. apply Rle_trans with (depth (nsoil P) (S (searchsorted (g_zlayer P) z))); [lra|]. apply (depth_mono (as_stein P) Hs); change (nlayers (as_stein P)) with (g_layers P); lia.
Qed.
(** Where the shape would be straight, the function solved is zero though there is no term with that
    wavenumber and decay: one layer, drained at top and bottom. *)
Theorem C135_straight_refuted : forall P d s a a0, g_drain P = Some d -> is_ground (the_ground P d) -> layers (nsoil P) = 1%nat -> g_bctop P = 0%Z -> g_bcbot P = 0%Z -> phia0 P = Ok a0 ->
  0 < s -> 0 < a -> a^2 * at_ (g_mv P) 0 = at_ (d_kh d) 0 * (s / d_r0 d)^2 ->
  vertical_characteristic P a0 false s a = 0 /\ ~ reigen (the_ground P d) (g_bctop P) (g_bcbot P) (s / d_r0 d) (a^2).
Proof.
  intros P d s a a0 Hd Hg N1 Bt Bb E0 Hs0 Ha E. pose proof (dHs P d Hg) as Hs. pose proof (gN P Hs) as NL. unfold phia0 in E0. rewrite Bt in E0. cbn in E0. injection E0 as <-. split.
  - unfold vertical_characteristic. cbv zeta. rewrite NL, N1. cbn [Nat.sub state]. rewrite (g_beta_eq P Hs (dHr P d Hd Hg) a s 0) by (rewrite NL, N1; lia).
    assert (Z : coef P a s 0 = 0) by (rewrite (dcoef P d Hd), E; unfold Rdiv; ring). rewrite Z. unfold transfer. rewrite csqrt_mod0. reflexivity.
  - intros (m & M1 & M2 & _ & M4 & _ & _ & M7 & _ & M9 & (k0 & z0 & r0 & K1 & K2 & K3)).
    cbn [earth the_ground] in *. change (mkSoil (g_h P) (g_kv P) (g_mv P)) with (nsoil P) in *. rewrite N1 in K1. assert (k0 = 0%nat) by lia. subst k0.
    destruct M7 as [M7 _]. specialize (M7 Bt). destruct M9 as [M9 _]. specialize (M9 Bb). rewrite N1 in M9. cbn [Nat.sub] in M9.
    assert (D2 : forall z, is_derive (slope (vert m) 0) z 0).
    { intros z. destruct (M4 0%nat z) as [_ D]; [cbn [earth the_ground]; change (0 < layers (nsoil P))%nat; lia|]. rewrite M1, M2 in D. cbn [earth lateral the_ground comp perm] in D. rewrite E in D.
      replace (- ((at_ (d_kh d) 0 * (s / d_r0 d) ^ 2 - at_ (d_kh d) 0 * (s / d_r0 d) ^ 2) / at_ (g_kv P) 0) * shape (vert m) 0 z) with 0 in D by (unfold Rdiv; ring). exact D. }
    assert (D1 : forall z, is_derive (shape (vert m) 0) z (slope (vert m) 0 z)) by (intros z; apply (M4 0%nat z); cbn [earth the_ground]; change (0 < layers (nsoil P))%nat; lia).
    assert (C : forall z, slope (vert m) 0 z = slope (vert m) 0 0).
    { intros z. destruct (MVT_gen (slope (vert m) 0) 0 z (fun _ => 0)) as (c & _ & Q); [intros; apply D2|intros x _; apply continuity_pt_filterlim, (ex_derive_continuous (V := R_NormedModule)); eexists; apply D2|lra]. }
    assert (L : forall z, shape (vert m) 0 z = slope (vert m) 0 0 * z).
    { intros z. destruct (MVT_gen (shape (vert m) 0) 0 z (slope (vert m) 0)) as (c & _ & Q); [intros; apply D1|intros x _; apply continuity_pt_filterlim, (ex_derive_continuous (V := R_NormedModule)); eexists; apply D1|]. rewrite C in Q. lra. }
    rewrite L in M9. assert (DP : 0 < depth (nsoil P) 1) by (apply (depth_pos (as_stein P) Hs 0%nat); change (nlayers (as_stein P)) with (g_layers P); lia).
    assert (Z : slope (vert m) 0 0 = 0) by (apply Rmult_integral in M9; destruct M9; [auto|lra]). apply K3. rewrite L, Z. ring.
Qed.

(** ** The hypotheses are met: a layer 1/5 thick drained at top and bottom, with a drain or without *)
Definition exN (dr : option drain) (x0 dx : R) : nogami := mkNogami [1/5] [1] [1] dr None 0 0 1 [0; 1] [10; 20] x0 dx 1 (32/10) (26/10) 1 2000.
(** a solver: z for small first guesses, else a zero of the vertical function *)
Definition exfs (z w : R) (f : R -> R) (x : R) : R := if Rltb x 2 then z else sqrt (25 * PI^2 + w^2).
Section Witness.
Variable dr : option drain.
Variables x0 dx z w : R.
Notation P := (exN dr x0 dx).
Hypothesis Hw : 0 <= w <= 1.
Hypothesis Hcoef : forall a, coef P a w 0 = a^2 - w^2.
Hypothesis Hrad : 0 < rad P.
Lemma wP : 3.14 < PI < 3.15.
Proof using. pose proof PI_bounds as [P1 P2]. split; [apply Rlt_trans with 3.1415926535897932; [lra|auto]|apply Rlt_trans with 3.1415926535897933; [auto|lra]]. Qed.
Lemma w_soil : is_soil (nsoil P).
Proof using. split; [cbn; lia|]. split; [reflexivity|]. split; [reflexivity|]. intros i Hi. assert (i = 0%nat) by (cbn in Hi; lia). subst i. unfold at_. cbn. lra. Qed.
Lemma w_load : is_load (g_tim P) (g_mag P) (fun _ => 10).
Proof using.
  split; [intros i Hi; assert (i = 0%nat) by (cbn in Hi; lia); subst i; unfold at_; cbn; lra|]. split; [cbn; lia|]. split; [reflexivity|]. split.
  - intros i Hi. assert (i = 0%nat) by (cbn in Hi; lia). subst i. unfold at_. cbn. lra.
  - intros k v Hk Hv. assert (k = 0%nat) by (cbn in Hk; lia). subst k. unfold at_. cbn. lra.
Qed.
Lemma w_coef a : 1 < a -> forall k, (k < g_layers P)%nat -> coef P a w k <> 0.
Proof using Hw Hcoef. intros Ha k Hk. assert (k = 0%nat) by (cbn in Hk; lia). subst k. rewrite Hcoef. nra. Qed.
Lemma w_char a : 1 < a -> vertical_characteristic P (RtoC 0, RtoC 1) false w a = sin (sqrt (a^2 - w^2) * (1/5)) / sqrt (a^2 - w^2).
Proof using Hw Hcoef Hrad.
  intros Ha. rewrite (char_real P w_soil Hrad a w (w_coef a Ha) 0 1 false). unfold vshape. cbn [g_layers exN g_kv length Nat.sub]. fold (exN dr x0 dx).
  unfold depth. rewrite !total_S, !total_0. unfold at_. cbn [thick nsoil g_h exN nth]. fold (exN dr x0 dx). cbn [rst fst snd].
  rewrite Hcoef. unfold wv, ss. replace (Rltb (a^2 - w^2) 0) with false by (symmetry; apply Rltb_false; nra). replace (0 + 1/5 - 0) with (1/5) by lra. ring.
Qed.
Lemma w_root : 2 < sqrt (25 * PI^2 + w^2).
Proof using Hw. pose proof wP. rewrite <- (sqrt_pow2 2) by lra. apply sqrt_lt_1; nra. Qed.
Lemma w_zero : vertical_characteristic P (RtoC 0, RtoC 1) false w (sqrt (25 * PI^2 + w^2)) = 0.
Proof using Hw Hcoef Hrad.
  pose proof wP. pose proof w_root. rewrite w_char by lra. replace (sqrt (25 * PI^2 + w^2) ^ 2) with (25 * PI^2 + w^2) by (symmetry; apply pow2_sqrt; nra).
  replace (25 * PI^2 + w^2 - w^2) with ((5 * PI)^2) by ring. rewrite sqrt_pow2 by lra. replace (5 * PI * (1/5)) with PI by field. rewrite sin_PI. unfold Rdiv. ring.
Qed.
Lemma w_pos a : 1 < a < 15.7 -> 0 < vertical_characteristic P (RtoC 0, RtoC 1) false w a.
Proof using Hw Hcoef Hrad.
  intros Ha. pose proof wP. rewrite w_char by lra. assert (S0 : 0 < sqrt (a^2 - w^2)) by (apply sqrt_lt_R0; nra). assert (S1 : sqrt (a^2 - w^2) <= 15.7).
  { rewrite <- (sqrt_pow2 15.7) by lra. apply sqrt_le_1_alt. nra. }
  apply Rdiv_lt_0_compat; [apply sin_gt_0; lra|auto].
Qed.
Lemma w_neg a : 16 < a < 17 -> vertical_characteristic P (RtoC 0, RtoC 1) false w a <= 0.
Proof using Hw Hcoef Hrad.
  intros Ha. pose proof wP. rewrite w_char by lra. assert (S0 : 15.8 <= sqrt (a^2 - w^2)) by (rewrite <- (sqrt_pow2 15.8) by lra; apply sqrt_le_1_alt; nra). assert (S1 : sqrt (a^2 - w^2) <= 17).
  { rewrite <- (sqrt_pow2 17) by lra. apply sqrt_le_1_alt. nra. }
  assert (sin (sqrt (a^2 - w^2) * (1/5)) <= 0) by (apply sin_le_0; lra). unfold Rdiv. assert (0 < / sqrt (a^2 - w^2)) by (apply Rinv_0_lt_compat; lra). nra.
Qed.
Lemma small_atol : / 10^8 < 1/20.
Proof using. apply Rlt_trans with (/ 21); [apply Rinv_lt_contravar; [|]; cbn; lra|lra]. Qed.
Lemma w_search off : 0 <= off <= 1/10 -> find_n_roots (vertical_characteristic P (RtoC 0, RtoC 1) false w) (exfs z w (vertical_characteristic P (RtoC 0, RtoC 1) false w)) 1 1 2000 (/ 10^8) (/ 10^5) 8 (32/10 + off) (26/10) =
  Some (Ok [sqrt (25 * PI^2 + w^2)]).
Proof using Hw Hcoef Hrad.
  intros Ho. unfold find_n_roots. pose proof w_root as W2. pose proof small_atol as A0.
  do 4 (rewrite run_next; [|cbn; lia|cbn; lia|apply Rmult_lt_0_compat; apply w_pos; lra]).
  assert (E : forall x, 2 <= x -> exfs z w (vertical_characteristic P (RtoC 0, RtoC 1) false w) x = sqrt (25 * PI^2 + w^2)) by (intros x Hx; unfold exfs; rewrite (proj2 (Rltb_false x 2)) by lra; reflexivity).
  rewrite run_first; [cbv zeta; rewrite run_end by (cbn; lia); rewrite E by lra; reflexivity|cbn; lia|cbn; lia| |lra|rewrite E by lra; rewrite Rabs_pos_eq by lra; lra].
  match goal with |- ?a * ?b <= 0 => assert (0 < a) by (apply w_pos; lra); assert (b <= 0) by (apply w_neg; lra) end. nra.
Qed.
Hypothesis Hlen : match dr with Some d => length (d_kh d) = 1%nat | None => True end.
Hypothesis Hnh : g_nh P = 1%nat.
Variables J Y : nat -> R -> R.
Hypothesis Hsn : find_sn J Y (exfs z w) P 8 = Some (Ok [w]).
Lemma w_run : exists out, g_make_output J Y (exfs z w) P 8 [1/10] (Some [-1; 1/2]) (Some [1/2]) = Some (Ok out) /\ o_sn out = [w] /\ o_alp out = [[sqrt (25 * PI^2 + w^2)]] /\ o_avp out <> o_set out.
Proof using Hw Hcoef Hlen Hrad Hnh Hsn.
  unfold g_make_output. rewrite Hsn. replace (negb _) with false.
  2:{ symmetry. apply negb_false_iff. cbn [g_h g_kv g_mv g_drain exN length Nat.eqb andb]. destruct dr as [d|]; [rewrite Hlen|]; reflexivity. }
  change (phia0 P) with (Ok (A := C * C) (RtoC 0, RtoC 1)). change (Nat.eqb (g_layers P) 0) with false. change (phi_i_check P) with (Ok false). cbv iota.
  cbn [find_alp]. change (g_vx0 P) with (32/10). change (g_vdx P) with (26/10). change (g_vp P) with 1. change (g_nv P) with 1%nat. change (g_max_iter P) with 2000%Z.
  set (off := if Reqb w 0 then Rmin (/ 10^7) (26/10) else 0).
  assert (Ho : 0 <= off <= 1/10).
  { unfold off. assert (T : 0 < / 10^7 < 1/10) by (split; [apply Rinv_0_lt_compat; apply pow_lt; lra|apply Rlt_trans with (/ 11); [apply Rinv_lt_contravar; cbn; lra|lra]]). destruct (Reqb w 0); [|lra].
    split; [apply Rmin_glb; lra|eapply Rle_trans; [apply Rmin_l|lra]]. }
  rewrite (w_search off Ho). set (A := sqrt (25 * PI^2 + w^2)). pose proof w_root as W2. fold A in W2.
  unfold g_after. rewrite pairs_terms. cbv zeta. change (pairs_of [w] [[A]]) with [(w, A)].
  assert (Hp : forall p, In p [(w, A)] -> 0 < snd p /\ forall k, (k < g_layers P)%nat -> coef P (snd p) (fst p) k <> 0) by (intros p [<-|[]]; cbn [fst snd]; split; [lra|apply w_coef; lra]).
  assert (Pq : (0:R) <> 0 \/ (1:R) <> 0) by (right; lra).
  cbn [mapM]. rewrite (por_eq J Y P w_soil Hrad _ w_load 0 1 Pq [(w, A)] Hp).
  2:{ apply (in_layer (as_stein P) w_soil). unfold depth. cbn [nlayers as_stein exN s_kv g_kv length]. rewrite total_S, total_0. unfold at_. cbn. lra. }
  cbn [bind].
  assert (I1 : exists q, interp1 (g_tim P) (g_mag P) false (-1) = Ok q /\ q = 10).
  { destruct (PiecewiseProofs.interp1_ok (g_tim P) (g_mag P) false (-1)) as [q Eq]; [reflexivity|discriminate|]. exists q. split; [auto|].
    destruct (interp1_load_value (g_tim P) (g_mag P) (-1) q) as (_ & V & _); [reflexivity|apply w_load|discriminate|auto|]. rewrite V; unfold at_; cbn; [reflexivity|lra|lra]. }
  destruct I1 as (q & I1 & Q). subst q. destruct (PiecewiseProofs.interp1_ok (g_tim P) (g_mag P) false (1/2)) as [q2 I2]; [reflexivity|discriminate|].
  assert (Ln : length [(w, A)] = (g_nh P * g_nv P)%nat) by (rewrite Hnh; reflexivity).
  rewrite (avp_eq J Y P w_soil Hrad _ w_load 0 1 Pq [(w, A)] Hp _ _ I1 Ln) by (try rewrite Hnh; cbn; lia). cbn [bind].
  rewrite (avp_eq J Y P w_soil Hrad _ w_load 0 1 Pq [(w, A)] Hp _ _ I2 Ln) by (try rewrite Hnh; cbn; lia). cbn [bind].
  eexists. split; [reflexivity|]. split; [reflexivity|]. split; [reflexivity|]. cbn [o_avp o_set option_map map fst snd]. intros Q. injection Q as Q _.
  assert (T0 : gtm P A (-1) = 0).
  { apply (effect_unique _ _ _ _ _ _ _ (proj2 (gtm_ok P _ w_load A (-1) ltac:(lra)))).
    exists 0. split.
    - replace (until (g_tim P) (-1)) with (at_ (g_tim P) 0); [apply (is_RInt_point (V := R_NormedModule))|]. unfold until, at_. cbn. rewrite Rmin_left by lra. rewrite Rmax_left by lra. reflexivity.
    - unfold sum_jumps. cbn. unfold at_. cbn. unfold Rltb, Rleb. repeat (destruct Req_EM_T || destruct Rle_dec || destruct Rlt_dec); try lra. }
  assert (U0 : gi J Y P 0 1 [(w, A)] (g_un J Y P) 0 (-1) = 0) by (unfold gi, total_over; cbn [map fold_right fst snd]; rewrite T0; ring).
  revert Q. cbn [g_layers exN g_kv length]. fold (exN dr x0 dx). rewrite !total_S, !total_0, U0. unfold gmv, gh. cbn. lra.
Qed.
End Witness.
(** a drain for which the radial search meets its first zero at once *)
Lemma drain_numbers J Y T z : 1/20 < z <= 1 -> radial_characteristic J Y (a_drain T) z = 0 -> (forall x, 1/20 <= x < z -> 0 < radial_characteristic J Y (a_drain T) x) ->
  find_sn J Y (exfs z z) (exN (Some (a_drain T)) ((z + 1/20) / 2) ((z - 1/20) / 10)) 8 = Some (Ok [z]).
Proof.
  intros Hz Z Pos. unfold find_sn. cbn [g_drain exN d_nh a_drain g_rp g_max_iter g_rx0 g_rdx]. fold (a_drain T). unfold find_n_roots. pose proof small_atol as A0.
  do 4 (rewrite run_next; [|cbn; lia|cbn; lia|apply Rmult_lt_0_compat; apply Pos; lra]).
  assert (E : forall x f, x < 2 -> exfs z z f x = z) by (intros x f Hx; unfold exfs; rewrite (proj2 (Rltb_true x 2)) by lra; reflexivity).
  rewrite run_first; [cbv zeta; rewrite run_end by (cbn; lia); rewrite E by lra; reflexivity|cbn; lia|cbn; lia| |lra|rewrite E by lra; rewrite Rabs_pos_eq by lra; lra].
  match goal with |- _ * radial_characteristic J Y _ ?b <= 0 => replace b with z by field end. rewrite Z. lra.
Qed.
Lemma exfs_pos z w : 0 < z -> forall f x, 0 < x -> 0 < exfs z w f x.
Proof. intros Hz f x Hx. unfold exfs. destruct (Rltb x 2); [auto|]. apply sqrt_lt_R0. pose proof PI_RGT_0. nra. Qed.
Lemma drain_example : forall J Y, are_bessel J Y -> exists fsolve P d out, g_drain P = Some d /\ is_ground (the_ground P d) /\ good_search P /\ (forall f x, 0 < x -> 0 < fsolve f x) /\ is_load (g_tim P) (g_mag P) (fun _ => 10) /\
  (1 <= d_nh d)%nat /\ (1 <= g_nv P)%nat /\ g_make_output J Y fsolve P 8 [1/10] (Some [-1; 1/2]) (Some [1/2]) = Some (Ok out) /\ never_straight P d (o_sn out) (o_alp out) /\
  exact_radial J Y d (o_sn out) /\ exact_vertical P (o_sn out) (o_alp out) /\ NoDup (pairs_of (o_sn out) (o_alp out)) /\ o_avp out <> o_set out.
Proof.
  intros J Y HB. destruct (radial_zero J Y HB) as (T & z & HT & Hz & Z & Pos). set (P := exN (Some (a_drain T)) ((z + 1/20) / 2) ((z - 1/20) / 10)).
  assert (Hc : forall a, coef P a z 0 = a^2 - z^2). { intros a. unfold coef, lat, rad, gmv, gkv. cbn [g_drain P exN a_drain d_kh d_r0 g_mv g_kv nth]. field. }
  assert (Hg : is_ground (the_ground P (a_drain T))).
  { split; [apply (w_soil (Some (a_drain T)))|]. split; [reflexivity|]. split; [cbn; lra|]. intros i Hi. assert (i = 0%nat) by (cbn in Hi; lia). subst i. unfold at_. cbn. lra. }
  destruct (w_run (Some (a_drain T)) ((z + 1/20) / 2) ((z - 1/20) / 10) z z ltac:(lra) Hc (dHr P (a_drain T) eq_refl Hg) eq_refl eq_refl J Y (drain_numbers J Y T z Hz Z Pos)) as (out & W1 & W2 & W3 & W4).
  exists (exfs z z), P, (a_drain T), out. split; [reflexivity|]. split; [auto|]. split; [unfold good_search; cbn; lra|]. split; [apply exfs_pos; lra|]. split; [apply w_load|]. split; [cbn; lia|]. split; [cbn; lia|]. split; [exact W1|].
  pose proof (w_root z) as W5.
  assert (HR : 0 < rad P) by (unfold rad; cbn; lra).
  rewrite W2, W3. change (pairs_of [z] [[sqrt (25 * PI^2 + z^2)]]) with [(z, sqrt (25 * PI^2 + z^2))]. unfold never_straight, exact_vertical. change (pairs_of [z] [[sqrt (25 * PI^2 + z^2)]]) with [(z, sqrt (25 * PI^2 + z^2))].
  split; [|split; [|split; [|split; [|auto]]]].
  - intros p i [<-|[]] Hi. assert (i = 0%nat) by (cbn in Hi; lia). subst i. unfold at_. cbn [fst snd g_mv P exN nth d_kh a_drain d_r0]. replace (z / 1) with z by field. apply Rgt_not_eq. nra.
  - intros s0 [<-|[]]. auto.
  - intros p a0 i [<-|[]] E0 Ei. cbn in E0, Ei. injection E0 as <-. injection Ei as <-. cbn [fst snd]. apply (w_zero (Some (a_drain T)) _ _ z ltac:(lra) Hc HR).
  - constructor; [intros []|constructor].
Qed.
Example C132_witness : exists J Y fsolve P d out, are_bessel J Y /\ g_drain P = Some d /\ is_ground (the_ground P d) /\ good_search P /\ (forall f x, 0 < x -> 0 < fsolve f x) /\ is_load (g_tim P) (g_mag P) (fun _ => 10) /\
  g_make_output J Y fsolve P 8 [1/10] (Some [-1; 1/2]) (Some [1/2]) = Some (Ok out) /\ never_straight P d (o_sn out) (o_alp out) /\
  exact_radial J Y d (o_sn out) /\ exact_vertical P (o_sn out) (o_alp out) /\ NoDup (pairs_of (o_sn out) (o_alp out)).
Proof.
  pose proof bessel_exist as HB. destruct (drain_example _ _ HB) as (fs & P & d & out & W1 & W2 & W3 & W4 & W5 & W6 & W7 & W8 & W9 & W10 & W11 & W12 & W13).
  do 2 eexists. exists fs, P, d, out. split; [exact HB|]. repeat (match goal with |- _ /\ _ => split end); auto.
Qed.
Example C133_witness : exists J Y fsolve P d out, are_bessel J Y /\ g_drain P = Some d /\ is_ground (the_ground P d) /\ good_search P /\ (forall f x, 0 < x -> 0 < fsolve f x) /\ is_load (g_tim P) (g_mag P) (fun _ => 10) /\
  (1 <= d_nh d)%nat /\ (1 <= g_nv P)%nat /\ g_make_output J Y fsolve P 8 [1/10] (Some [-1; 1/2]) (Some [1/2]) = Some (Ok out) /\ never_straight P d (o_sn out) (o_alp out) /\ exact_radial J Y d (o_sn out).
Proof.
  pose proof bessel_exist as HB. destruct (drain_example _ _ HB) as (fs & P & d & out & W1 & W2 & W3 & W4 & W5 & W6 & W7 & W8 & W9 & W10 & W11 & W12 & W13).
  do 2 eexists. exists fs, P, d, out. split; [exact HB|]. repeat (match goal with |- _ /\ _ => split end); auto.
Qed.
Example C134_witness : exists J Y fsolve P out, g_drain P = None /\ is_soil (nsoil P) /\ good_search P /\ (forall f x, 0 < x -> 0 < fsolve f x) /\ is_load (g_tim P) (g_mag P) (fun _ => 10) /\ (1 <= g_nv P)%nat /\
  g_make_output J Y fsolve P 8 [1/10] (Some [-1; 1/2]) (Some [1/2]) = Some (Ok out) /\ exact_vertical P (o_sn out) (o_alp out).
Proof.
  set (J := fun (_ : nat) (_ : R) => 0). set (P := exN None 1 1).
  assert (Hc : forall a, coef P a 0 0 = a^2 - 0^2). { intros a. unfold coef, lat, rad, gmv, gkv. cbn [g_drain P exN g_mv g_kv nth]. field. }
  assert (HR : 0 < rad P) by (unfold rad; cbn; lra).
  destruct (w_run None 1 1 1 0 ltac:(lra) Hc HR I eq_refl J J eq_refl) as (out & W1 & W2 & W3 & W4).
  exists J, J, (exfs 1 0), P, out. split; [reflexivity|]. split; [apply (w_soil None)|]. split; [unfold good_search; cbn; lra|]. split; [apply exfs_pos; lra|]. split; [apply (w_load None)|]. split; [cbn; lia|]. split; [exact W1|].
  rewrite W2, W3. intros p a0 i Hin E0 Ei. change (pairs_of [0] [[sqrt (25 * PI^2 + 0^2)]]) with [(0, sqrt (25 * PI^2 + 0^2))] in Hin. destruct Hin as [<-|[]].
  cbn in E0, Ei. injection E0 as <-. injection Ei as <-. cbn [fst snd]. apply (w_zero None _ _ 0 ltac:(lra) Hc HR).
Qed.
(** In such a run the settlement table does not hold the settlement. *)
Theorem C135_settlement_table_refuted : forall J Y, are_bessel J Y -> exists fsolve P d out se, g_drain P = Some d /\ is_ground (the_ground P d) /\
  g_make_output J Y fsolve P 8 [1/10] (Some [-1; 1/2]) (Some [1/2]) = Some (Ok out) /\ o_set out = Some se /\ ~ In (data_set, column se) (o_files out).
Proof.
  intros J Y HB. destruct (drain_example _ _ HB) as (fs & P & d & out & W1 & W2 & W3 & W4 & W5 & W6 & W7 & W8 & W9 & W10 & W11 & W12 & W13).
  destruct (C135_tables _ _ _ _ _ _ _ _ _ W8) as (_ & T2 & _ & _ & T5 & _). destruct (o_set out) as [se|] eqn:E; [|destruct T2 as [T2 _]; specialize (T2 eq_refl); discriminate].
  exists fs, P, d, out, se. split; [auto|]. split; [auto|]. split; [auto|]. split; [auto|]. intros Q. apply T5 in Q. destruct Q as (av & Ea & Q). apply W13. rewrite Ea. f_equal. symmetry.
  revert Q. generalize av se. clear. intros a b. revert a. induction b as [|x b IH]; intros [|y a] Q; try discriminate; auto. cbn in Q. injection Q as -> Q. f_equal. apply IH. exact Q.
Qed.
Example C135_witness : exists P d s a a0, g_drain P = Some d /\ is_ground (the_ground P d) /\ layers (nsoil P) = 1%nat /\ g_bctop P = 0%Z /\ g_bcbot P = 0%Z /\ phia0 P = Ok a0 /\
  0 < s /\ 0 < a /\ a^2 * at_ (g_mv P) 0 = at_ (d_kh d) 0 * (s / d_r0 d)^2.
Proof.
  exists (exN (Some (a_drain 2)) 1 1), (a_drain 2), 3, 3, (RtoC 0, RtoC 1). split; [reflexivity|]. split.
  { split; [apply (w_soil (Some (a_drain 2)))|]. split; [reflexivity|]. split; [cbn; lra|]. intros i Hi. assert (i = 0%nat) by (cbn in Hi; lia). subst i. unfold at_. cbn. lra. }
  split; [reflexivity|]. split; [reflexivity|]. split; [reflexivity|]. split; [reflexivity|]. split; [lra|]. split; [lra|]. unfold at_. cbn [g_mv exN nth d_kh a_drain d_r0]. field.
Qed.
