(** * Properties C139-C141: the Yin and Graham soil model, simulations, path independence, compressibility *)
From Coq Require Import Reals List Arith ZArith Bool Lia Lra ClassicalDescription.
From Coquelicot Require Import Coquelicot.
From Verif Require Import Base PiecewiseModel SpecPiecewise SpecPiecewiseApi PiecewiseProofs PiecewiseProofs2 PiecewiseProofs3 PiecewiseProofs4 ConstitutiveModel MeshModel MeshProofs SteinModel YinModel SpecYin YinProofs YinProofs2 PropsYin.
Import ListNotations.
Local Open Scope R_scope.

(** ** C139: constant (or varying) rate simulations *)
(** what a simulation reports, as increments (dt, stress, void ratio) *)
Definition increments (s : simulation) : list (R * R * R) := combine (combine (diff (sim_t s)) (tl (sim_stress s))) (tl (sim_e s)).
(** the reported values x change at the reported rate *)
Definition at_rate (s : simulation) (x : list R) : Prop :=
  length x = length (sim_t s) /\ length (sim_rate s) = length (sim_t s) /\
  forall k, (S k < length (sim_t s))%nat -> at_ x (S k) = at_ x k + at_ (sim_rate s) k * (at_ (sim_t s) (S k) - at_ (sim_t s) k).

Lemma steps_by_stress lp m : forall ss dts o es o', y_steps (fun o s dt => y_e_from_stress m o s (Some dt) None) o (combine ss dts) = Ok (es, o') ->
  perform lp m o (map (fun p => ByStress (snd p) (fst p)) (combine ss dts)) = Ok (combine (combine dts ss) es, o').
Proof.
  induction ss as [|s ss IH]; intros dts o es o' E; [cbn in E; injection E as <- <-; destruct dts; reflexivity|]. destruct dts as [|dt dts]; [cbn in E; injection E as <- <-; reflexivity|].
  cbn [combine y_steps] in E. cbn [combine map perform fst snd]. destruct (y_e_from_stress m o s (Some dt) None) as [[e o1]|]; cbn [bind] in *; [|discriminate]. cbn [fst snd] in *.
  destruct (y_steps _ o1 (combine ss dts)) as [[q o2]|] eqn:Q; cbn [bind] in E; [|discriminate]. injection E as <- <-. rewrite (IH _ _ _ _ Q). reflexivity.
Qed.
Lemma steps_by_void lp m : forall es dts o ss o', y_steps (fun o e dt => y_stress_from_e lp m o e (Some dt)) o (combine es dts) = Ok (ss, o') ->
  perform lp m o (map (fun p => ByVoid (snd p) (fst p)) (combine es dts)) = Ok (combine (combine dts ss) es, o').
Proof.
  induction es as [|e es IH]; intros dts o ss o' E; [cbn in E; injection E as <- <-; destruct dts; reflexivity|]. destruct dts as [|dt dts]; [cbn in E; injection E as <- <-; reflexivity|].
  cbn [combine y_steps] in E. cbn [combine map perform fst snd]. destruct (y_stress_from_e lp m o e (Some dt)) as [[s o1]|]; cbn [bind] in *; [|discriminate]. cbn [fst snd] in *.
  destruct (y_steps _ o1 (combine es dts)) as [[q o2]|] eqn:Q; cbn [bind] in E; [|discriminate]. injection E as <- <-. rewrite (IH _ _ _ _ Q). reflexivity.
Qed.
Lemma y_interp_length ts xs ys rs : y_interp ts xs ys = Ok rs -> length rs = length ts.
Proof. unfold y_interp. destruct (negb _); [discriminate|]. apply mapM_length_ok. Qed.
(** Constant rate of stress: the stress changes at the (interpolated) rate, from the initial stress, and
    the void ratio follows the law from the initial void ratio. *)
Definition no_solver : (R -> R) -> R -> result R := fun _ _ => Err RuntimeError.
Lemma no_solver_exact : exact_solver no_solver. Proof. intros f x0 x E. discriminate. Qed.
Theorem C139_stress_rate : forall m o c tvals rate dx ms sim o', is_clay m -> is_new m o c -> y_CRSS m o tvals rate dx ms = Ok (sim, o') ->
  at_rate sim (sim_stress sim) /\ length (sim_e sim) = length (sim_t sim) /\ hd_error (sim_stress sim) = Some (i_s c) /\ hd_error (sim_e sim) = Some (i_e c) /\
  y_interp (sim_t sim) tvals rate = Ok (sim_rate sim) /\ y_times tvals dx ms = Ok (sim_t sim) /\
  (moving (i_s c) (map without_e (increments sim)) -> history m (i_s c) (i_e c) (increments sim)).
Proof.
  intros m o c tvals rate dx ms sim o' Hm Hn E. pose proof Hn as (_ & _ & _ & _ & _ & _ & _ & _ & Ic). unfold y_CRSS in E. destruct (y_times tvals dx ms) as [ts|] eqn:Et; cbn [bind] in E; [|discriminate]. rewrite Ic in E.
  destruct (y_interp ts tvals rate) as [rs|] eqn:Er; cbn [bind] in E; [|discriminate]. cbv zeta in E. set (ss := y_path (i_s c) rs (diff ts)) in *.
  destruct (y_steps _ o (combine ss (diff ts))) as [[es o2]|] eqn:Es; cbn [bind] in E; [|discriminate]. cbn [fst snd] in E. injection E as <- _. cbn [sim_t sim_stress sim_e sim_rate increments].
  pose proof (y_interp_length _ _ _ _ Er) as Lr. assert (Lt : ts <> []). { intros ->. unfold y_times in Et. destruct (get tvals 0) as [t0|]; cbn [bind] in Et; [|discriminate]. destruct (get_last tvals) as [te|]; cbn [bind] in Et; [|discriminate].
    unfold subdivide_x_into_segments, subdivide_x_y_into_segments in Et. destruct (negb _); [discriminate|]. destruct (get tvals 0); cbn [bind] in Et; [|discriminate]. destruct (get_last tvals); cbn [bind] in Et; [|discriminate]. cbv zeta in Et. destruct (_ && _)%bool; [discriminate|]. cbn [bind fst] in Et. injection Et as Et. symmetry in Et. apply app_cons_not_nil in Et. exact Et. }
  assert (Lt' : (1 <= length ts)%nat) by (destruct ts; [contradiction|cbn [length]; lia]).
  assert (Ls : length ss = (length ts - 1)%nat) by (apply y_path_length; auto).
  repeat (match goal with |- _ /\ _ => split end); auto.
  - unfold at_rate. cbn [sim_t sim_stress sim_e sim_rate length]. split; [lia|]. split; [auto|]. intros k Hk. apply y_path_at; auto.
  - cbn [length]. rewrite (y_steps_length _ _ _ _ _ Es). rewrite combine_length, diff_length. lia.
  - intros M. apply (C137_history no_solver m o c (map (fun p => ByStress (snd p) (fst p)) (combine ss (diff ts))) _ o2 Hm no_solver_exact Hn); auto. cbn [tl increments]. apply steps_by_stress. exact Es.
Qed.
(** Constant rate of strain: the same with the void ratio given and the stress found. *)
Theorem C139_strain_rate : forall lp m o c tvals rate dx ms sim o', is_clay m -> exact_solver lp -> is_new m o c -> y_CRSN lp m o tvals rate dx ms = Ok (sim, o') ->
  at_rate sim (sim_e sim) /\ length (sim_stress sim) = length (sim_t sim) /\ hd_error (sim_stress sim) = Some (i_s c) /\ hd_error (sim_e sim) = Some (i_e c) /\
  y_interp (sim_t sim) tvals rate = Ok (sim_rate sim) /\ y_times tvals dx ms = Ok (sim_t sim) /\
  (moving (i_s c) (map without_e (increments sim)) -> history m (i_s c) (i_e c) (increments sim)).
Proof.
  intros lp m o c tvals rate dx ms sim o' Hm Hx Hn E. pose proof Hn as (_ & _ & _ & _ & _ & _ & _ & _ & Ic). unfold y_CRSN in E. destruct (y_times tvals dx ms) as [ts|] eqn:Et; cbn [bind] in E; [|discriminate]. rewrite Ic in E.
  destruct (y_interp ts tvals rate) as [rs|] eqn:Er; cbn [bind] in E; [|discriminate]. cbv zeta in E. set (es := y_path (i_e c) rs (diff ts)) in *.
  destruct (y_steps _ o (combine es (diff ts))) as [[ss o2]|] eqn:Es; cbn [bind] in E; [|discriminate]. cbn [fst snd] in E. injection E as <- _. cbn [sim_t sim_stress sim_e sim_rate increments].
  pose proof (y_interp_length _ _ _ _ Er) as Lr. assert (Lt : ts <> []). { intros ->. unfold y_times in Et. destruct (get tvals 0) as [t0|]; cbn [bind] in Et; [|discriminate]. destruct (get_last tvals) as [te|]; cbn [bind] in Et; [|discriminate].
    unfold subdivide_x_into_segments, subdivide_x_y_into_segments in Et. destruct (negb _); [discriminate|]. destruct (get tvals 0); cbn [bind] in Et; [|discriminate]. destruct (get_last tvals); cbn [bind] in Et; [|discriminate]. cbv zeta in Et. destruct (_ && _)%bool; [discriminate|]. cbn [bind fst] in Et. injection Et as Et. symmetry in Et. apply app_cons_not_nil in Et. exact Et. }
  assert (Lt' : (1 <= length ts)%nat) by (destruct ts; [contradiction|cbn [length]; lia]).
  assert (Ls : length es = (length ts - 1)%nat) by (apply y_path_length; auto).
  repeat (match goal with |- _ /\ _ => split end); auto.
  - unfold at_rate. cbn [sim_t sim_stress sim_e sim_rate length]. split; [lia|]. split; [auto|]. intros k Hk. apply y_path_at; auto.
  - cbn [length]. rewrite (y_steps_length _ _ _ _ _ Es). rewrite combine_length, diff_length. lia.
  - intros M. apply (C137_history lp m o c (map (fun p => ByVoid (snd p) (fst p)) (combine es (diff ts))) _ o2 Hm Hx Hn); auto. cbn [tl increments]. apply steps_by_void. exact Es.
Qed.
(** A constant rate r that keeps the stress positive: the stress is linear in time, at the times the
    user gave and between; every increment follows the law. *)
Lemma path_const r : forall ts a, at_ (a :: y_path a (repeat r (length ts)) (diff ts)) 0 = a /\ forall k, (k < length ts)%nat -> at_ (a :: y_path a (repeat r (length ts)) (diff ts)) k = a + r * (at_ ts k - at_ ts 0).
Proof.
  intros ts a. split; [reflexivity|]. induction k as [|k IH]; intros Hk; [cbn [at_ nth]; unfold at_; cbn [nth]; ring|]. rewrite y_path_at by (rewrite ?repeat_length; auto). rewrite IH by lia.
  replace (at_ (repeat r (length ts)) k) with r; [ring|]. unfold at_. symmetry. rewrite (nth_indep _ 0 r) by (rewrite repeat_length; lia). apply nth_repeat.
Qed.
Lemma path_moving r : r <> 0 -> forall ts a, rising ts -> (forall k, (k < length ts)%nat -> 0 < a + r * (at_ ts k - at_ ts 0)) -> moving a (combine (diff ts) (y_path a (repeat r (length ts)) (diff ts))).
Proof.
  intros Hr. induction ts as [|t ts IH]; intros a R0 H; [exact Logic.I|]. destruct ts as [|t' ts]; [exact Logic.I|]. destruct R0 as [R0 R1].
  change (moving a ((t' - t, a + r * (t' - t)) :: combine (diff (t' :: ts)) (y_path (a + r * (t' - t)) (repeat r (length (t' :: ts))) (diff (t' :: ts))))).
  split; [lra|]. split; [apply (H 1%nat); cbn [length]; lia|]. split; [intros Q; assert (Z : r * (t' - t) = 0) by lra; apply Rmult_integral in Z; destruct Z; lra|].
  apply IH; auto. intros k Hk. specialize (H (S k) ltac:(cbn [length] in *; lia)). change (at_ (t :: t' :: ts) (S k)) with (at_ (t' :: ts) k) in H. change (at_ (t :: t' :: ts) 0) with t in H. change (at_ (t' :: ts) 0) with t'. lra.
Qed.
Lemma combine_without : forall (dts ss es : list R), (length ss <= length es)%nat -> map without_e (combine (combine dts ss) es) = combine dts ss.
Proof. induction dts as [|d dts IH]; intros ss es H; [reflexivity|]. destruct ss as [|s ss]; [reflexivity|]. destruct es as [|e es]; cbn [length] in H; [lia|]. cbn. rewrite IH by lia. reflexivity. Qed.
Theorem C139_constant_rate : forall m o c tvals rate r dx ms sim o', is_clay m -> is_new m o c ->
  rising tvals -> (2 <= length tvals)%nat -> (forall n, ms = Some n -> (1 <= n)%nat) -> length rate = length tvals -> (forall v, In v rate -> v = r) -> r <> 0 -> 0 < i_s c + r * (at_ tvals (length tvals - 1) - at_ tvals 0) ->
  y_CRSS m o tvals rate dx ms = Ok (sim, o') ->
  (forall k, (k < length (sim_t sim))%nat -> at_ (sim_stress sim) k = i_s c + r * (at_ (sim_t sim) k - at_ tvals 0)) /\ history m (i_s c) (i_e c) (increments sim).
Proof.
  intros m o c tvals rate r dx ms sim o' Hm Hn Ri Le Hms Hl Hr Hr0 Hpos E. pose proof (C139_stress_rate m o c tvals rate dx ms sim o' Hm Hn E) as ((L1 & L2 & A) & Le' & _ & _ & Ei & Et & H).
  destruct (times_ok _ _ _ _ Ri Le Hms Et) as (T1 & T2 & T3 & T4 & T5).
  pose proof Hn as (_ & _ & _ & _ & _ & _ & _ & _ & Ic). destruct (new_state m o c Hm Hn) as [(_ & [P1 _ _ _ _] & _) _].
  unfold y_CRSS in E. rewrite Et, Ic in E. cbn [bind] in E. rewrite (y_interp_const _ tvals rate r) in E by (auto; intros ->; cbn in Le; lia). cbn [bind] in E. cbv zeta in E.
  destruct (y_steps _ o _) as [[es o2]|] eqn:Es; cbn [bind] in E; [|discriminate]. cbn [fst snd] in E. assert (Ss : sim_stress sim = i_s c :: y_path (i_s c) (repeat r (length (sim_t sim))) (diff (sim_t sim))) by (injection E as E _; rewrite <- E at 1; reflexivity).
  assert (Lin : forall k, (k < length (sim_t sim))%nat -> at_ (sim_stress sim) k = i_s c + r * (at_ (sim_t sim) k - at_ (sim_t sim) 0)) by (intros k Hk; rewrite Ss; apply path_const; auto).
  split; [intros k Hk; rewrite <- T3; apply Lin; auto|]. apply H; auto. unfold increments. rewrite combine_without.
  - rewrite Ss. cbn [tl]. apply path_moving; auto. intros k Hk. rewrite T3. assert (B : at_ tvals 0 <= at_ (sim_t sim) k <= at_ tvals (length tvals - 1)) by (apply T5; apply nth_In; auto).
    destruct (Rlt_or_le r 0) as [Q|Q]; [|assert (0 <= r * (at_ (sim_t sim) k - at_ tvals 0)) by (apply Rmult_le_pos; lra); lra].
    assert (r * (at_ tvals (length tvals - 1) - at_ tvals 0) <= r * (at_ (sim_t sim) k - at_ tvals 0)); [|lra]. apply Rmult_le_compat_neg_l; lra.
  - destruct (sim_stress sim) as [|x1 l1], (sim_e sim) as [|x2 l2]; cbn [tl length] in *; lia.
Qed.
(** The keyword method='odeint' gives the same simulation, for a constant rate, times from 0 and exact
    integration. *)
Lemma interp_const_1 x y cm v r : length x = length y -> x <> [] -> (forall w, In w y -> w = r) -> interp1 x y cm v = Ok r.
Proof.
  intros Hl Hx H. assert (Hy : y <> []) by (intros ->; destruct x; [auto|discriminate]). assert (Q : forall i, (i < length y)%nat -> at_ y i = r) by (intros i Hi; apply H, nth_In; auto). assert (Ly : (0 < length y)%nat) by (destruct y; [contradiction|cbn [length]; lia]).
  destruct (segment_containing1_spec x cm v) as [[E _]|(i & E & (Hi & _) & _)].
  - rewrite (interp1_out x y cm v Hl Hx E). destruct (Rltb _ _); f_equal; apply Q; lia.
  - rewrite (interp1_in x y cm v i Hl E Hi). unfold chord. rewrite !Q by lia. f_equal. unfold Rdiv. ring.
Qed.
Lemma rising_nondecr l : rising l -> nondecr l.
Proof. intros H i Hi. apply Rlt_le. apply (rising_at l H). lia. Qed.
Lemma upto_const x y r a t : rising x -> (2 <= length x)%nat -> length x = length y -> (forall w, In w y -> w = r) -> at_ x 0 = 0 -> 0 <= t <= at_ x (length x - 1) -> y_upto a x y t = Ok (a + r * t).
Proof.
  intros Hr Hx Hl H H0 [T1 T2]. assert (Nx : x <> []) by (intros ->; cbn in Hx; lia). unfold y_upto, one. destruct (Rlt_or_le 0 t) as [L|L].
  - destruct (integrate_is_integral x y true (fun _ => r) 0 t Hl (rising_nondecr x Hr) Hx ltac:(lra) L T2) as (J & E & D).
    { intros u _. unfold interp_x_y. rewrite Hl, Nat.eqb_refl. cbn [negb mapM]. rewrite (interp_const_1 x y true u r Hl Nx H). reflexivity. }
    rewrite E. cbn [bind get nth_error]. f_equal. f_equal. rewrite <- (is_RInt_unique _ _ _ _ D). rewrite RInt_const. unfold scal; cbn; unfold mult; cbn. ring.
  - assert (t = 0) by lra. subst t. unfold integrate_x_y_between_xi_xj. rewrite Hl, Nat.eqb_refl. cbn [negb combine mapM fst snd]. unfold integrate1, segments_between1. cbn [fst snd].
    assert (S0 : in_segment x 0 0%nat). { pose proof (rising_at x Hr 0%nat 1%nat ltac:(lia)) as Q. rewrite H0 in Q. split; [lia|]. split; [apply Rlt_not_eq; lra|]. rewrite H0, Rmin_left, Rmax_right by lra. lra. }
    assert (Only : forall i, in_segment x 0 i -> i = 0%nat). { intros i (Hi & _ & B & _). destruct i as [|i]; auto. exfalso. pose proof (rising_at x Hr 0%nat (S i) ltac:(lia)) as Q1. pose proof (rising_at x Hr (S i) (S (S i)) ltac:(lia)) as Q2. rewrite Rmin_left in B by lra. lra. }
    assert (C : forall cm, segment_containing1 x (all_segs x) cm 0 = Ok [0%nat]). { intros cm. destruct (segment_containing1_spec x cm 0) as [[_ N]|(i & E & Si & _)]; [destruct (N _ S0)|]. rewrite (Only i Si) in E. exact E. }
    rewrite !C. cbn [bind Nat.eqb]. rewrite !(interp_const_1 x y _ 0 r Hl Nx H). cbn [bind mapM app sumn get nth_error fold_left nadd nmul nsub nhalf n0 NumR ndiv]. f_equal. unfold sumn. cbn. ring.
Qed.
Lemma last_at (l : list R) : l <> [] -> last l 0 = at_ l (length l - 1). Proof. intros H. symmetry. apply last_get_last. exact H. Qed.
Lemma solution_history m r (e : R -> R) : forall ts a, ts <> [] -> rising ts -> (forall t, hd 0 ts <= t <= last ts 0 -> is_derive e t (law m (a + r * (t - hd 0 ts)) r (e t))) ->
  history m a (e (hd 0 ts)) (combine (combine (diff ts) (y_path a (repeat r (length ts)) (diff ts))) (map e (tl ts))).
Proof.
  induction ts as [|t ts IH]; intros a N R0 D; [contradiction|]. destruct ts as [|t' ts]; [exact Logic.I|]. destruct R0 as [R0 R1].
  change (history m a (e t) ((t' - t, a + r * (t' - t), e t') :: combine (combine (diff (t' :: ts)) (y_path (a + r * (t' - t)) (repeat r (length (t' :: ts))) (diff (t' :: ts)))) (map e (tl (t' :: ts))))).
  change (last (t :: t' :: ts) 0) with (last (t' :: ts) 0) in D. change (hd 0 (t :: t' :: ts)) with t in D.
  assert (Lt : t' <= last (t' :: ts) 0). { rewrite last_at by discriminate. destruct ts as [|u ts]; [cbn; lra|]. apply Rlt_le. apply (rising_at _ R1 0%nat). cbn [length]. lia. }
  split.
  - split; [|intros Q; lra]. intros _. exists (fun u => e (t + u)). replace (a + r * (t' - t) - a) with (r * (t' - t)) by ring. split; [|split; [f_equal; ring|f_equal; ring]].
    intros u Hu. replace ((a + r * (t' - t) - a) / (t' - t)) with r by (field; lra). pose proof (D (t + u) ltac:(lra)) as K. replace (a + r * (t + u - t)) with (a + r * u) in K by ring.
    pose proof (is_derive_comp e (fun u => t + u) u _ 1 K ltac:(auto_derive; auto)) as K2. unfold scal in K2; cbn in K2; unfold mult in K2; cbn in K2. rewrite Rmult_1_l in K2. exact K2.
  - change (e t') with (e (hd 0 (t' :: ts))). apply IH; auto; [discriminate|]. intros u Hu. change (hd 0 (t' :: ts)) with t' in *. replace (a + r * (t' - t) + r * (u - t')) with (a + r * (u - t)) by ring. apply D. lra.
Qed.
Definition exact_odeint (oi : (R -> R -> result R) -> R -> list R -> result (list R)) : Prop := forall f x0 ts xs, oi f x0 ts = Ok xs -> solves f x0 ts xs.
Lemma mapM_ok {A B} (f : A -> result B) (g : A -> B) l : (forall x, In x l -> f x = Ok (g x)) -> mapM f l = Ok (map g l).
Proof. induction l as [|a l IH]; intros H; auto. cbn. rewrite H by (left; auto). cbn [bind]. rewrite IH by (intros; apply H; right; auto). reflexivity. Qed.
Lemma combine_inj2 : forall (l1 : list (R * R)) (a b : list R), length a = length l1 -> length b = length l1 -> combine l1 a = combine l1 b -> a = b.
Proof. induction l1 as [|x l1 IH]; intros a b H1 H2 E; destruct a, b; cbn in *; try discriminate; auto. injection E as -> E. f_equal. apply IH; auto. Qed.
Theorem C139_methods_agree : forall oi m o c tvals rate r dx ms sim sim' o', is_clay m -> exact_odeint oi -> is_new m o c ->
  rising tvals -> (2 <= length tvals)%nat -> (forall n, ms = Some n -> (1 <= n)%nat) -> length rate = length tvals -> (forall v, In v rate -> v = r) -> r <> 0 -> at_ tvals 0 = 0 -> 0 < i_s c + r * at_ tvals (length tvals - 1) ->
  y_CRSS m o tvals rate dx ms = Ok (sim, o') -> y_CRSS_ode oi m o tvals rate dx ms = Ok sim' -> sim' = sim.
Proof.
  intros oi m o c tvals rate r dx ms sim sim' o' Hm Hx Hn Ri Le Hms Hl Hr Hr0 H0 Hpos E E'. assert (Nt : tvals <> []) by (intros ->; cbn in Le; lia).
  destruct (C139_constant_rate m o c tvals rate r dx ms sim o' Hm Hn Ri Le Hms Hl Hr Hr0 ltac:(rewrite H0, Rminus_0_r; exact Hpos) E) as [Lin His].
  pose proof (C139_stress_rate m o c tvals rate dx ms sim o' Hm Hn E) as ((L1 & L2 & A) & Le' & Hd1 & Hd2 & Ei & Et & _).
  destruct (times_ok _ _ _ _ Ri Le Hms Et) as (T1 & T2 & T3 & T4 & T5). pose proof Hn as (_ & _ & _ & _ & _ & _ & _ & _ & Ic). destruct (new_state m o c Hm Hn) as [(_ & [P1 _ _ _ _] & _) _].
  set (ts := sim_t sim) in *. assert (Nts : ts <> []) by (intros Q; rewrite Q in T2; cbn in T2; lia).
  unfold y_CRSS_ode in E'. rewrite Et, Ic in E'. cbn [bind] in E'. destruct (oi _ (i_e c) ts) as [es|] eqn:O; cbn [bind] in E'; [|discriminate]. rewrite Ei in E'. cbn [bind] in E'.
  assert (U : forall t, 0 <= t <= at_ tvals (length tvals - 1) -> y_upto (i_s c) tvals rate t = Ok (i_s c + r * t)) by (intros t Ht; apply upto_const; auto).
  rewrite (mapM_ok _ (fun t => i_s c + r * t)) in E' by (intros t Ht; apply U; specialize (T5 t Ht); lra). cbn [bind] in E'. injection E' as <-.
  assert (Ss : sim_stress sim = map (fun t => i_s c + r * t) ts). { apply (nth_ext _ _ 0 0); [rewrite map_length; auto|]. intros k Hk. change (nth k (sim_stress sim) 0) with (at_ (sim_stress sim) k). rewrite Lin by lia. rewrite H0. rewrite (nth_indep _ 0 (i_s c + r * 0)) by (rewrite map_length; lia). rewrite (map_nth (fun t => i_s c + r * t)). unfold at_. fold ts. ring. }
  rewrite <- Ss. apply Hx in O. destruct O as (e & D & D0 & ->).
  assert (Hd : hd 0 ts = 0) by (rewrite <- H0, <- T3; destruct ts; reflexivity). rewrite Hd in D, D0. assert (La : last ts 0 = at_ tvals (length tvals - 1)) by (rewrite last_at by auto; exact T4).
  assert (D' : forall t, hd 0 ts <= t <= last ts 0 -> is_derive e t (law m (i_s c + r * (t - hd 0 ts)) r (e t))).
  { rewrite Hd, La. intros t Ht. rewrite Rminus_0_r. rewrite La in D. destruct (D t Ht) as (v & V1 & V2). unfold y_rate, one in V1. rewrite (y_interp_const _ tvals rate r) in V1 by auto. cbn [bind length repeat get nth_error] in V1. rewrite U in V1 by auto. cbn [bind] in V1. injection V1 as <-. exact V2. }
  assert (Ip : tl (sim_stress sim) = y_path (i_s c) (repeat r (length ts)) (diff ts)). { unfold y_CRSS in E. rewrite Et, Ic in E. cbn [bind] in E. fold ts in E. rewrite (y_interp_const ts tvals rate r) in E by auto. cbn [bind] in E. cbv zeta in E. destruct (y_steps _ o _) as [[es o2]|]; cbn [bind] in E; [|discriminate]. injection E as E _. rewrite <- E. reflexivity. }
  pose proof (solution_history m r e ts (i_s c) Nts T1 D') as His'. rewrite Hd, D0 in His'. rewrite <- Ip in His'.
  assert (Lp : length (tl (sim_stress sim)) = (length ts - 1)%nat) by (rewrite Ip; apply y_path_length; apply repeat_length).
  assert (Lte : forall l : list R, length (tl l) = (length l - 1)%nat) by (intros [|x l]; cbn [tl length]; lia).
  assert (Mv : moving (i_s c) (map without_e (increments sim))). { unfold increments. rewrite combine_without by (rewrite !Lte; lia). fold ts. rewrite Ip. apply path_moving; auto. intros k Hk. assert (B : at_ tvals 0 <= at_ ts k <= at_ tvals (length tvals - 1)) by (apply T5, nth_In; auto). rewrite T3, H0 in *. 
    destruct (Rlt_or_le r 0) as [Q|Q]; [|assert (0 <= r * (at_ ts k - 0)) by (apply Rmult_le_pos; lra); lra]. assert (r * at_ tvals (length tvals - 1) <= r * (at_ ts k - 0)); [|lra]. apply Rmult_le_compat_neg_l; lra. }
  assert (Eq : increments sim = combine (combine (diff ts) (tl (sim_stress sim))) (map e (tl ts))). { apply (C137_determined m (i_s c) (i_e c)); auto. unfold increments. fold ts. rewrite !combine_without; auto; rewrite ?map_length, !Lte; lia. }
  unfold increments in Eq. fold ts in Eq. apply combine_inj2 in Eq; [|rewrite combine_length, diff_length, !Lte; lia|rewrite combine_length, map_length, diff_length, !Lte; lia].
  destruct sim as [st ss es rs]. cbn [sim_t sim_stress sim_e sim_rate] in *. subst ts. destruct es as [|e0 es]; [discriminate|]. cbn [hd_error tl] in *. injection Hd2 as ->. destruct st as [|t st]; [contradiction|]. cbn [map tl hd] in *. subst t. rewrite D0, <- Eq. reflexivity.
Qed.
(** Constant rate of strain with method='odeint': the void ratio is linear in time and the stress is such
    that the law gives this rate. *)
Theorem C139_strain_odeint : forall oi m o c tvals rate r dx ms sim, is_clay m -> exact_odeint oi -> is_new m o c ->
  rising tvals -> (2 <= length tvals)%nat -> (forall n, ms = Some n -> (1 <= n)%nat) -> length rate = length tvals -> (forall v, In v rate -> v = r) -> at_ tvals 0 = 0 ->
  y_CRSN_ode oi m o tvals rate dx ms = Ok sim ->
  y_times tvals dx ms = Ok (sim_t sim) /\ sim_e sim = map (fun t => i_e c + r * t) (sim_t sim) /\ sim_rate sim = map (fun _ => r) (sim_t sim) /\
  exists s, sim_stress sim = map s (sim_t sim) /\ s 0 = i_s c /\ forall t, 0 <= t <= at_ tvals (length tvals - 1) -> 0 < s t -> exists s', is_derive s t s' /\ law m (s t) s' (i_e c + r * t) = r.
Proof.
  intros oi m o c tvals rate r dx ms sim Hm Hx Hn Ri Le Hms Hl Hr H0 E. assert (Nt : tvals <> []) by (intros ->; cbn in Le; lia). pose proof Hn as (_ & _ & _ & _ & _ & _ & _ & _ & Ic).
  unfold y_CRSN_ode in E. destruct (y_times tvals dx ms) as [ts|] eqn:Et; cbn [bind] in E; [|discriminate]. rewrite Ic in E. destruct (oi _ (i_s c) ts) as [ss|] eqn:O; cbn [bind] in E; [|discriminate].
  destruct (times_ok _ _ _ _ Ri Le Hms Et) as (T1 & T2 & T3 & T4 & T5). assert (Nts : ts <> []) by (intros Q; rewrite Q in T2; cbn in T2; lia).
  rewrite (y_interp_const ts tvals rate r) in E by auto. cbn [bind] in E.
  assert (U : forall t, 0 <= t <= at_ tvals (length tvals - 1) -> y_upto (i_e c) tvals rate t = Ok (i_e c + r * t)) by (intros t Ht; apply upto_const; auto).
  rewrite (mapM_ok _ (fun t => i_e c + r * t)) in E by (intros t Ht; apply U; specialize (T5 t Ht); lra). cbn [bind] in E. injection E as <-. cbn [sim_t sim_e sim_stress sim_rate].
  split; [reflexivity|]. split; [reflexivity|]. split; [clear; induction ts as [|a ts IH]; cbn; [reflexivity|rewrite IH; reflexivity]|].
  apply Hx in O. destruct O as (s & D & D0 & ->). assert (Hd : hd 0 ts = 0) by (rewrite <- H0, <- T3; destruct ts; reflexivity). assert (La : last ts 0 = at_ tvals (length tvals - 1)) by (rewrite last_at by auto; exact T4). rewrite Hd in D, D0. rewrite La in D.
  exists s. split; [reflexivity|]. split; [exact D0|]. intros t Ht Hs. destruct (D t Ht) as (v & V1 & V2). exists v. split; [exact V2|]. unfold y_rate, one in V1. rewrite (y_interp_const [t] tvals rate r) in V1 by auto. cbn [bind length repeat get nth_error] in V1. rewrite U in V1 by auto. cbn [bind] in V1. injection V1 as <-.
  unfold law, ode_CRSN, ppow. pose proof (hk m Hm). pose proof (ht m Hm). field. repeat (match goal with |- _ /\ _ => split end); apply Rgt_not_eq; lra.
Qed.
(** After a simulation the creep is put back: an instant change of stress starts from the initial state. *)
Theorem C139_put_back : forall lp m o c tvals rate dx ms sim o', is_clay m -> is_new m o c -> y_CRSS m o tvals rate dx ms = Ok (sim, o') \/ y_CRSN lp m o tvals rate dx ms = Ok (sim, o') ->
  forall s, s <> last (sim_stress sim) 0 -> exists o2, y_e_from_stress m o' s (Some 0) None = Ok (i_e c - y_kap m * ln (s / i_s c), o2).
Proof.
  intros lp m o c tvals rate dx ms sim o' Hm Hn E s Hs. pose proof Hn as (_ & _ & _ & _ & _ & _ & _ & _ & Ic). destruct (new_state m o c Hm Hn) as [_ Eo].
  assert (K : y_ic o' = Some c /\ y_igral o' = 0 /\ y_estress o' = last (sim_stress sim) 0).
  { destruct E as [E|E].
    - unfold y_CRSS in E. destruct (y_times tvals dx ms) as [ts|]; cbn [bind] in E; [|discriminate]. rewrite Ic in E. destruct (y_interp ts tvals rate) as [rs|]; cbn [bind] in E; [|discriminate]. cbv zeta in E.
      set (ss := y_path (i_s c) rs (diff ts)) in *. destruct (y_steps _ o _) as [[es o2]|] eqn:Es; cbn [bind] in E; [|discriminate]. injection E as <- <-. cbn [y_ic y_igral y_estress sim_stress snd].
      assert (G : forall l o es o2, y_ic o = Some c -> y_steps (fun o s dt => y_e_from_stress m o s (Some dt) None) o l = Ok (es, o2) -> y_ic o2 = Some c /\ y_estress o2 = last (map fst l) (y_estress o)).
      { clear. induction l as [|[v dt] l IH]; intros o es o2 I0 E; cbn [y_steps] in E; [injection E as _ <-; auto|]. unfold y_e_from_stress in E at 1. rewrite I0 in E. cbn [bind fst snd] in E. destruct (y_steps _ _ l) as [[q o3]|] eqn:Q; cbn [bind] in E; [|discriminate]. injection E as _ <-. cbn [snd]. apply IH in Q; [|reflexivity]. cbn [y_estress] in Q. cbn [map fst]. rewrite last_of_cons. exact Q. }
      destruct (G _ _ _ _ Ic Es) as [G1 G2]. split; [exact G1|]. rewrite Eo at 1. split; [reflexivity|]. rewrite G2, last_of_cons, Eo. cbn [y_estress]. f_equal.
      assert (F : forall (a b : list R), (length a <= length b)%nat -> map fst (combine a b) = a) by (induction a as [|x a IHa]; intros [|y b] H; cbn in *; try lia; auto; f_equal; apply IHa; lia). apply F. unfold ss, y_path. rewrite cumsum_length, map_length, combine_length. lia.
    - unfold y_CRSN in E. destruct (y_times tvals dx ms) as [ts|]; cbn [bind] in E; [|discriminate]. rewrite Ic in E. destruct (y_interp ts tvals rate) as [rs|]; cbn [bind] in E; [|discriminate]. cbv zeta in E.
      destruct (y_steps _ o _) as [[ss o2]|] eqn:Es; cbn [bind] in E; [|discriminate]. injection E as <- <-. cbn [y_ic y_igral y_estress sim_stress snd fst].
      assert (G : forall l o ss o2, y_ic o = Some c -> y_steps (fun o e dt => y_stress_from_e lp m o e (Some dt)) o l = Ok (ss, o2) -> y_ic o2 = Some c /\ y_estress o2 = last ss (y_estress o)).
      { clear. induction l as [|[v dt] l IH]; intros o ss o2 I0 E; cbn [y_steps] in E; [injection E as <- <-; auto|]. unfold y_stress_from_e in E at 1. rewrite I0 in E. cbv zeta in E. destruct (lp _ _) as [x|]; cbn [bind fst snd] in E; [|discriminate]. destruct (y_steps _ _ l) as [[q o3]|] eqn:Q; cbn [bind] in E; [|discriminate]. injection E as <- <-. cbn [snd fst]. apply IH in Q; [|reflexivity]. cbn [y_estress] in Q. rewrite last_of_cons. exact Q. }
      destruct (G _ _ _ _ Ic Es) as [G1 G2]. split; [exact G1|]. rewrite Eo at 1. split; [reflexivity|]. rewrite G2, last_of_cons, Eo. reflexivity. }
  destruct K as (K1 & K2 & K3). unfold y_e_from_stress. rewrite K1, K2, K3, inc_instant by auto. eexists. f_equal. apply f_equal2; [|reflexivity]. rewrite !Rplus_0_l, ln_1. ring.
Qed.
(** If the times do not start at 0 the two differ: with method='odeint' the stress never changes, whatever
    the rate. *)
Theorem C139_origin_refuted : forall oi m o c tvals rate dx ms sim, is_clay m -> is_new m o c -> rising tvals -> (2 <= length tvals)%nat -> length rate = length tvals -> 0 < at_ tvals 0 ->
  y_CRSS_ode oi m o tvals rate dx ms = Ok sim -> forall s, In s (sim_stress sim) -> s = i_s c.
Proof.
  intros oi m o c tvals rate dx ms sim Hm Hn Ri Le Hl H0 E. pose proof Hn as (_ & _ & _ & _ & _ & _ & _ & _ & Ic). assert (Nt : tvals <> []) by (intros ->; cbn in Le; lia).
  assert (U : forall t, y_upto (i_s c) tvals rate t = Ok (i_s c)).
  { intros t. unfold y_upto, one, integrate_x_y_between_xi_xj. rewrite Hl, Nat.eqb_refl. cbn [negb combine mapM fst snd]. unfold integrate1, segments_between1.
    destruct (segment_containing1_spec tvals true 0) as [[E1 _]|(i & _ & (Hi & _ & B & _) & _)].
    - rewrite E1. cbn [bind]. destruct (segment_containing1_spec tvals false t) as [[E2 _]|(j & E2 & _)]; rewrite E2; cbn [bind]; destruct (interp_fun_exists tvals rate true (eq_sym Hl) Nt) as [f Hf]; destruct (interp_fun_exists tvals rate false (eq_sym Hl) Nt) as [g Hg]; rewrite Hf, Hg; cbn [bind mapM app sumn get nth_error]; f_equal; unfold sumn; cbn; ring.
    - exfalso. assert (Q : forall k, (k < length tvals)%nat -> 0 < at_ tvals k) by (intros [|k] Hk; [auto|]; apply Rlt_trans with (at_ tvals 0); auto; apply (rising_at _ Ri); lia).
      pose proof (rising_at tvals Ri i (S i) ltac:(lia)) as Q2. rewrite Rmin_left in B by lra. specialize (Q i ltac:(lia)). lra. }
  unfold y_CRSS_ode in E. destruct (y_times tvals dx ms) as [ts|]; cbn [bind] in E; [|discriminate]. rewrite Ic in E. destruct (oi _ _ ts) as [es|]; cbn [bind] in E; [|discriminate]. destruct (y_interp ts tvals rate) as [rs|]; cbn [bind] in E; [|discriminate].
  rewrite (mapM_const _ _ (i_s c)) in E by exact U. cbn [bind] in E. injection E as <-. cbn [sim_stress]. intros s Hs. apply repeat_spec in Hs. exact Hs.
Qed.

(** ** C140: the state is the stress and the void ratio *)
(** Two histories, even from different initial conditions, that have come to the same stress and void
    ratio have the same future. *)
Theorem C140_stress : forall lp m o o' s e s2 dt, is_clay m -> exact_solver lp -> reached lp m o s e -> reached lp m o' s e -> 0 < s2 -> s2 <> s -> 0 <= dt ->
  exists e2 o2 o2', y_e_from_stress m o s2 (Some dt) None = Ok (e2, o2) /\ y_e_from_stress m o' s2 (Some dt) None = Ok (e2, o2').
Proof.
  intros lp m o o' s e s2 dt Hm Hx Hr Hr' Hs Hn Hd. destruct (reached_state lp m o s e Hm Hx Hr) as (c & A). destruct (reached_state lp m o' s e Hm Hx Hr') as (c' & A').
  destruct (stress_act m o c s e s2 dt Hm A Hs Hn Hd) as (o2 & e2 & B1 & _ & B2 & _). destruct (stress_act m o' c' s e s2 dt Hm A' Hs Hn Hd) as (o2' & e2' & B1' & _ & B2' & _). destruct A as (_ & _ & _ & P & _).
  pose proof (step_unique m Hm s e dt s2 e2 e2' P Hs Hd B2 B2') as ->. eauto.
Qed.
Lemma step_falls m o c s e dt s2 e2 s2' e2' : is_clay m -> at_state m o c s e -> 0 <= dt -> 0 < s2 < s2' -> s2 <> s -> s2' <> s -> step m s e dt s2 e2 -> step m s e dt s2' e2' -> e2' < e2.
Proof.
  intros Hm A Hd [H1 H2] N N' S1 S2. destruct (stress_act m o c s e s2 dt Hm A H1 N Hd) as (o2 & x & _ & (_ & _ & _ & _ & G1 & G2) & B2 & B3). destruct (stress_act m o c s e s2' dt Hm A ltac:(lra) N' Hd) as (o2' & x' & _ & (_ & _ & _ & _ & G1' & G2') & B2' & B3').
  destruct A as (A1 & A2 & A3 & A4 & A5 & A6). pose proof A2 as [P1 P2 P3 _ _]. pose proof (step_unique m Hm s e dt s2 e2 x A4 H1 Hd S1 B2) as ->. pose proof (step_unique m Hm s e dt s2' e2' x' A4 ltac:(lra) Hd S2 B2') as ->.
  rewrite G2, G2'. apply (cur_mono m Hm); auto. rewrite B3, B3'. apply Rplus_le_compat_l. apply (inc_mono m Hm); auto; lra.
Qed.
Theorem C140_void : forall lp m o o' s e e2 dt s2 o2 s2' o2', is_clay m -> exact_solver lp -> reached lp m o s e -> reached lp m o' s e -> 0 <= dt ->
  y_stress_from_e lp m o e2 (Some dt) = Ok (s2, o2) -> y_stress_from_e lp m o' e2 (Some dt) = Ok (s2', o2') -> s2 <> s -> s2' <> s -> s2 = s2'.
Proof.
  intros lp m o o' s e e2 dt s2 o2 s2' o2' Hm Hx Hr Hr' Hd E E' N N'. destruct (reached_state lp m o s e Hm Hx Hr) as (c & A). destruct (reached_state lp m o' s e Hm Hx Hr') as (c' & A').
  destruct (void_act lp m o c s e e2 dt s2 o2 Hm Hx A Hd E N) as ((_ & _ & _ & P & _) & S1 & _). destruct (void_act lp m o' c' s e e2 dt s2' o2' Hm Hx A' Hd E' N') as ((_ & _ & _ & P' & _) & S2 & _).
  destruct (Rtotal_order s2 s2') as [L|[L|L]]; auto; exfalso.
  - pose proof (step_falls m o c s e dt s2 e2 s2' e2 Hm A Hd ltac:(lra) N N' S1 S2). lra.
  - pose proof (step_falls m o c s e dt s2' e2 s2 e2 Hm A Hd ltac:(lra) N' N S2 S1). lra.
Qed.

(** ** C141: compressibility *)
(** With a positive rate r of stress the compressibility is that of the law: de = - av ds; without a rate
    it is that of instant compression. *)
Lemma av_law m o c s e r : is_clay m -> at_state m o c s e -> 0 < Rabs r -> y_av_from_stress m o s (Some r) = Ok (y_kap m / s + (- law m s 0 e) / Rabs r).
Proof.
  intros Hm (A1 & A2 & A3 & A4 & A5 & A6) Hr. unfold y_av_from_stress. rewrite A1. f_equal. rewrite (law_ln m Hm) by auto. rewrite A6, (creep m Hm c s (y_igral o) A2 A4 ltac:(lra)). destruct A2 as [P1 P2 P3 _ _].
  unfold Rdiv. rewrite Rmult_0_r, Rmult_0_l. pose proof (ht m Hm); pose proof (hp m Hm); field. repeat (match goal with |- _ /\ _ => split end); apply Rgt_not_eq; lra.
Qed.
Theorem C141_rate : forall lp m o s e r, is_clay m -> exact_solver lp -> reached lp m o s e -> 0 < r -> exists av, y_av_from_stress m o s (Some r) = Ok av /\ law m s r e = - av * r.
Proof.
  intros lp m o s e r Hm Hx Hr Hp. destruct (reached_state lp m o s e Hm Hx Hr) as (c & A). eexists. split; [apply (av_law m o c s e r Hm A); rewrite Rabs_pos_eq; lra|]. rewrite Rabs_pos_eq by lra.
  assert (P : 0 < s) by apply A. rewrite !(law_ln m Hm) by auto. unfold Rdiv. rewrite Rmult_0_r, Rmult_0_l. pose proof (ht m Hm); pose proof (hp m Hm); field. repeat (match goal with |- _ /\ _ => split end); apply Rgt_not_eq; lra.
Qed.
Theorem C141_instant : forall m o s, y_av_from_stress m o s None = Ok (y_kap m / s) /\ forall e, 0 < s -> is_derive (fun x => e - y_kap m * ln (x / s)) s (- (y_kap m / s)).
Proof.
  intros m o s. split; [reflexivity|]. intros e Hs. auto_derive; [apply quot_pos; auto|field; lra].
Qed.
(** While the stress falls the creep has the wrong sign (the absolute value of the rate is used). *)
Theorem C141_unloading_refuted : forall lp m o s e r, is_clay m -> exact_solver lp -> reached lp m o s e -> r < 0 -> exists av, y_av_from_stress m o s (Some r) = Ok av /\ law m s r e <> - av * r.
Proof.
  intros lp m o s e r Hm Hx Hr Hp. destruct (reached_state lp m o s e Hm Hx Hr) as (c & A). eexists. split; [apply (av_law m o c s e r Hm A); rewrite Rabs_left; lra|]. rewrite Rabs_left by lra.
  assert (P : 0 < s) by apply A. rewrite !(law_ln m Hm) by auto. intros Q. assert (K : 0 < y_psi m / y_ta m * exp ((e - y_ea m + y_lam m * (ln s - ln (y_siga m))) / y_psi m)) by (apply Rmult_lt_0_compat; [apply quot_pos; [apply (hp m Hm)|apply (ht m Hm)]|apply exp_pos]).
  set (W := y_psi m / y_ta m * _) in *. replace (- (y_kap m / s + - (- y_kap m * 0 / s - W) / - r) * r) with (- y_kap m * r / s + W) in Q by (field; split; lra). lra.
Qed.

(** ** Concrete cases *)
Definition ex_clay : clay := mkClay (1/20) (1/25) (1/100) 20 1 1.
Lemma ex_is_clay : is_clay ex_clay. Proof. unfold is_clay, ex_clay; cbn [y_lam y_kap y_psi y_siga y_ta]. repeat (match goal with |- _ /\ _ => split end); lra. Qed.
Lemma ex_alpha : y_alpha ex_clay = 1. Proof. unfold y_alpha, ex_clay; cbn [y_lam y_kap y_psi]. field. Qed.
Definition ex_e : R := 1 - 1/20 * ln (10/20) + 1/25 * ln (10/10).
Definition ex_c : initial := mkInit ex_e 10 10 (ppow (10/10) (y_alpha ex_clay) * 1).
Definition ex_o : yobject := mkY (Some ex_c) 0 10.
Lemma ex_t : i_t ex_c = 1. Proof. cbn [i_t ex_c]. unfold ppow, Rpower. replace (10/10) with 1 by field. rewrite ln_1, Rmult_0_r, exp_0. ring. Qed.
Lemma ex_new : is_new ex_clay ex_o ex_c.
Proof. exists None, (Some 10), (Some 10), None. repeat (match goal with |- _ /\ _ => split end); try (intros v Q; injection Q as <-; lra); try (intros v Q; discriminate); reflexivity. Qed.
Lemma sq x : 0 < x -> ppow x (1 + 1) = x * x. Proof. intros H. unfold ppow. rewrite Rpower_plus, Rpower_1 by auto. reflexivity. Qed.
(** from 10 to s: the increment of the example clay *)
Lemma ex_inc a s dt : 0 < a -> 0 < s -> s <> a -> y_inc ex_clay ex_c a s dt = dt * (a + s) / 20.
Proof.
  intros Ha Hs Hn. unfold y_inc. replace (Reqb s a) with false by (symmetry; apply Reqb_false; auto). rewrite ex_t, ex_alpha. cbn [i_s ex_c]. rewrite !sq by (apply quot_pos; lra). field. lra.
Qed.
(** C136, C137: a history of an increment of stress and one of void ratio, with an exact solver *)
Definition ex_solver : (R -> R) -> R -> result R := fun f _ => if Req_EM_T (f 30) 30 then Ok 30 else Err RuntimeError.
Lemma ex_solver_exact : exact_solver ex_solver. Proof. intros f x0 x E. unfold ex_solver in E. destruct (Req_EM_T (f 30) 30) as [Q|]; [|discriminate]. injection E as <-. exact Q. Qed.
Definition ex_e2 : R := cur ex_clay ex_c 30 (3/2 + 5).
Definition ex_tr : list (R * R * R) := [(1, 20, cur ex_clay ex_c 20 (0 + 3/2)); (2, 30, ex_e2)].
Example C137_witness : perform ex_solver ex_clay ex_o [ByStress 1 20; ByVoid 2 ex_e2] = Ok (ex_tr, mkY (Some ex_c) (0 + 3/2 + 5) 30) /\ moving (i_s ex_c) (map without_e ex_tr).
Proof.
  split.
  - cbn [perform]. unfold y_e_from_stress. cbn [y_ic y_igral y_estress ex_o]. rewrite (ex_inc 10 20 1) by lra. replace (1 * (10 + 20) / 20) with (3/2) by field. cbn [bind fst snd]. unfold y_stress_from_e. cbn [y_ic y_igral y_estress]. cbv zeta.
    assert (F : y_fn ex_clay ex_c (0 + 3/2) 20 ex_e2 2 30 = 30).
    { pose proof (fn_cur ex_clay ex_is_clay ex_c (0 + 3/2) 20 ex_e2 2 30 ltac:(cbn; lra)) as Q. pose proof (fn_pos ex_clay ex_c (0 + 3/2) 20 ex_e2 2 30 ltac:(cbn; lra)) as P. rewrite (ex_inc 20 30 2) in Q by lra. replace (0 + 3/2 + 2 * (20 + 30) / 20) with (3/2 + 5) in Q by field. unfold ex_e2 in Q at 2.
      destruct (Rtotal_order (y_fn ex_clay ex_c (0 + 3/2) 20 ex_e2 2 30) 30) as [L|[L|L]]; auto; exfalso.
      - pose proof (cur_mono ex_clay ex_is_clay ex_c _ 30 (3/2 + 5) (3/2 + 5) ltac:(cbn; lra) P L ltac:(lra) ltac:(lra)). lra.
      - pose proof (cur_mono ex_clay ex_is_clay ex_c 30 _ (3/2 + 5) (3/2 + 5) ltac:(cbn; lra) ltac:(lra) L ltac:(lra) ltac:(lra)). lra. }
    unfold ex_solver at 1. rewrite F. destruct (Req_EM_T 30 30) as [_|N]; [|contradiction]. cbn [bind]. rewrite F, (ex_inc 20 30 2) by lra. replace (2 * (20 + 30) / 20) with 5 by field. reflexivity.
  - cbn [map ex_tr without_e fst moving]. change (i_s ex_c) with 10. repeat (match goal with |- _ /\ _ => split end); try lra; exact Logic.I.
Qed.
Lemma ex_reached : reached ex_solver ex_clay (mkY (Some ex_c) (0 + 3/2 + 5) 30) 30 ex_e2.
Proof. destruct C137_witness as [A B]. exists ex_o, ex_c, [ByStress 1 20; ByVoid 2 ex_e2], ex_tr. split; [exact ex_new|]. split; [exact A|]. split; [exact B|]. split; reflexivity. Qed.
(** C140: the same state from different initial conditions *)
Definition ex_t2 : R := ppow (exp ((1 - ex_e2 - 1/25 * ln 30 + 1/20 * ln 20) / (1/20 - 1/25)) / 30) (y_alpha ex_clay) * 1.
Definition ex_c2 : initial := mkInit ex_e2 30 (exp ((1 - ex_e2 - 1/25 * ln 30 + 1/20 * ln 20) / (1/20 - 1/25))) ex_t2.
Example C140_witness : reached ex_solver ex_clay (mkY (Some ex_c) (0 + 3/2 + 5) 30) 30 ex_e2 /\ reached ex_solver ex_clay (mkY (Some ex_c2) 0 30) 30 ex_e2 /\ mkY (Some ex_c) (0 + 3/2 + 5) 30 <> mkY (Some ex_c2) 0 30.
Proof.
  split; [exact ex_reached|]. split.
  - exists (mkY (Some ex_c2) 0 30), ex_c2, [], []. split; [|repeat split; reflexivity]. exists (Some ex_e2), (Some 30), None, None. repeat (match goal with |- _ /\ _ => split end); try (intros v Q; injection Q as <-; lra); try (intros v Q; discriminate); reflexivity.
  - intros Q. injection Q as _ _ _ _ Q. lra.
Qed.
(** C139 *)
Lemma ex_times : y_times [0; 1] (Some 8) (Some 2%nat) = Ok [0; 1/2; 1].
Proof.
  unfold y_times, subdivide_x_into_segments, subdivide_x_y_into_segments. cbn [length Nat.eqb negb get nth_error bind get_last rev app fst]. assert (Reqb 8 0 = false) as -> by (apply Reqb_false; lra). cbn [andb pairs combine map fst snd].
  assert (nseg 8 2 0 1 = 2%nat) as ->. { unfold nseg. replace (Int_part ((1 - 0) / 8)) with 0%Z; [reflexivity|]. symmetry. unfold Int_part. replace (up ((1 - 0) / 8)) with 1%Z; [reflexivity|]. apply tech_up; lra. }
  unfold linspace_open. cbn [seq map concat app]. cbn [INR bind fst]. apply f_equal. repeat (apply f_equal2; [try lra; field|]). reflexivity.
Qed.
Definition ex_e_after (I s : R) : R := ex_e - 1/25 * ln (s / 10) - 1/100 * ln (I + 1).
Lemma ex_step o s dt I : y_ic o = Some ex_c -> y_igral o = I -> 0 < y_estress o -> 0 < s -> s <> y_estress o ->
  y_e_from_stress ex_clay o s (Some dt) None = Ok (ex_e_after (I + dt * (y_estress o + s) / 20) s, mkY (Some ex_c) (I + dt * (y_estress o + s) / 20) s).
Proof. intros H1 H2 H3 H4 H5. unfold y_e_from_stress. rewrite H1, ex_inc, H2 by auto. reflexivity. Qed.
Lemma ex_run o : y_ic o = Some ex_c -> y_igral o = 0 -> 0 < y_estress o -> 15 <> y_estress o ->
  y_CRSS ex_clay o [0; 1] [10; 10] (Some 8) (Some 2%nat) =
  Ok (mkSim [0; 1/2; 1] [10; 15; 20] [ex_e; ex_e_after (0 + 1/2 * (y_estress o + 15) / 20) 15; ex_e_after (0 + 1/2 * (y_estress o + 15) / 20 + 1/2 * (15 + 20) / 20) 20] [10; 10; 10], mkY (Some ex_c) 0 20).
Proof.
  intros H1 H2 H3 H4. unfold y_CRSS. rewrite ex_times, H1. cbn [bind]. rewrite (y_interp_const [0; 1/2; 1] [0; 1] [10; 10] 10); [|discriminate|reflexivity|intros y [<-|[<-|[]]]; reflexivity]. cbn [bind length repeat]. cbv zeta. change (i_s ex_c) with 10.
  assert (P : y_path 10 [10; 10; 10] (diff [0; 1/2; 1]) = [15; 20]) by (unfold y_path, diff; cbn [pairs map combine cumsum fst snd nsub NumR]; repeat (apply f_equal2; [lra|]); reflexivity). assert (D : diff [0; 1/2; 1] = [1/2; 1/2]) by (unfold diff; cbn [pairs map fst snd nsub NumR]; repeat (apply f_equal2; [lra|]); reflexivity). rewrite P, D. cbn [combine y_steps].
  rewrite (ex_step o 15 (1/2) 0) by (auto; lra). cbn [bind fst snd]. rewrite (ex_step _ 20 (1/2) (0 + 1/2 * (y_estress o + 15) / 20)) by (cbn [y_ic y_igral y_estress]; auto; lra). cbn [bind fst snd y_ic y_estress]. rewrite H2. reflexivity.
Qed.
Example C139_witness : rising [0; 1] /\ (2 <= length [0; 1])%nat /\ length [10; 10] = length [0; 1] /\ 0 < i_s ex_c + 10 * at_ [0; 1] 1 /\ exists sim o', y_CRSS ex_clay ex_o [0; 1] [10; 10] (Some 8) (Some 2%nat) = Ok (sim, o') /\ sim_stress sim = [10; 15; 20].
Proof.
  split; [cbn; lra|]. split; [cbn; lia|]. split; [reflexivity|]. split; [cbn; lra|]. eexists. eexists. split; [apply ex_run; cbn [ex_o y_ic y_igral y_estress]; auto; lra|reflexivity].
Qed.
(** Running the same simulation twice: the second starts from the last stress of the first, and its void
    ratios are different. *)
Theorem C139_twice_refuted : exists m o c tvals rate dx ms sim1 o1 sim2 o2, is_clay m /\ is_new m o c /\ y_CRSS m o tvals rate dx ms = Ok (sim1, o1) /\ y_CRSS m o1 tvals rate dx ms = Ok (sim2, o2) /\
  sim_stress sim1 = sim_stress sim2 /\ sim_e sim1 <> sim_e sim2 /\ moving (i_s c) (map without_e (increments sim2)) /\ ~ history m (i_s c) (i_e c) (increments sim2).
Proof.
  exists ex_clay, ex_o, ex_c, [0; 1], [10; 10], (Some 8), (Some 2%nat). do 4 eexists. split; [exact ex_is_clay|]. split; [exact ex_new|].
  split; [apply ex_run; cbn [ex_o y_ic y_igral y_estress]; auto; lra|]. split; [apply ex_run; cbn [y_ic y_igral y_estress]; auto; lra|]. cbn [sim_stress sim_e y_estress ex_o]. split; [reflexivity|].
  assert (N : ex_e_after (0 + 1/2 * (10 + 15) / 20) 15 <> ex_e_after (0 + 1/2 * (20 + 15) / 20) 15). { unfold ex_e_after. intros Q. pose proof (ln_increasing (0 + 1/2 * (10 + 15) / 20 + 1) (0 + 1/2 * (20 + 15) / 20 + 1) ltac:(lra) ltac:(lra)). lra. }
  split; [intros Q; injection Q as Q _; contradiction|]. unfold increments. cbn [sim_t sim_stress sim_e tl]. assert (D : diff [0; 1/2; 1] = [1/2; 1/2]) by (unfold diff; cbn [pairs map fst snd nsub NumR]; repeat (apply f_equal2; [lra|]); reflexivity). rewrite D. cbn [combine map without_e fst]. change (i_s ex_c) with 10.
  split; [cbn [moving]; repeat (match goal with |- _ /\ _ => split end); try lra; exact Logic.I|]. intros [S1 _].
  destruct (new_state ex_clay ex_o ex_c ex_is_clay ex_new) as [A _]. destruct (stress_act ex_clay ex_o ex_c 10 ex_e 15 (1/2) ex_is_clay A ltac:(lra) ltac:(lra) ltac:(lra)) as (o2 & e2 & B1 & _ & B2 & _).
  rewrite (ex_step ex_o 15 (1/2) 0) in B1 by (cbn [ex_o y_ic y_igral y_estress]; auto; lra). injection B1 as <- _. apply N. apply (step_unique ex_clay ex_is_clay 10 ex_e (1/2) 15); auto; lra.
Qed.
(** With a rate that varies the two methods differ: each step takes the rate at its beginning. *)
Theorem C139_varying_refuted : exists m o c tvals rate dx ms sim1 o1, is_clay m /\ is_new m o c /\ y_CRSS m o tvals rate dx ms = Ok (sim1, o1) /\
  forall oi sim2, y_CRSS_ode oi m o tvals rate dx ms = Ok sim2 -> sim_stress sim1 <> sim_stress sim2.
Proof.
  exists ex_clay, ex_o, ex_c, [0; 1], [1; 3], (Some 8), (Some 2%nat).
  assert (Ei : y_interp [0; 1/2; 1] [0; 1] [1; 3] = Ok [1; 2; 3]). { unfold y_interp, np_interp. cbn [length Nat.eqb negb mapM combine interp_from].
    replace (Rltb 0 0) with false by (symmetry; apply Rltb_false; lra). replace (Rltb 0 1) with true by (symmetry; apply Rltb_true; lra). replace (Rltb (1/2) 0) with false by (symmetry; apply Rltb_false; lra). replace (Rltb (1/2) 1) with true by (symmetry; apply Rltb_true; lra). replace (Rltb 1 0) with false by (symmetry; apply Rltb_false; lra). replace (Rltb 1 1) with false by (symmetry; apply Rltb_false; lra).
    cbn [bind]. repeat f_equal; field. }
  assert (P : y_path 10 [1; 2; 3] (diff [0; 1/2; 1]) = [10 + 1/2; 10 + 3/2]) by (unfold y_path, diff; cbn [pairs map combine cumsum fst snd nsub NumR]; repeat (apply f_equal2; [lra|]); reflexivity). assert (D : diff [0; 1/2; 1] = [1/2; 1/2]) by (unfold diff; cbn [pairs map fst snd nsub NumR]; repeat (apply f_equal2; [lra|]); reflexivity).
  eexists. eexists. split; [exact ex_is_clay|]. split; [exact ex_new|]. split.
  { unfold y_CRSS. rewrite ex_times. cbn [bind y_ic ex_o]. rewrite Ei. cbn [bind]. cbv zeta. change (i_s ex_c) with 10. rewrite P, D. cbn [combine y_steps].
    rewrite (ex_step _ (10 + 1/2) (1/2) 0) by (cbn [ex_o y_ic y_igral y_estress]; auto; lra). cbn [bind fst snd]. erewrite (ex_step _ (10 + 3/2) (1/2)) by (cbn [y_ic y_igral y_estress]; try reflexivity; lra). cbn [bind fst snd]. reflexivity. }
  intros oi sim2 E. unfold y_CRSS_ode in E. rewrite ex_times in E. cbn [bind y_ic ex_o] in E. destruct (oi _ _ _) as [es|]; cbn [bind] in E; [|discriminate]. rewrite Ei in E. cbn [bind] in E. change (i_s ex_c) with 10 in E.
  destruct (mapM (y_upto 10 [0; 1] [1; 3]) [0; 1/2; 1]) as [ss|] eqn:U; cbn [bind] in E; [|discriminate]. injection E as <-. cbn [sim_stress]. intros Q. rewrite <- Q in U. cbn [mapM] in U.
  destruct (y_upto 10 [0; 1] [1; 3] 0) as [u0|]; cbn [bind] in U; [|discriminate]. destruct (y_upto 10 [0; 1] [1; 3] (1/2)) as [u1|]; cbn [bind] in U; [|discriminate]. destruct (y_upto 10 [0; 1] [1; 3] 1) as [u2|] eqn:U2; cbn [bind] in U; [|discriminate]. injection U as _ _ U.
  assert (S : forall v cm, 0 <= v <= 1 -> segment_containing1 [0; 1] (all_segs [0; 1]) cm v = Ok [0%nat]). { intros v cm Hv. destruct (segment_containing1_spec [0; 1] cm v) as [[_ N]|(i & Es & (Hi & _) & _)]; [|cbn [length] in Hi; replace i with 0%nat in Es by lia; exact Es].
    exfalso. apply (N 0%nat). split; [cbn; lia|]. unfold at_. cbn [nth]. split; [lra|]. rewrite Rmin_left, Rmax_right by lra. exact Hv. }
  unfold y_upto, one, integrate_x_y_between_xi_xj in U2. cbn [length Nat.eqb negb combine mapM fst snd] in U2. unfold integrate1, segments_between1 in U2. rewrite (S 0 true), (S 1 false) in U2 by lra. cbn [bind Nat.eqb] in U2.
  rewrite (interp1_in [0; 1] [1; 3] true 0 0) in U2 by (auto; apply S; lra). rewrite (interp1_in [0; 1] [1; 3] false 1 0) in U2 by (auto; apply S; lra). cbn [bind mapM] in U2. unfold chord, at_ in U2. cbn [nth] in U2. injection U2 as U2. cbn in U2. lra.
Qed.
(** exact integration is possible in this case *)
Example C139_methods_witness : exists oi sim, exact_odeint oi /\ y_CRSS_ode oi ex_clay ex_o [0; 1] [10; 10] (Some 8) (Some 2%nat) = Ok sim.
Proof.
  destruct (new_state ex_clay ex_o ex_c ex_is_clay ex_new) as [A _]. destruct (stress_act ex_clay ex_o ex_c 10 ex_e 20 1 ex_is_clay A ltac:(lra) ltac:(lra) ltac:(lra)) as (o2 & e2 & _ & _ & [S _] & _). destruct (S ltac:(lra)) as (e & F & F0 & _).
  exists (fun f x0 ts => if excluded_middle_informative (solves f x0 ts (map e ts)) then Ok (map e ts) else Err RuntimeError). eexists. split.
  - intros f x0 ts xs E. destruct (excluded_middle_informative _) as [Q|]; [|discriminate]. injection E as <-. exact Q.
  - unfold y_CRSS_ode. rewrite ex_times. cbn [bind y_ic ex_o]. assert (Ca : forall w, In w [10; 10] -> w = 10) by (intros w [<-|[<-|[]]]; reflexivity).
    assert (U : forall t, 0 <= t <= 1 -> y_upto (i_s ex_c) [0; 1] [10; 10] t = Ok (10 + 10 * t)) by (intros t Ht; apply upto_const; auto; cbn; try lra; lia).
    destruct (excluded_middle_informative _) as [Q|Q].
    + cbn [bind]. rewrite (y_interp_const [0; 1/2; 1] [0; 1] [10; 10] 10); [|discriminate|reflexivity|exact Ca]. cbn [bind]. rewrite (mapM_ok _ (fun t => 10 + 10 * t)); [reflexivity|]. intros t [<-|[<-|[<-|[]]]]; apply U; lra.
    + exfalso. apply Q. exists e. cbn [hd last]. split; [|split; [exact F0|reflexivity]]. intros t Ht. unfold y_rate, one. rewrite (y_interp_const [t] [0; 1] [10; 10] 10); [|discriminate|reflexivity|exact Ca]. cbn [bind length repeat get nth_error]. rewrite U by auto. cbn [bind]. eexists. split; [reflexivity|].
      specialize (F t Ht). replace ((20 - 10) / 1) with 10 in F by field. exact F.
Qed.
