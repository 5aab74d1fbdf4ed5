(** * Properties C136-C140: the Yin and Graham soil model (void_ratio_stress.py) *)
From Coq Require Import Reals List Arith ZArith Bool Lia Lra.
From Coquelicot Require Import Coquelicot.
From Verif Require Import Base ConstitutiveModel MeshModel SteinModel YinModel SpecYin YinProofs.
Import ListNotations.
Local Open Scope R_scope.

(** ** C136: initial conditions *)
Definition given (o : option R) : nat := match o with Some _ => 1%nat | None => 0%nat end.
Definition pos_if (o : option R) : Prop := forall v, o = Some v -> 0 < v.
(** Exactly two, or none, may be given. *)
Theorem C136_count : forall m e s p t,
  ((given e + given s + given p + given t = 0)%nat -> initial_conditions m e s p t = Ok None) /\
  ((given e + given s + given p + given t = 2)%nat -> exists c, initial_conditions m e s p t = Ok (Some c)) /\
  ((given e + given s + given p + given t <> 0)%nat -> (given e + given s + given p + given t <> 2)%nat -> initial_conditions m e s p t = Err ValueError).
Proof.
  intros m e s p t. destruct e, s, p, t; cbn [given Nat.add]; (split; [intros Q; try discriminate; try reflexivity|split; [intros Q; try discriminate; try (eexists; reflexivity)|intros Q1 Q2; try reflexivity; try congruence]]).
Qed.
(** The four values returned are those given, and they describe one state of the soil. *)
Theorem C136_consistent : forall m e s p t c, is_clay m -> pos_if s -> pos_if p -> pos_if t -> initial_conditions m e s p t = Ok (Some c) ->
  consistent m c /\ (forall v, e = Some v -> i_e c = v) /\ (forall v, s = Some v -> i_s c = v) /\ (forall v, p = Some v -> i_p c = v) /\ (forall v, t = Some v -> i_t c = v).
Proof.
  intros m e s p t c Hm Hs Hp Ht E. pose proof (hk m Hm) as K1. pose proof (hl m Hm) as K2. pose proof (hp m Hm) as K3. pose proof (hs m Hm) as K4. pose proof (ht m Hm) as K5. pose proof (al_pos m Hm) as K6. pose proof (al_eq m Hm) as K7.
  assert (Fin : forall P A B C D : Prop, P -> A -> B -> C -> D -> P /\ A /\ B /\ C /\ D) by tauto.
  destruct e as [e|], s as [s|], p as [p|], t as [t|]; cbn in E; try discriminate; injection E as <-; cbn [i_e i_s i_p i_t]; apply Fin; auto; try (intros v Q; congruence; fail); apply (consistent_ln m Hm); cbn [i_e i_s i_p i_t].
  - specialize (Hs s eq_refl). set (q := exp _). assert (Q : 0 < q) by apply exp_pos. split; [auto|]. split; [auto|]. split; [apply Rmult_lt_0_compat; auto; apply ppow_pos|]. split.
    + unfold q. rewrite ln_exp. field. lra.
    + rewrite ln_mult by (auto; apply ppow_pos). rewrite ln_ppow, ln_quot by auto. reflexivity.
  - specialize (Hp p eq_refl). set (q := exp _). assert (Q : 0 < q) by apply exp_pos. split; [auto|]. split; [auto|]. split; [apply Rmult_lt_0_compat; auto; apply ppow_pos|]. split.
    + unfold q. rewrite ln_exp. field. lra.
    + rewrite ln_mult by (auto; apply ppow_pos). rewrite ln_ppow, ln_quot by auto. reflexivity.
  - specialize (Ht t eq_refl). set (q := exp _). assert (Q : 0 < q) by apply exp_pos. pose proof (ppow_pos (t / y_ta m) (1 / y_alpha m)) as O. split; [apply quot_pos; auto|]. split; [auto|]. split; [auto|].
    rewrite (ln_quot q) by auto. split.
    + unfold q. rewrite ln_exp. field. lra.
    + rewrite ln_ppow, ln_quot by auto. field. lra.
  - specialize (Hs s eq_refl). specialize (Hp p eq_refl). split; [auto|]. split; [auto|]. split; [apply Rmult_lt_0_compat; auto; apply ppow_pos|]. split; [rewrite !ln_quot by auto; reflexivity|].
    rewrite ln_mult by (auto; apply ppow_pos). rewrite ln_ppow, ln_quot by auto. reflexivity.
  - specialize (Hs s eq_refl). specialize (Ht t eq_refl). pose proof (ppow_pos (t / y_ta m) (1 / y_alpha m)) as O. split; [auto|]. split; [apply Rmult_lt_0_compat; auto|]. split; [auto|].
    rewrite !ln_mult by auto. split; [rewrite ln_quot by (auto; apply Rmult_lt_0_compat; auto); rewrite ln_mult by auto; ring|]. rewrite ln_ppow, ln_quot by auto. field. lra.
  - specialize (Hp p eq_refl). specialize (Ht t eq_refl). pose proof (ppow_pos (t / y_ta m) (1 / y_alpha m)) as O. split; [apply quot_pos; auto|]. split; [auto|]. split; [auto|].
    rewrite !(ln_quot p) by auto. split; [ring|]. rewrite ln_ppow, ln_quot by auto. field. lra.
Qed.
(** Any two of the four values of a state give the other two back. *)
Theorem C136_any_two : forall m c, is_clay m -> consistent m c ->
  initial_conditions m (Some (i_e c)) (Some (i_s c)) None None = Ok (Some c) /\
  initial_conditions m (Some (i_e c)) None (Some (i_p c)) None = Ok (Some c) /\
  initial_conditions m (Some (i_e c)) None None (Some (i_t c)) = Ok (Some c) /\
  initial_conditions m None (Some (i_s c)) (Some (i_p c)) None = Ok (Some c) /\
  initial_conditions m None (Some (i_s c)) None (Some (i_t c)) = Ok (Some c) /\
  initial_conditions m None None (Some (i_p c)) (Some (i_t c)) = Ok (Some c).
Proof.
  intros m c Hm C. pose proof (hk m Hm) as K1. pose proof (hl m Hm) as K2. pose proof (hp m Hm) as K3. pose proof (hs m Hm) as K4. pose proof (ht m Hm) as K5. pose proof (al_pos m Hm) as K6.
  pose proof C as C'. destruct C' as [P1 P2 P3 _ _].
  assert (Go : forall e s p t d, initial_conditions m e s p t = Ok (Some d) -> pos_if s -> pos_if p -> pos_if t ->
     (forall v, e = Some v -> v = i_e c) -> (forall v, s = Some v -> v = i_s c) -> (forall v, p = Some v -> v = i_p c) -> (forall v, t = Some v -> v = i_t c) ->
     (consistent m d -> (e = Some (i_e c) -> i_e d = i_e c) -> (s = Some (i_s c) -> i_s d = i_s c) -> (p = Some (i_p c) -> i_p d = i_p c) -> (t = Some (i_t c) -> i_t d = i_t c) -> ln (i_s d) = ln (i_s c) /\ ln (i_p d) = ln (i_p c)) ->
     initial_conditions m e s p t = Ok (Some c)).
  { intros e s p t d E Q1 Q2 Q3 _ _ _ _ L. destruct (C136_consistent m e s p t d Hm Q1 Q2 Q3 E) as (D & D1 & D2 & D3 & D4). destruct (L D (D1 _) (D2 _) (D3 _) (D4 _)) as [L1 L2]. rewrite E. do 2 f_equal. apply (same_state m Hm); auto. }
  assert (Pi : forall v, 0 < v -> pos_if (Some v)) by (intros v Hv w Q; injection Q as <-; auto). assert (Pn : pos_if None) by (intros w Q; discriminate).
  pose proof (proj1 (consistent_ln m Hm c) C) as (_ & _ & _ & C4 & C5).
  repeat (match goal with |- _ /\ _ => split end); (eapply Go; [reflexivity| | | | | | | |intros D E1 E2 E3 E4; apply (consistent_ln m Hm) in D; destruct D as (D1 & D2 & D3 & D4 & D5); try specialize (E1 eq_refl); try specialize (E2 eq_refl); try specialize (E3 eq_refl); try specialize (E4 eq_refl)]); auto; try (intros v Q; congruence; fail).
  - rewrite E2. split; [reflexivity|]. rewrite E1, E2 in D4. apply (Rmult_eq_reg_l (y_lam m - y_kap m)); lra.
  - rewrite E3. split; [|reflexivity]. rewrite E1, E3 in D4. apply (Rmult_eq_reg_l (y_kap m)); lra.
  - revert D1 D2 D3 D4 D5 E1 E4. generalize (mkInit (i_e c) (exp ((y_ea m - i_e c + y_lam m * ln (y_siga m) + y_kap m * ln (ppow (i_t c / y_ta m) (1 / y_alpha m))) / y_lam m) / ppow (i_t c / y_ta m) (1 / y_alpha m)) (exp ((y_ea m - i_e c + y_lam m * ln (y_siga m) + y_kap m * ln (ppow (i_t c / y_ta m) (1 / y_alpha m))) / y_lam m)) (i_t c)).
    intros d D1 D2 D3 D4 D5 E1 E4. rewrite E4 in D5. rewrite E1 in D4. assert (X : y_alpha m * ((ln (i_p d) - ln (i_s d)) - (ln (i_p c) - ln (i_s c))) = 0) by lra.
    apply Rmult_integral in X. destruct X as [X|X]; [lra|]. assert (Z : ln (i_p d) - ln (i_s d) = ln (i_p c) - ln (i_s c)) by lra. rewrite Z in D4.
    assert (Y : ln (i_p d) = ln (i_p c)) by (apply (Rmult_eq_reg_l (y_lam m)); lra). split; [lra|exact Y].
  - rewrite E2 in D5. split; [exact (f_equal ln E2)|]. rewrite E4 in D5. apply (Rmult_eq_reg_l (y_alpha m)); lra.
  - rewrite E3 in D5. split; [|exact (f_equal ln E3)]. rewrite E4 in D5. apply (Rmult_eq_reg_l (y_alpha m)); lra.
Qed.
(** Without dt the void ratio is that of the model without creep, for a stress not above pstress (which
    is the stress itself by default); and a new object gives back the stress of the reference time line. *)
Theorem C136_no_creep : forall m o s p e o', is_clay m -> 0 < s -> s <= get_pstress p s -> y_e_from_stress m o s None p = Ok (e, o') ->
  e = cc_e_from_stress (mkCcCr (ln 10 * y_lam m) (ln 10 * y_kap m) (y_siga m) (y_ea m)) s p /\ (p = None -> e = on_reference m s).
Proof.
  intros m o s p e o' Hm Hs Hp E. pose proof (hs m Hm) as K4. cbn in E. injection E as <- _. assert (L : ln 10 <> 0) by (apply Rgt_not_eq; rewrite <- ln_1; apply ln_increasing; lra). split.
  - unfold cc_e_from_stress, log10. cbn [cc_ea cc_Cc cc_siga cc_Cr]. rewrite Rmax_left by lra. field. auto.
  - intros ->. unfold on_reference. cbn [get_pstress]. replace (s / s) with 1 by (field; lra). rewrite ln_1. ring.
Qed.
Theorem C136_reference : forall lp m o e dt s o', is_clay m -> y_ic o = None -> y_stress_from_e lp m o e dt = Ok (s, o') -> 0 < s /\ on_reference m s = e.
Proof.
  intros lp m o e dt s o' Hm N E. unfold y_stress_from_e in E. rewrite N in E. destruct (initial_conditions m (Some e) None None (Some (y_ta m))) as [[c|]|] eqn:Ec; cbn [bind] in E; try discriminate. injection E as <- _.
  assert (Pn : pos_if None) by (intros v Q; discriminate). assert (Pt : pos_if (Some (y_ta m))) by (intros v Q; injection Q as <-; apply (ht m Hm)).
  destruct (C136_consistent m _ _ _ _ c Hm Pn Pn Pt Ec) as (C & C1 & _ & _ & C4).
  destruct C as [P1 P2 P3 _ B]. split; [auto|]. rewrite (C1 e eq_refl), (C4 _ eq_refl) in B. replace (y_ta m / y_ta m) with 1 in B by (pose proof (ht m Hm); field; lra). rewrite ln_1 in B. lra.
Qed.

(** ** C137: the void ratio follows the law *)
(** What a user does: give the stress at the end of an increment, or the void ratio. *)
Inductive act := ByStress (dt s : R) | ByVoid (dt e : R).
(** the trace: (dt, stress, void ratio) after each *)
Fixpoint perform lp (m : clay) (o : yobject) (l : list act) : result (list (R * R * R) * yobject) :=
  match l with
  | [] => Ok ([], o)
  | ByStress dt s :: rest => r <- y_e_from_stress m o s (Some dt) None ;; q <- perform lp m (snd r) rest ;; Ok ((dt, s, fst r) :: fst q, snd q)
  | ByVoid dt e :: rest => r <- y_stress_from_e lp m o e (Some dt) ;; q <- perform lp m (snd r) rest ;; Ok ((dt, fst r, e) :: fst q, snd q)
  end.
(** the iteration ended at a fixed point *)
Definition exact_solver (lp : (R -> R) -> R -> result R) : Prop := forall f x0 x, lp f x0 = Ok x -> f x = x.
Definition at_state (m : clay) (o : yobject) (c : initial) (s e : R) : Prop :=
  y_ic o = Some c /\ consistent m c /\ y_estress o = s /\ 0 < s /\ 0 <= y_igral o /\ e = cur m c s (y_igral o).
Definition without_e (x : R * R * R) : R * R := fst x.
Lemma stress_act m o c s0 e0 s dt : is_clay m -> at_state m o c s0 e0 -> 0 < s -> s <> s0 -> 0 <= dt ->
  exists o' e, y_e_from_stress m o s (Some dt) None = Ok (e, o') /\ at_state m o' c s e /\ step m s0 e0 dt s e /\ y_igral o' = y_igral o + y_inc m c s0 s dt.
Proof.
  intros Hm (A1 & A2 & A3 & A4 & A5 & A6) Hs Hn Hd. unfold y_e_from_stress. rewrite A1, A3. pose proof A2 as [P1 P2 P3 _ _]. pose proof (inc_nonneg m Hm c s0 s dt P1 P3 A4 Hs Hn Hd) as I0.
  eexists. eexists. split; [reflexivity|]. split; [|split; [|reflexivity]].
  - unfold at_state. cbn [y_ic y_estress y_igral]. repeat (match goal with |- _ /\ _ => split end); auto; lra.
  - rewrite A6. apply (step_ok m Hm); auto.
Qed.
Lemma void_act lp m o c s0 e0 e dt s o' : is_clay m -> exact_solver lp -> at_state m o c s0 e0 -> 0 <= dt -> y_stress_from_e lp m o e (Some dt) = Ok (s, o') -> s <> s0 ->
  at_state m o' c s e /\ step m s0 e0 dt s e /\ y_igral o' = y_igral o + y_inc m c s0 s dt.
Proof.
  intros Hm Hx (A1 & A2 & A3 & A4 & A5 & A6) Hd E Hn. unfold y_stress_from_e in E. rewrite A1, A3 in E. cbv zeta in E. destruct (lp _ s0) as [x|] eqn:L; cbn [bind] in E; [|discriminate]. apply Hx in L. rewrite L in E. injection E as -> <-.
  pose proof A2 as [P1 P2 P3 _ _]. pose proof (fn_pos m c (y_igral o) s0 e dt s P1) as Ps. rewrite L in Ps. pose proof (fn_cur m Hm c (y_igral o) s0 e dt s P1) as Q. rewrite L in Q. pose proof (inc_nonneg m Hm c s0 s dt P1 P3 A4 Ps Hn Hd) as I0.
  split; [|split; [|reflexivity]].
  - unfold at_state. cbn [y_ic y_estress y_igral]. repeat (match goal with |- _ /\ _ => split end); auto; lra.
  - rewrite A6, <- Q. apply (step_ok m Hm); auto.
Qed.
Lemma last_of_cons {A} (a : A) l d : last (a :: l) d = last l a.
Proof. revert a d. induction l as [|b l IH]; intros a d; auto. transitivity (last (b :: l) d); [reflexivity|]. rewrite IH. rewrite IH. reflexivity. Qed.
Lemma performed lp m : is_clay m -> exact_solver lp -> forall l o c s0 e0 tr o', at_state m o c s0 e0 -> perform lp m o l = Ok (tr, o') -> moving s0 (map without_e tr) ->
  history m s0 e0 tr /\ at_state m o' c (last (map (fun x => snd (fst x)) tr) s0) (last (map snd tr) e0).
Proof.
  intros Hm Hx l. induction l as [|a l IH]; intros o c s0 e0 tr o' A E M.
  - cbn in E. injection E as <- <-. split; [exact I|exact A].
  - destruct a as [dt s|dt e]; cbn [perform] in E.
    + destruct (y_e_from_stress m o s (Some dt) None) as [[e o1]|] eqn:E1; cbn [bind] in E; [|discriminate]. destruct (perform lp m (snd (e, o1)) l) as [[q o2]|] eqn:E2; cbn [bind] in E; [|discriminate]. cbn [fst snd] in *. injection E as <- <-.
      cbn [map without_e fst moving] in M. destruct M as (M1 & M2 & M3 & M4). destruct (stress_act m o c s0 e0 s dt Hm A M2 M3 M1) as (o1' & e' & S1 & S2 & S3 & _). rewrite E1 in S1. injection S1 as <- <-.
      destruct (IH _ _ _ _ _ _ S2 E2 M4) as [H1 H2]. split; [split; auto|]. cbn [map fst snd]. rewrite !last_of_cons. exact H2.
    + destruct (y_stress_from_e lp m o e (Some dt)) as [[s o1]|] eqn:E1; cbn [bind] in E; [|discriminate]. destruct (perform lp m (snd (s, o1)) l) as [[q o2]|] eqn:E2; cbn [bind] in E; [|discriminate]. cbn [fst snd] in *. injection E as <- <-.
      cbn [map without_e fst moving] in M. destruct M as (M1 & M2 & M3 & M4). destruct (void_act lp m o c s0 e0 e dt s o1 Hm Hx A M1 E1 M3) as (S2 & S3 & _).
      destruct (IH _ _ _ _ _ _ S2 E2 M4) as [H1 H2]. split; [split; auto|]. cbn [map fst snd]. rewrite !last_of_cons. exact H2.
Qed.
(** a new object *)
Definition is_new (m : clay) (o : yobject) (c : initial) : Prop := exists e s p t, pos_if s /\ pos_if p /\ pos_if t /\ y_new m e s p t = Ok o /\ y_ic o = Some c.
Lemma new_state m o c : is_clay m -> is_new m o c -> at_state m o c (i_s c) (i_e c) /\ o = mkY (Some c) 0 (i_s c).
Proof.
  intros Hm (e & s & p & t & P1 & P2 & P3 & E & Q). unfold y_new in E. destruct (initial_conditions m e s p t) as [ic|] eqn:Ei; cbn [bind] in E; [|discriminate]. injection E as <-. cbn [y_ic] in Q. subst ic.
  destruct (C136_consistent m e s p t c Hm P1 P2 P3 Ei) as (C & _). split; [|reflexivity]. unfold at_state. cbn [y_ic y_estress y_igral]. pose proof C as [C1 _ _ _ _]. repeat (match goal with |- _ /\ _ => split end); auto; try lra.
  unfold cur. replace (i_s c / i_s c) with 1 by (field; lra). rewrite Rplus_0_l, ln_1. ring.
Qed.
(** Whatever the sequence of increments by stress and by void ratio, the stresses and void ratios are those
    of a soil that follows the law, as long as the stress changes in every increment. *)
Theorem C137_history : forall lp m o c l tr o', is_clay m -> exact_solver lp -> is_new m o c -> perform lp m o l = Ok (tr, o') -> moving (i_s c) (map without_e tr) ->
  history m (i_s c) (i_e c) tr.
Proof. intros lp m o c l tr o' Hm Hx Hn E M. destruct (new_state m o c Hm Hn) as [A _]. exact (proj1 (performed lp m Hm Hx l o c _ _ tr o' A E M)). Qed.
(** The law leaves no choice: a history with the same stresses and times has the same void ratios. *)
Theorem C137_determined : forall m s e l l', is_clay m -> 0 < s -> history m s e l -> history m s e l' -> map without_e l = map without_e l' -> moving s (map without_e l) -> l = l'.
Proof.
  intros m s e l. revert s e. induction l as [|[[dt s2] e2] l IH]; intros s e l' Hm Hs H H' E M; destruct l' as [|[[dt' s2'] e2'] l']; try discriminate; auto. cbn in E. injection E as -> -> E. cbn [map without_e fst moving] in M. destruct M as (M1 & M2 & M3 & M4).
  destruct H as [H1 H2]. destruct H' as [H1' H2']. assert (Q : e2 = e2') by (apply (step_unique m Hm s e dt' s2'); auto). subst e2'. f_equal. apply (IH s2' e2); auto.
Qed.
(** Starting again from the initial conditions makes the object new. *)
Theorem C137_reset : forall lp m o c l tr o' o2, is_clay m -> exact_solver lp -> is_new m o c -> perform lp m o l = Ok (tr, o') -> moving (i_s c) (map without_e tr) -> y_reset o' = Ok o2 -> o2 = o.
Proof.
  intros lp m o c l tr o' o2 Hm Hx Hn E M R0. destruct (new_state m o c Hm Hn) as [A ->]. destruct (performed lp m Hm Hx l _ c _ _ tr o' A E M) as [_ (B1 & _)]. unfold y_reset in R0. rewrite B1 in R0. injection R0 as <-. reflexivity.
Qed.
(** At constant stress the elapsed time is ignored: creep of a new object is wrong for every dt but 1. *)
Theorem C137_creep_refuted : forall m o c dt, is_clay m -> is_new m o c -> 0 < dt -> dt <> 1 -> exists e o', y_e_from_stress m o (i_s c) (Some dt) None = Ok (e, o') /\ ~ step m (i_s c) (i_e c) dt (i_s c) e.
Proof.
  intros m o c dt Hm Hn Hd N. destruct (new_state m o c Hm Hn) as [(A1 & A2 & A3 & A4 & A5 & A6) ->]. unfold y_e_from_stress. cbn [y_ic y_igral y_estress]. eexists. eexists. split; [reflexivity|]. intros S1.
  pose proof A2 as [P1 P2 P3 _ _]. pose proof (creep_ok m Hm c (i_s c) dt 0 A2 P1 Hd ltac:(lra)) as S2. cbn [y_igral] in A6. rewrite <- A6 in S2. pose proof (step_unique m Hm _ _ _ _ _ _ P1 P1 (Rlt_le _ _ Hd) S1 S2) as Q. revert Q.
  unfold y_inc. replace (Reqb (i_s c) (i_s c)) with true by (symmetry; apply Reqb_true; auto). unfold cur. replace (i_s c / i_s c) with 1 by (field; lra). unfold ppow, Rpower. rewrite ln_1, !Rmult_0_r, exp_0. intros Q. pose proof (hp m Hm) as Hp.
  assert (L : ln (0 + 1 / i_t c + 1) = ln (0 + dt * (1 / i_t c) + 1)) by (apply (Rmult_eq_reg_l (y_psi m)); lra).
  assert (B : 0 < 1 / i_t c) by (apply quot_pos; lra). apply ln_inj in L; [|lra|assert (0 < dt * (1 / i_t c)) by (apply Rmult_lt_0_compat; auto); lra]. apply N. apply (Rmult_eq_reg_r (1 / i_t c)); lra.
Qed.
(** Giving a stress without dt sets new initial conditions but keeps the accumulated creep: the next
    increment starts at the wrong void ratio. *)
Lemma ppow_lt x y b : 0 < x -> x < y -> 0 < b -> ppow x b < ppow y b.
Proof. intros Hx Hy Hb. unfold ppow, Rpower. apply exp_increasing. apply Rmult_lt_compat_l; auto. apply ln_increasing; auto. Qed.
Lemma inc_pos m c a s dt : is_clay m -> 0 < i_s c -> 0 < i_t c -> 0 < a -> 0 < s -> s <> a -> 0 < dt -> 0 < y_inc m c a s dt.
Proof.
  intros Hm H1 H2 Ha Hs Hn Hd. pose proof (al_pos m Hm) as Al. unfold y_inc. replace (Reqb s a) with false by (symmetry; apply Reqb_false; auto).
  set (A := dt / (y_alpha m + 1) * i_s c / i_t c). assert (PA : 0 < A) by (unfold A; repeat (apply Rdiv_lt_0_compat; auto; try lra); apply Rmult_lt_0_compat; auto; apply Rdiv_lt_0_compat; lra).
  replace (A / (s - a) * _) with (A * ((ppow (s / i_s c) (y_alpha m + 1) - ppow (a / i_s c) (y_alpha m + 1)) / (s - a))) by (field; lra). apply Rmult_lt_0_compat; auto.
  assert (Q : forall x, x / i_s c = x * / i_s c) by reflexivity. assert (V : 0 < / i_s c) by (apply Rinv_0_lt_compat; auto).
  destruct (Rlt_or_le s a) as [L|L].
  - assert (P : ppow (s / i_s c) (y_alpha m + 1) < ppow (a / i_s c) (y_alpha m + 1)) by (apply ppow_lt; [apply quot_pos; auto| |lra]; apply Rmult_lt_compat_r; auto).
    replace (_ / _) with ((ppow (a / i_s c) (y_alpha m + 1) - ppow (s / i_s c) (y_alpha m + 1)) / (a - s)) by (field; lra). apply quot_pos; lra.
  - assert (L' : a < s) by lra. assert (P : ppow (a / i_s c) (y_alpha m + 1) < ppow (s / i_s c) (y_alpha m + 1)) by (apply ppow_lt; [apply quot_pos; auto| |lra]; apply Rmult_lt_compat_r; auto). apply quot_pos; lra.
Qed.
(** what a user has done: created the object and performed increments; the stress and void ratio are now s and e *)
Definition reached lp (m : clay) (o : yobject) (s e : R) : Prop := exists o0 c l tr, is_new m o0 c /\ perform lp m o0 l = Ok (tr, o) /\ moving (i_s c) (map without_e tr) /\
  s = last (map (fun x => snd (fst x)) tr) (i_s c) /\ e = last (map snd tr) (i_e c).
Lemma reached_state lp m o s e : is_clay m -> exact_solver lp -> reached lp m o s e -> exists c, at_state m o c s e.
Proof. intros Hm Hx (o0 & c & l & tr & N & P & M & -> & ->). exists c. destruct (new_state m o0 c Hm N) as [A _]. exact (proj2 (performed lp m Hm Hx l o0 c _ _ tr o A P M)). Qed.
Theorem C137_restart_refuted : forall lp m o s e dt s' e' o' s1 e1 o1 s2, is_clay m -> exact_solver lp -> reached lp m o s e -> 0 < dt -> 0 < s' -> s' <> s -> y_e_from_stress m o s' (Some dt) None = Ok (e', o') ->
  0 < s1 -> y_e_from_stress m o' s1 None None = Ok (e1, o1) -> 0 < s2 -> s2 <> s1 ->
  e1 = on_reference m s1 /\ exists e2 o2, y_e_from_stress m o1 s2 (Some 0) None = Ok (e2, o2) /\ ~ step m s1 e1 0 s2 e2.
Proof.
  intros lp m o s e dt s' e' o' s1 e1 o1 s2 Hm Hx Hr Hd Hs' Hns E' Hs1 E Hs2 Hn. destruct (C136_no_creep m o' s1 None e1 o1 Hm Hs1 ltac:(cbn; lra) E) as [_ Q]. split; [auto|]. clear Q.
  destruct (reached_state lp m o s e Hm Hx Hr) as (c & A). destruct (stress_act m o c s e s' dt Hm A Hs' Hns (Rlt_le _ _ Hd)) as (o2 & e2 & B1 & B2 & _ & B3). rewrite B1 in E'. injection E' as -> ->.
  assert (HI : 0 < y_igral o'). { destruct A as (_ & A2 & _ & A4 & A5 & _). destruct A2 as [P1 P2 P3 _ _]. pose proof (inc_pos m c s s' dt Hm P1 P3 A4 Hs' Hns Hd). lra. }
  cbn in E. injection E as <- <-. unfold y_e_from_stress. cbn [y_ic y_igral y_estress i_s i_e]. eexists. eexists. split; [reflexivity|]. intros [_ K]. specialize (K eq_refl). rewrite inc_instant in K by auto. cbn [i_e i_s] in K.
  pose proof (hp m Hm). assert (0 < ln (y_igral o' + 0 + 1)) by (pose proof (ln_increasing 1 (y_igral o' + 0 + 1) ltac:(lra) ltac:(lra)) as L; rewrite ln_1 in L; exact L). assert (0 < y_psi m * ln (y_igral o' + 0 + 1)) by (apply Rmult_lt_0_compat; auto). lra.
Qed.

(** ** C138: void ratio from stress and stress from void ratio *)
(** The two are inverse to each other, from whatever state; the object ends in the same state. *)
Theorem C138_inverse : forall lp m o s0 e0 dt s e o1 s' o2, is_clay m -> exact_solver lp -> reached lp m o s0 e0 -> 0 <= dt -> 0 < s -> s <> s0 ->
  y_e_from_stress m o s (Some dt) None = Ok (e, o1) -> y_stress_from_e lp m o e (Some dt) = Ok (s', o2) -> s' <> s0 -> s' = s /\ o2 = o1.
Proof.
  intros lp m o s0 e0 dt s e o1 s' o2 Hm Hx Hr Hd Hs Hn E1 E2 Hn'. destruct (reached_state lp m o s0 e0 Hm Hx Hr) as (c & A).
  destruct (stress_act m o c s0 e0 s dt Hm A Hs Hn Hd) as (o1' & e' & B1 & B2 & _ & B3). rewrite B1 in E1. injection E1 as -> ->.
  destruct (void_act lp m o c s0 e0 e dt s' o2 Hm Hx A Hd E2 Hn') as (C2 & _ & C3).
  destruct A as (A1 & A2 & A3 & A4 & A5 & A6). destruct B2 as (B21 & _ & B22 & _ & B24 & B25). destruct C2 as (C21 & _ & C22 & C23 & C24 & C25). pose proof A2 as [P1 P2 P3 _ _].
  assert (Q : s' = s). { destruct (Rtotal_order s' s) as [L|[L|L]]; auto; exfalso.
    - pose proof (inc_mono m Hm c s0 s' s dt P1 P3 A4 C23 (Rlt_le _ _ L) Hn' Hn Hd). pose proof (cur_mono m Hm c s' s (y_igral o2) (y_igral o1) P1 C23 L C24 ltac:(lra)). lra.
    - pose proof (inc_mono m Hm c s0 s s' dt P1 P3 A4 Hs (Rlt_le _ _ L) Hn Hn' Hd). pose proof (cur_mono m Hm c s s' (y_igral o1) (y_igral o2) P1 Hs L B24 ltac:(lra)). lra. }
  split; [exact Q|]. subst s'. destruct o1 as [a1 b1 d1], o2 as [a2 b2 d2]. cbn [y_ic y_igral y_estress] in *. subst. reflexivity.
Qed.
Theorem C138_inverse_back : forall lp m o s0 e0 dt e s o1, is_clay m -> exact_solver lp -> reached lp m o s0 e0 -> 0 <= dt ->
  y_stress_from_e lp m o e (Some dt) = Ok (s, o1) -> s <> s0 -> 0 < s /\ y_e_from_stress m o s (Some dt) None = Ok (e, o1).
Proof.
  intros lp m o s0 e0 dt e s o1 Hm Hx Hr Hd E Hn. destruct (reached_state lp m o s0 e0 Hm Hx Hr) as (c & A). destruct (void_act lp m o c s0 e0 e dt s o1 Hm Hx A Hd E Hn) as ((B1 & B2 & B3 & B4 & B5 & B6) & _ & B8).
  split; [exact B4|]. destruct (stress_act m o c s0 e0 s dt Hm A B4 Hn Hd) as (o2 & e2 & C1 & (D1 & _ & D3 & _ & _ & D6) & _ & C3). rewrite C1. rewrite D6, B6, C3, B8. do 2 f_equal. destruct o1 as [a1 b1 d1], o2 as [a2 b2 d2]. cbn [y_ic y_igral y_estress] in *. congruence.
Qed.
(** However inexact the solver, the object is left at exactly the void ratio asked for and the stress
    returned: an instant change of stress goes on from there along the instant time line. *)
Theorem C138_state_kept : forall lp lp' m o s0 e0 dt e s o1 s2, is_clay m -> exact_solver lp' -> reached lp' m o s0 e0 ->
  y_stress_from_e lp m o e dt = Ok (s, o1) -> 0 < s2 -> s2 <> s -> exists o2, y_e_from_stress m o1 s2 (Some 0) None = Ok (e - y_kap m * ln (s2 / s), o2).
Proof.
  intros lp lp' m o s0 e0 dt e s o1 s2 Hm Hx Hr E Hs Hn. destruct (reached_state lp' m o s0 e0 Hm Hx Hr) as (c & A1 & A2 & A3 & A4 & A5 & A6). unfold y_stress_from_e in E. rewrite A1, A3 in E. cbv zeta in E.
  destruct (lp _ s0) as [x|] eqn:L; cbn [bind] in E; [|discriminate]. injection E as <- <-. pose proof A2 as [P1 P2 P3 _ _]. set (d := match dt with Some d => d | None => 0 end) in *.
  pose proof (fn_pos m c (y_igral o) s0 e d x P1) as Ps. pose proof (fn_cur m Hm c (y_igral o) s0 e d x P1) as Q. set (s := y_fn m c (y_igral o) s0 e d x) in *.
  unfold y_e_from_stress. cbn [y_ic y_igral y_estress]. rewrite inc_instant by auto. eexists. f_equal. apply f_equal2; [|reflexivity]. rewrite <- Q. unfold cur. rewrite Rplus_0_r. rewrite !ln_quot by auto. ring.
Qed.
(** More stress or more time, less void ratio. *)
Theorem C138_monotone : forall lp m o s0 e0 s dt e o1 s' dt' e' o1', is_clay m -> exact_solver lp -> reached lp m o s0 e0 -> 0 <= dt <= dt' -> 0 < s <= s' -> s <> s0 -> s' <> s0 -> (dt < dt' \/ s < s') ->
  y_e_from_stress m o s (Some dt) None = Ok (e, o1) -> y_e_from_stress m o s' (Some dt') None = Ok (e', o1') -> e' < e.
Proof.
  intros lp m o s0 e0 s dt e o1 s' dt' e' o1' Hm Hx Hr [Hd Hd'] [Hs Hs'] Hn Hn' St E E'. destruct (reached_state lp m o s0 e0 Hm Hx Hr) as (c & A1 & A2 & A3 & A4 & A5 & A6). pose proof A2 as [P1 P2 P3 _ _].
  unfold y_e_from_stress in E, E'. rewrite A1, A3 in E, E'. injection E as <- _. injection E' as <- _.
  assert (M1 : y_inc m c s0 s dt <= y_inc m c s0 s' dt) by (apply (inc_mono m Hm); auto). pose proof (inc_dt m c s0 s' dt Hn') as T. pose proof (inc_dt m c s0 s' dt' Hn') as T'. pose proof (inc_pos m c s0 s' 1 Hm P1 P3 A4 ltac:(lra) Hn' ltac:(lra)) as W.
  pose proof (inc_nonneg m Hm c s0 s dt P1 P3 A4 Hs Hn Hd) as N0.
  assert (M2 : y_inc m c s0 s' dt <= y_inc m c s0 s' dt') by (rewrite T, T'; apply Rmult_le_compat_r; lra).
  destruct (Rlt_or_le s s') as [L|L].
  - change (cur m c s' (y_igral o + y_inc m c s0 s' dt') < cur m c s (y_igral o + y_inc m c s0 s dt)). apply (cur_mono m Hm); auto; lra.
  - assert (Q : s' = s) by lra. subst s'. assert (V : dt < dt') by (destruct St; lra). assert (M3 : y_inc m c s0 s dt < y_inc m c s0 s dt') by (rewrite T, T'; apply Rmult_lt_compat_r; auto).
    pose proof (ln_increasing (y_igral o + y_inc m c s0 s dt + 1) (y_igral o + y_inc m c s0 s dt' + 1) ltac:(lra) ltac:(lra)) as K. pose proof (Rmult_lt_compat_l (y_psi m) _ _ (hp m Hm) K). lra.
Qed.
