(** * Property theorems: large strain consolidation, XieAndLeo2004 (C109 - C114) *)
From Coq Require Import Reals List Arith Lia Lra.
From Coquelicot Require Import Coquelicot.
From Verif Require Import Base TerzaghiModel SpecTerzaghi TerzaghiProofs TerzaghiProofs2 PropsTerzaghi ConstitutiveModel XieModel SpecXie XieProofs XieProofs2 XieProofs3 XieProofs4.
Import ListNotations.
Local Open Scope R_scope.

(** Meaningful input: positive thickness and properties, and the solids are apart at every depth. *)
Record sound (X : xie) : Prop := {
  so_H : 0 < x_H X; so_kv0 : 0 < x_kv0 X; so_mvl : 0 < x_mvl X; so_gamw : 0 < x_gamw X; so_qu : 0 <= x_qu X;
  so_e0 : forall a, 0 <= a <= x_H X -> 0 < 1 + x_e0 X a }.
(** The methods of the two drainage conditions: sealed base (..._PTIB) and drained base (..._PTPB). *)
Definition pressure (sealed : bool) (X : xie) := if sealed then x_u_PTIB X else x_u_PTPB X.
Definition void_ratio (sealed : bool) (X : xie) := if sealed then x_e_PTIB X else x_e_PTPB X.
Definition settlement (sealed : bool) (X : xie) := if sealed then x_settlement_PTIB X else x_settlement_PTPB X.
Definition position (sealed : bool) (X : xie) := if sealed then x_xi_PTIB X else x_xi_PTPB X.
Definition degree (sealed : bool) (X : xie) := if sealed then x_Us_PTIB X else x_Us_PTPB X.
Definition pressure_degree (sealed : bool) (X : xie) := if sealed then x_Up_PTIB X else x_Up_PTPB X.
Definition soil_velocity (sealed : bool) (X : xie) := if sealed then x_vs_PTIB X else x_vs_PTPB X.
Definition water_velocity_of (sealed : bool) (X : xie) := if sealed then x_vw_PTIB X else x_vw_PTPB X.
Definition total_pore_pressure (sealed : bool) (X : xie) := if sealed then x_total_pore_pressure_PTIB X else x_total_pore_pressure_PTPB X.
Definition time_from_degree (sealed : bool) (X : xie) := if sealed then x_t_from_Us_PTIB X else x_t_from_Us_PTPB X.

(** ** Both drainage conditions at once *)
Definition path (sealed : bool) (X : xie) : R := if sealed then x_H X else x_H X / 2.
Definition endk (sealed : bool) : R := if sealed then 0 else 1.
Section Both.
Variables (sealed : bool) (X : xie).
Hypothesis So : sound X.
Let W := wW (path sealed X) (x_kv0 X) (x_mvl X) (x_gamw X) (x_nterms X).
Let Wa := wWa (path sealed X) (x_kv0 X) (x_mvl X) (x_gamw X) (x_nterms X).
Let Waa := tz_uzz (path sealed X) (x_kv0 X) (x_mvl X) (x_gamw X) 1 (x_nterms X).
Let u := gu (x_mvl X) (x_qu X) W.
Let e := ge (x_mvl X) (x_qu X) (x_e0 X) W.
Let Se := wS (x_H X) (path sealed X) (x_kv0 X) (x_mvl X) (x_gamw X) (x_qu X) (endk sealed) (x_nterms X).
Let E := exp (- x_mvl X * x_qu X).
Let v x t := x_cv0 X * (1 - E) * (Wa x t - Wa (x_H X) t).
Lemma b_path : 0 < path sealed X.
Proof using So. destruct So. unfold path. destruct sealed; lra. Qed.
Lemma b_two : x_H X <= 2 * path sealed X.
Proof using So. destruct So. unfold path. destruct sealed; lra. Qed.
Lemma b_end j : endk sealed + cos (Mk j * (x_H X / path sealed X)) = 0.
Proof using So. destruct So. unfold endk, path. destruct sealed; [apply end_I; auto|apply end_D; auto]. Qed.
Lemma b_u : tabulates (pressure sealed X) u.
Proof using So. destruct So. unfold u, W, pressure, path. destruct sealed; intros a t; [apply u_I|apply u_D]; auto. Qed.
Lemma b_e : tabulates (void_ratio sealed X) e.
Proof using So. destruct So. unfold e, W, void_ratio, path. destruct sealed; intros a t; [apply e_I|apply e_D]; auto. Qed.
Lemma b_S : tabulates (settlement sealed X) Se.
Proof using So. destruct So. unfold Se, settlement, path, endk. destruct sealed; intros a t; [apply s_I|apply s_D]; auto. Qed.
Lemma b_v : tabulates (soil_velocity sealed X) v.
Proof using So. destruct So. unfold v, Wa, soil_velocity, path. destruct sealed; intros a t; [apply v_I|apply v_D]; auto. Qed.
Lemma b_us ts : degree sealed X ts = map (tz_doc (path sealed X) (x_kv0 X) (x_mvl X) (x_gamw X) (x_nterms X)) ts.
Proof using So. destruct So. unfold degree, path. destruct sealed; [apply us_I|apply us_D]; auto. Qed.
Lemma b_xi : tabulates (position sealed X) (fun a t => a + Se a t).
Proof using So. destruct So. unfold Se, position, path, endk. destruct sealed; intros a t; [unfold x_xi_PTIB; rewrite s_I|unfold x_xi_PTPB; rewrite s_D]; auto; apply plus_depth_grid. Qed.
Lemma b_tpp : tabulates (total_pore_pressure sealed X) (fun a t => u a t + x_gamw X * (x_Hw X + a + Se a t)).
Proof using So. destruct So. unfold u, W, Se, total_pore_pressure, path, endk. destruct sealed; intros a t; [unfold x_total_pore_pressure_PTIB; rewrite u_I, s_I|unfold x_total_pore_pressure_PTPB; rewrite u_D, s_D]; auto; apply plus_static_grid. Qed.
Lemma b_Wa a t : is_derive (fun b => W b t) a (Wa a t).
Proof using So. apply tz_dz. pose proof b_path. lra. Qed.
Lemma b_Waa a t : is_derive (fun b => Wa b t) a (Waa a t).
Proof using So. apply tz_dzz. pose proof b_path. lra. Qed.
Lemma b_Wt a t : is_derive (fun s => W a s) t (x_kv0 X / (x_mvl X * x_gamw X) * Waa a t).
Proof using So. destruct So. pose proof b_path. apply tz_dt; lra. Qed.
Lemma b_Wpos a t : 0 <= a <= x_H X -> 0 <= t -> 0 <= W a t.
Proof using So. intros Ha Ht. pose proof b_path. pose proof b_two. destruct So. apply tz_u_nonneg; auto; try lra. apply Rlt_le, dT_pos; auto. Qed.
Lemma b_W0 t : W 0 t = 0.
Proof using So. destruct So. pose proof b_path. apply (co_top _ _ _ (tz_consolidates (path sealed X) (x_kv0 X) (x_mvl X) (x_gamw X) 1 (x_nterms X) ltac:(lra) ltac:(lra) ltac:(lra))). Qed.
Lemma b_sealed : sealed = true -> forall t, Wa (x_H X) t = 0.
Proof using So. intros B t. unfold Wa, wWa, tz_uz, path. rewrite B. rewrite ssum_0'; [ring|]. intros j _. pose proof (b_end j) as Ej. unfold endk, path in Ej. rewrite B in Ej. rewrite Rplus_0_l in Ej. rewrite Ej. ring. Qed.
Lemma b_drained : sealed = false -> forall t, W (x_H X) t = 0.
Proof using So. intros B t. unfold W, wW, tz_u, path. rewrite B. rewrite ssum_0'; [ring|]. intros j _. destruct So.
  replace (Mk j * (x_H X / (x_H X / 2))) with (2 * Mk j) by (field; lra). rewrite sin_2a, cos_Mk. ring. Qed.
Lemma b_ne0 a : 0 <= a <= x_H X -> 1 + x_e0 X a <> 0.
Proof using So. intros Ha. pose proof (so_e0 X So a Ha). lra. Qed.
Lemma b_large : large_strain sealed (x_H X) (x_kv0 X) (x_mvl X) (x_gamw X) (x_qu X) (x_e0 X) u e.
Proof using So.
  pose proof (so_H X So). pose proof (so_mvl X So). pose proof (so_gamw X So). pose proof (so_qu X So).
  apply (g_large (x_H X) (x_kv0 X) (x_mvl X) (x_gamw X) (x_qu X) (x_e0 X) W Wa Waa); auto; try lra.
  - apply b_ne0. - apply b_Wa. - apply b_Waa. - apply b_Wt. - apply b_Wpos. - apply b_W0. - apply b_sealed. - apply b_drained.
Qed.
Lemma b_strain a t : 0 <= a <= x_H X -> (x_e0 X a - e a t) / (1 + x_e0 X a) = (1 - E) * (1 - W a t).
Proof using So. intros Ha. pose proof (b_ne0 a Ha). unfold e, ge, gef. fold E. field. auto. Qed.
Lemma b_Wcont t a : continuous (fun b => W b t) a.
Proof using So. apply (ex_derive_continuous (V := R_NormedModule) (fun b => W b t) a (ex_intro _ _ (b_Wa a t))). Qed.
Lemma b_settle a t : 0 <= a <= x_H X -> is_RInt (fun b => (x_e0 X b - e b t) / (1 + x_e0 X b)) a (x_H X) (Se a t).
Proof using So.
  intros Ha. pose proof b_path as Hp.
  apply (is_RInt_ext (fun b => (1 - E) * (1 - W b t))).
  - intros b. rewrite Rmin_left, Rmax_right by lra. intros Hb. symmetry. apply b_strain. lra.
  - apply (rint_val _ _ _ (minus (- Se (x_H X) t) (- Se a t))).
    + apply (is_RInt_derive (fun b => - Se b t)).
      * intros b _. evar_last; [apply (is_derive_opp (V := R_NormedModule) (fun b => Se b t)); apply wS_da; auto|]. unfold opp; cbn. fold E W. ring.
      * intros b _. apply (continuous_mult (K := R_AbsRing) (fun _ => 1 - E) (fun b => 1 - W b t)); [apply continuous_const|].
        apply (continuous_minus (V := R_NormedModule) (fun _ => 1) (fun b => W b t)); [apply continuous_const|apply b_Wcont].
    + unfold Se at 1. rewrite wS_base by apply b_end. unfold minus, plus, opp; cbn. ring.
Qed.
Lemma b_misfit : (1 <= x_nterms X)%nat -> exists m, is_RInt (fun a => (1 - W a 0) ^ 2) 0 (x_H X) m /\ 0 <= m <= x_H X * (2 / (PI ^ 2 * INR (x_nterms X))).
Proof using So.
  intros Hn. pose proof b_path as Hp. set (h := path sealed X) in *. set (d := tz_doc h (x_kv0 X) (x_mvl X) (x_gamw X) (x_nterms X) 0).
  assert (I1 : is_RInt (fun a => (1 - W a 0) ^ 2) 0 h (h * d)).
  { apply (is_RInt_ext (fun z => (tz_u h (x_kv0 X) (x_mvl X) (x_gamw X) 1 (x_nterms X) z 0 - 1) ^ 2)).
    - intros z _. match goal with |- ?p = ?q => change (@eq R p q) end. unfold W, wW. fold h. ring.
    - replace (h * d) with (1 ^ 2 * h * d) by ring. apply tz_misfit. lra. }
  assert (Bd : 0 <= d <= 2 / (PI ^ 2 * INR (x_nterms X))).
  { split; [apply tz_doc0_nonneg; auto|]. pose proof (sum_tail _ Hn) as T. unfold d, tz_doc. rewrite (ssum_ext _ (fun k => 2 / Mk k ^2)); auto. intros k _.
    replace (- Mk k ^ 2 * (tz_dTv h (x_kv0 X) (x_mvl X) (x_gamw X) * 0)) with 0 by ring. rewrite exp_0. ring. }
  destruct So. exists (x_H X * d). split; [|split; [apply Rmult_le_pos; lra|apply Rmult_le_compat_l; lra]].
  unfold h, path in *. destruct sealed; [exact I1|].
  assert (I2 : is_RInt (fun a => (1 - W a 0) ^ 2) (x_H X / 2) (x_H X) (x_H X / 2 * d)).
  { apply (is_RInt_ext (fun a => scal 1 ((1 - W (x_H X - a) 0) ^ 2))).
    - intros a _. unfold scal; cbn; unfold Hierarchy.mult; cbn. match goal with |- ?p = ?q => change (@eq R p q) end.
      replace (W (x_H X - a) 0) with (W a 0); [ring|]. unfold W, wW, tz_u, path. f_equal. apply ssum_ext. intros j _. f_equal. f_equal.
      replace (Mk j * ((x_H X - a) / (x_H X / 2))) with (2 * Mk j - Mk j * (a / (x_H X / 2))) by (field; lra).
      rewrite sin_minus. rewrite sin_2a, cos_2a_cos, cos_Mk. ring.
    - apply (is_RInt_ext (fun a => opp (scal (-1) ((1 - W ((-1) * a + x_H X) 0) ^ 2)))).
      + intros a _. unfold scal, opp; cbn; unfold Hierarchy.mult; cbn. match goal with |- ?p = ?q => change (@eq R p q) end.
        replace (-1 * a + x_H X) with (x_H X - a) by ring. ring.
      + apply (rint_val _ _ _ (opp (- (x_H X / 2 * d)))); [|unfold opp; cbn; ring].
        apply (is_RInt_opp (V := R_NormedModule)). apply (is_RInt_comp_lin (V := R_NormedModule) (fun a => (1 - W a 0) ^ 2) (-1) (x_H X)).
        replace (-1 * (x_H X / 2) + x_H X) with (x_H X / 2) by field. replace (-1 * x_H X + x_H X) with 0 by ring.
        apply (is_RInt_swap (V := R_NormedModule)) in I1. exact I1. }
  apply (rint_val _ _ _ (plus (x_H X / 2 * d) (x_H X / 2 * d))); [|unfold plus; cbn; field].
  apply (is_RInt_Chasles (V := R_NormedModule) _ _ (x_H X / 2)); auto.
Qed.
Lemma b_lims a : is_lim (u a) p_infty 0 /\ is_lim (e a) p_infty (x_efinal X a).
Proof using So.
  destruct So. pose proof (wW_lim (path sealed X) (x_kv0 X) (x_mvl X) (x_gamw X) (x_nterms X) b_path so_kv1 so_mvl0 so_gamw0 a) as L. fold W in L. split.
  - unfold u, gu. replace (Finite 0) with (Finite ((fun w => ln (w * (exp (x_mvl X * x_qu X) - 1) + 1) / x_mvl X) 0)).
    + apply (is_lim_comp_continuous (W a) (fun w => ln (w * (exp (x_mvl X * x_qu X) - 1) + 1) / x_mvl X)); auto.
      apply (ex_derive_continuous (V := R_NormedModule)). auto_derive. lra.
    + cbv beta. rewrite Rmult_0_l, Rplus_0_l, ln_1. f_equal. field. lra.
  - unfold e, ge. replace (Finite (x_efinal X a)) with (Finite ((fun w => w * (x_e0 X a - gef (x_mvl X) (x_qu X) (x_e0 X) a) + gef (x_mvl X) (x_qu X) (x_e0 X) a) 0)).
    + apply (is_lim_comp_continuous (W a) (fun w => w * (x_e0 X a - gef (x_mvl X) (x_qu X) (x_e0 X) a) + gef (x_mvl X) (x_qu X) (x_e0 X) a)); auto.
      apply (ex_derive_continuous (V := R_NormedModule)). auto_derive. auto.
    + cbv beta. f_equal. unfold gef, x_efinal. ring.
Qed.
End Both.

(** ** C109: pressure and void ratio *)
Theorem C109_large_strain : forall sealed X, sound X ->
  exists u e, tabulates (pressure sealed X) u /\ tabulates (void_ratio sealed X) e /\
    large_strain sealed (x_H X) (x_kv0 X) (x_mvl X) (x_gamw X) (x_qu X) (x_e0 X) u e /\
    (** initially there is no strain, up to the truncation of the series *)
    ((1 <= x_nterms X)%nat -> exists m, is_RInt (fun a => ((x_e0 X a - e a 0) / (1 + x_e0 X a)) ^ 2) 0 (x_H X) m /\
       0 <= m <= x_H X * (1 - exp (- x_mvl X * x_qu X)) ^ 2 * (2 / (PI ^ 2 * INR (x_nterms X)))) /\
    (** finally the pressure has gone *)
    (forall a, is_lim (u a) p_infty 0 /\ is_lim (e a) p_infty (x_efinal X a)).
Proof.
  intros sealed X So. eexists. eexists. split; [apply (b_u sealed X So)|]. split; [apply (b_e sealed X So)|]. split; [apply (b_large sealed X So)|]. split; [|apply (b_lims sealed X So)].
  intros Hn. destruct (b_misfit sealed X So Hn) as (m & I & B1 & B2). exists ((1 - exp (- x_mvl X * x_qu X)) ^ 2 * m). pose proof (so_H X So). split; [|split].
  - apply (is_RInt_ext (fun a => scal ((1 - exp (- x_mvl X * x_qu X)) ^ 2) ((1 - wW (path sealed X) (x_kv0 X) (x_mvl X) (x_gamw X) (x_nterms X) a 0) ^ 2))).
    + intros a. rewrite Rmin_left, Rmax_right by lra. intros Ha. rewrite (b_strain sealed X So) by lra. unfold scal; cbn; unfold Hierarchy.mult; cbn.
      match goal with |- ?p = ?q => change (@eq R p q) end. ring.
    + apply (is_RInt_scal (V := R_NormedModule)). exact I.
  - apply Rmult_le_pos; auto. apply pow2_ge_0.
  - pose proof (pow2_ge_0 (1 - exp (- x_mvl X * x_qu X))). nra.
Qed.
Print Assumptions C109_large_strain.

(** The average degree of dissipation, when quad integrates. *)
Theorem C109_pressure_degree : forall sealed X quad, sound X -> 0 < x_qu X ->
  (forall f a b v, is_RInt f a b v -> quad f a b = v) ->
  exists u m, tabulates (pressure sealed X) u /\
    (forall t, 0 <= t -> is_RInt (fun a => u a t) 0 (x_H X) (x_H X * m t)) /\
    (forall ts, (forall t, In t ts -> 0 <= t) -> pressure_degree sealed X quad ts = map (fun t => 1 - m t / x_qu X) ts).
Proof.
  intros sealed X quad So Hq Hquad.
  set (u := gu (x_mvl X) (x_qu X) (wW (path sealed X) (x_kv0 X) (x_mvl X) (x_gamw X) (x_nterms X))).
  pose proof (b_u sealed X So) as Tu. fold u in Tu.
  exists u, (fun t => RInt (fun a => u a t) 0 (x_H X) / x_H X). split; auto.
  pose proof (so_H X So) as HH.
  assert (I : forall t, 0 <= t -> is_RInt (fun a => u a t) 0 (x_H X) (RInt (fun a => u a t) 0 (x_H X))).
  { intros t Ht. apply (RInt_correct (V := R_CompleteNormedModule)). apply (ex_RInt_continuous (V := R_CompleteNormedModule)).
    rewrite Rmin_left, Rmax_right by lra. intros a Ha. destruct (ls_flow _ _ _ _ _ _ _ _ _ (b_large sealed X So) t Ht) as (ua & fl & fa & D & _). fold u in D.
    apply (ex_derive_continuous (V := R_NormedModule) (fun b => u b t) a (ex_intro _ _ (proj1 (D a Ha)))). }
  split.
  - intros t Ht. refine (rint_val _ _ _ _ _ (I t Ht) _). set (r := RInt _ _ _). change R in (type of r). field. lra.
  - intros ts Hts. assert (Q : pressure_degree sealed X quad ts = map (fun tj => 1 - 1 / (x_H X * x_qu X) * quad (fun a => first_cell (pressure sealed X [a] [tj])) 0 (x_H X)) ts) by (destruct sealed; reflexivity).
    rewrite Q. apply map_ext_in. intros t Ht.
    rewrite (Hquad _ 0 (x_H X) (RInt (fun a => u a t) 0 (x_H X))).
    + field. lra.
    + apply (is_RInt_ext (fun a => u a t)); [|auto]. intros a _. rewrite Tu. reflexivity.
Qed.
Print Assumptions C109_pressure_degree.

(** ** C110: settlement *)
Theorem C110_settlement : forall sealed X, sound X ->
  exists e s U, tabulates (void_ratio sealed X) e /\ tabulates (settlement sealed X) s /\
    (forall a t, 0 <= a <= x_H X -> is_RInt (fun b => (x_e0 X b - e b t) / (1 + x_e0 X b)) a (x_H X) (s a t)) /\
    is_RInt (fun b => (x_e0 X b - x_efinal X b) / (1 + x_e0 X b)) 0 (x_H X) (x_settlement_final X) /\
    is_lim (s 0) p_infty (x_settlement_final X) /\
    (forall ts, degree sealed X ts = map U ts) /\ (forall t, U t * x_settlement_final X = s 0 t) /\
    ((1 <= x_nterms X)%nat -> (forall t, 0 <= t -> 0 <= U t < 1) /\ (forall t1 t2, t1 < t2 -> U t1 < U t2) /\ U 0 <= 2 / (PI^2 * INR (x_nterms X))).
Proof.
  intros sealed X So. eexists. eexists. exists (tz_doc (path sealed X) (x_kv0 X) (x_mvl X) (x_gamw X) (x_nterms X)).
  split; [apply (b_e sealed X So)|]. split; [apply (b_S sealed X So)|]. split; [intros a t; apply (b_settle sealed X So)|].
  pose proof (b_path sealed X So) as Hp. destruct So as [HH Hk Hm Hg Hq He]. assert (So : sound X) by (split; auto). split; [|split; [|split; [|split]]].
  - apply (is_RInt_ext (fun _ => 1 - exp (- x_mvl X * x_qu X))).
    + intros b. rewrite Rmin_left, Rmax_right by lra. intros Hb. match goal with |- ?p = ?q => change (@eq R p q) end. unfold x_efinal. pose proof (He b ltac:(lra)). field. lra.
    + apply (rint_val _ _ _ (scal (x_H X - 0) (1 - exp (- x_mvl X * x_qu X)))); [apply (is_RInt_const (V := R_NormedModule))|]. unfold scal; cbn; unfold Hierarchy.mult; cbn. unfold x_settlement_final. ring.
  - unfold x_settlement_final. replace (x_H X * (1 - exp (- x_mvl X * x_qu X))) with ((1 - exp (- x_mvl X * x_qu X)) * (x_H X - 0)) by ring. apply wS_lim; auto.
  - intros ts. apply b_us; auto.
  - intros t. unfold tz_doc, wS, x_settlement_final. set (D := tz_dTv (path sealed X) (x_kv0 X) (x_mvl X) (x_gamw X)).
    rewrite (ssum_ext (fun j => 2 / Mk j ^ 2 * (endk sealed + cos (Mk j * (0 / path sealed X))) * exp (- Mk j ^ 2 * (D * t))) (fun j => (endk sealed + 1) * (2 / Mk j ^ 2 * exp (- Mk j ^ 2 * (D * t))))).
    + rewrite ssum_scal. unfold path, endk. destruct sealed; field.
    + intros j _. replace (Mk j * (0 / path sealed X)) with 0 by (field; lra). rewrite cos_0. ring.
  - intros Hn. destruct (C77_degree_of_consolidation (path sealed X) (x_kv0 X) (x_mvl X) (x_gamw X) 1 (x_nterms X) Hp Hk Hm Hg Hn) as (d & Ed & A1 & A2 & A3).
    assert (Q : forall t, tz_doc (path sealed X) (x_kv0 X) (x_mvl X) (x_gamw X) (x_nterms X) t = d t).
    { intros t. pose proof (Ed [] [t]) as P. rewrite tz_doc_eq in P. cbn in P. congruence. }
    split; [|split]; intros; rewrite ?Q; auto.
Qed.
Print Assumptions C110_settlement.

(** The convective coordinate: the deformed position of the point at initial depth a. *)
Theorem C110_position : forall sealed X, sound X ->
  exists e s xi, tabulates (void_ratio sealed X) e /\ tabulates (settlement sealed X) s /\ tabulates (position sealed X) xi /\
    (forall a t, xi a t = a + s a t) /\ (forall t, xi (x_H X) t = x_H X) /\
    (forall a t, 0 <= a <= x_H X -> is_derive (fun b => xi b t) a ((1 + e a t) / (1 + x_e0 X a))).
Proof.
  intros sealed X So. eexists. eexists. eexists. split; [apply (b_e sealed X So)|]. split; [apply (b_S sealed X So)|]. split; [apply (b_xi sealed X So)|].
  cbv beta. split; [reflexivity|]. split.
  - intros t. rewrite wS_base by (apply (b_end sealed X So)). ring.
  - intros a t Ha. evar_last; [apply (is_derive_plus (V := R_NormedModule) (fun b => b)); [apply is_derive_id|apply wS_da; apply (b_path sealed X So)]|].
    unfold plus, one; cbn. pose proof (b_ne0 X So a Ha) as N. unfold ge, gef. field. auto.
Qed.
Print Assumptions C110_position.

(** ** C111: the initial and final states *)
Theorem C111_initial_state : forall X, 0 < x_mvl X -> 0 < 1 + x_e00 X -> forall a, 0 < 1 + x_e0 X a ->
  (** the effective stress is that of the overburden, qp at the top, and the buoyant unit weight below *)
  x_initial_effective_stress X 0 = x_qp X /\
  is_derive (x_initial_effective_stress X) a (x_gamw X * (x_Gs X - 1) / (1 + x_e0 X a)) /\
  (** the void ratio is the one the compression law gives for that stress *)
  1 + x_e0 X a = (1 + x_e00 X) * exp (- x_mvl X * (x_initial_effective_stress X a - x_qp X)) /\
  (** and the final one the one of that stress plus the load *)
  1 + x_efinal X a = (1 + x_e00 X) * exp (- x_mvl X * (x_initial_effective_stress X a + x_qu X - x_qp X)).
Proof.
  intros X Hm He a Ha. unfold x_e0 in *. set (c := x_mvl X * x_gamw X * (x_Gs X - 1)) in *.
  assert (Pa : 0 < 1 + x_e00 X - c * a) by lra.
  assert (L : 1 + (x_e00 X - c * a) = (1 + x_e00 X) * exp (- x_mvl X * (x_initial_effective_stress X a - x_qp X))).
  { unfold x_initial_effective_stress. fold c.
    replace (- x_mvl X * (x_qp X + 1 / x_mvl X * ln ((1 + x_e00 X) / (1 + x_e00 X - c * a)) - x_qp X)) with (- ln ((1 + x_e00 X) / (1 + x_e00 X - c * a))) by (field; lra).
    rewrite exp_Ropp, exp_ln by (apply Rdiv_lt_0_compat; lra). field. lra. }
  split; [|split; [|split]].
  - unfold x_initial_effective_stress. rewrite Rmult_0_r, Rminus_0_r. replace ((1 + x_e00 X) / (1 + x_e00 X)) with 1 by (field; lra). rewrite ln_1. ring.
  - unfold x_initial_effective_stress. fold c. auto_derive.
    + split; [intros E0; unfold Rminus in *; lra|]. split; [apply Rdiv_lt_0_compat; lra|auto].
    + unfold c in *. field. repeat split; lra.
  - exact L.
  - unfold x_efinal, x_e0. fold c. rewrite L. replace (- x_mvl X * (x_initial_effective_stress X a + x_qu X - x_qp X)) with (- x_mvl X * (x_initial_effective_stress X a - x_qp X) + - x_mvl X * x_qu X) by ring.
    rewrite exp_plus. ring.
Qed.
Print Assumptions C111_initial_state.

(** ** C112: velocities *)
Theorem C112_soil_velocity : forall sealed X, sound X ->
  exists s v, tabulates (settlement sealed X) s /\ tabulates (soil_velocity sealed X) v /\ forall a t, is_derive (s a) t (v a t).
Proof.
  intros sealed X So. eexists. eexists. split; [apply (b_S sealed X So)|]. split; [apply (b_v sealed X So)|].
  intros a t. destruct So as [HH Hk Hm Hg Hq He] eqn:ES. apply wS_dt; auto; [apply (b_path sealed X So)|apply (b_end sealed X So)].
Qed.
Print Assumptions C112_soil_velocity.

(** Everything the water velocity is compared with. *)
Record flow_state (sealed : bool) (X : xie) (u ua e v w : R -> R -> R) : Prop := {
  fs_u : tabulates (pressure sealed X) u; fs_e : tabulates (void_ratio sealed X) e;
  fs_v : tabulates (soil_velocity sealed X) v; fs_w : tabulates (water_velocity_of sealed X) w;
  fs_ua : forall a t, 0 <= a <= x_H X -> 0 <= t -> is_derive (fun b => u b t) a (ua a t) }.
Definition flux_of (X : xie) (ua e : R -> R -> R) (a t : R) : R := darcy_flux (x_kv0 X) (x_gamw X) (x_e0 X a) (e a t) (ua a t).

Section Velocities.
Variables (sealed : bool) (X : xie).
Hypothesis So : sound X.
Let W := wW (path sealed X) (x_kv0 X) (x_mvl X) (x_gamw X) (x_nterms X).
Let Wa := wWa (path sealed X) (x_kv0 X) (x_mvl X) (x_gamw X) (x_nterms X).
Let u := gu (x_mvl X) (x_qu X) W.
Let ua := gua (x_mvl X) (x_qu X) W Wa.
Let e := ge (x_mvl X) (x_qu X) (x_e0 X) W.
Let q x t := x_cv0 X * (1 - exp (- x_mvl X * x_qu X)) * Wa x t.
Lemma v_flux a t : 0 <= a <= x_H X -> 0 <= t -> flux_of X ua e a t = q a t.
Proof using So.
  intros Ha Ht. unfold flux_of. symmetry. unfold q, x_cv0.
  pose proof (so_H X So). pose proof (so_mvl X So). pose proof (so_gamw X So). pose proof (so_qu X So).
  apply (g_flux (x_H X) (x_kv0 X) (x_mvl X) (x_gamw X) (x_qu X) (x_e0 X) W Wa); auto; try lra; [apply (b_ne0 X So)|apply (b_Wpos sealed X So)].
Qed.
Lemma v_ua a t : 0 <= a <= x_H X -> 0 <= t -> is_derive (fun b => u b t) a (ua a t).
Proof using So.
  intros Ha Ht. pose proof (so_mvl X So). pose proof (so_qu X So).
  apply (g_ua (x_H X) (x_mvl X) (x_qu X) W Wa); auto; [apply (b_Wa sealed X So)|apply (b_Wpos sealed X So)].
Qed.
Lemma v_e_pos a t : 0 <= a <= x_H X -> 0 <= t -> 0 < 1 + e a t.
Proof using So.
  intros Ha Ht. pose proof (so_mvl X So). pose proof (so_qu X So). unfold e. rewrite ge_ratio. apply Rmult_lt_0_compat; [apply (so_e0 X So a Ha)|].
  apply (ratio_pos (x_H X) (x_mvl X) (x_qu X) W); auto. apply (b_Wpos sealed X So).
Qed.
End Velocities.

(** Sealed base: the reported velocity of the water is positive upwards. *)
Theorem C112_water_velocity_sealed : forall X, sound X -> exists u ua e v w, flow_state true X u ua e v w /\
  forall a t, 0 <= a <= x_H X -> 0 <= t -> e a t <> 0 -> water_velocity (e a t) (v a t) (flux_of X ua e a t) (- w a t).
Proof.
  intros X So.
  exists (gu (x_mvl X) (x_qu X) (WI X)), (gua (x_mvl X) (x_qu X) (WI X) (wWa (x_H X) (x_kv0 X) (x_mvl X) (x_gamw X) (x_nterms X))),
    (ge (x_mvl X) (x_qu X) (x_e0 X) (WI X)), (vI X), (fun x y => vI X x y / ge (x_mvl X) (x_qu X) (x_e0 X) (WI X) x y). split.
  - split; [apply (b_u true X So)|apply (b_e true X So)|apply (b_v true X So)| |apply (v_ua true X So)].
    intros a t. destruct So. apply vw_I; auto.
  - intros a t Ha Ht Ne. unfold water_velocity. pose proof (v_flux true X So a t Ha Ht) as F. unfold path in F. change (wW (x_H X) (x_kv0 X) (x_mvl X) (x_gamw X) (x_nterms X)) with (WI X) in F. rewrite F. clear F.
    pose proof (v_e_pos true X So a t Ha Ht) as P. change (wW (path true X) (x_kv0 X) (x_mvl X) (x_gamw X) (x_nterms X)) with (WI X) in P.
    unfold vI. pose proof (b_sealed true X So eq_refl t) as B. cbv zeta in B. unfold path in B. rewrite B. field. split; lra.
Qed.
Print Assumptions C112_water_velocity_sealed.

(** Drained base: the reported velocity of the water is positive downwards, and too large by half the velocity of the soil divided by e. *)
Theorem C112_water_velocity_drained : forall X, sound X -> exists u ua e v w, flow_state false X u ua e v w /\
  (forall a t, 0 <= a <= x_H X -> 0 <= t -> e a t <> 0 -> water_velocity (e a t) (v a t) (flux_of X ua e a t) (w a t - v a t / (2 * e a t))) /\
  (forall t, v (x_H X) t = 0) /\
  (0 < x_qu X -> (1 <= x_nterms X)%nat -> forall t, 0 < v 0 t).
Proof.
  intros X So.
  exists (gu (x_mvl X) (x_qu X) (WD X)), (gua (x_mvl X) (x_qu X) (WD X) (wWa (x_H X / 2) (x_kv0 X) (x_mvl X) (x_gamw X) (x_nterms X))),
    (ge (x_mvl X) (x_qu X) (x_e0 X) (WD X)), (vD X), (fun x y => let e := ge (x_mvl X) (x_qu X) (x_e0 X) (WD X) x y in ((1 + e) * QD X y - vD X x y / 2) / e). split; [|split; [|split]].
  - split; [apply (b_u false X So)|apply (b_e false X So)|apply (b_v false X So)| |apply (v_ua false X So)].
    intros a t. destruct So. apply vw_D; auto.
  - intros a t Ha Ht Ne. cbv zeta. unfold water_velocity. pose proof (v_flux false X So a t Ha Ht) as F. unfold path in F. change (wW (x_H X / 2) (x_kv0 X) (x_mvl X) (x_gamw X) (x_nterms X)) with (WD X) in F. rewrite F. clear F.
    pose proof (v_e_pos false X So a t Ha Ht) as P. change (wW (path false X) (x_kv0 X) (x_mvl X) (x_gamw X) (x_nterms X)) with (WD X) in P.
    unfold vD, QD. field. split; lra.
  - intros t. unfold vD. ring.
  - intros Hq Hn t. unfold vD, wWa, tz_uz. destruct So. rewrite !Rmult_1_l, <- ssum_minus.
    assert (0 < 1 - exp (- x_mvl X * x_qu X)). { assert (exp (- x_mvl X * x_qu X) < 1); [|lra]. rewrite <- exp_0. apply exp_increasing. nra. }
    apply Rmult_lt_0_compat; [apply Rmult_lt_0_compat; auto; unfold x_cv0; apply Rdiv_lt_0_compat; auto; apply Rmult_lt_0_compat; auto|].
    rewrite (ssum_ext _ (fun k => 8 / x_H X * exp (- Mk k ^ 2 * (tz_dTv (x_H X / 2) (x_kv0 X) (x_mvl X) (x_gamw X) * t)))).
    + assert (Q : forall k, 0 < 8 / x_H X * exp (- Mk k ^ 2 * (tz_dTv (x_H X / 2) (x_kv0 X) (x_mvl X) (x_gamw X) * t))) by (intros k; apply Rmult_lt_0_compat; [apply Rdiv_lt_0_compat; lra|apply exp_pos]).
      destruct (x_nterms X) as [|m]; [lia|]. cbn [ssum]. specialize (Q m) as Qm.
      assert (0 <= ssum (fun k => 8 / x_H X * exp (- Mk k ^ 2 * (tz_dTv (x_H X / 2) (x_kv0 X) (x_mvl X) (x_gamw X) * t))) m); [|lra].
      rewrite <- (ssum_0 m). apply ssum_le. intros k _. apply Rlt_le, Q.
    + intros k _. replace (Mk k * (0 / (x_H X / 2))) with 0 by (field; lra). rewrite cos_0. pose proof (end_D X so_H0 k) as D.
      replace (cos (Mk k * (x_H X / (x_H X / 2)))) with (-1) by lra. field. lra.
Qed.
Print Assumptions C112_water_velocity_drained.

(** So at the surface of a loaded layer with a drained base it does not obey Darcy's law. *)
Theorem C112_water_velocity_refuted : forall X, sound X -> 0 < x_qu X -> (1 <= x_nterms X)%nat -> exists u ua e v w, flow_state false X u ua e v w /\
  forall t, 0 <= t -> e 0 t <> 0 -> ~ water_velocity (e 0 t) (v 0 t) (flux_of X ua e 0 t) (w 0 t).
Proof.
  intros X So Hq Hn. destruct (C112_water_velocity_drained X So) as (u & ua & e & v & w & F & A & _ & P). exists u, ua, e, v, w. split; auto.
  intros t Ht Ne B. specialize (P Hq Hn t). pose proof (so_H X So). specialize (A 0 t ltac:(lra) Ht Ne). unfold water_velocity in A, B. rewrite <- B in A.
  assert (Z : e 0 t / (1 + e 0 t) * (v 0 t / (2 * e 0 t)) = 0) by lra.
  destruct (Req_dec (1 + e 0 t) 0) as [N|N].
  - pose proof (ls_compression _ _ _ _ _ _ _ _ _ (b_large false X So) 0 t ltac:(lra) Ht) as C0.
    pose proof (b_e false X So [0] [t]) as T1. pose proof (fs_e _ _ _ _ _ _ _ F [0] [t]) as T2. rewrite T1 in T2. cbn [map] in T2. injection T2 as T3. cbv delta [path] iota beta in C0, T3. rewrite T3, N in C0.
    pose proof (so_e0 X So 0 ltac:(lra)) as Q1. match type of C0 with 0 = _ * exp ?y => pose proof (exp_pos y) as Q2 end. nra.
  - assert (Z2 : v 0 t = 0); [|lra]. replace (v 0 t) with (2 * (1 + e 0 t) * (e 0 t / (1 + e 0 t) * (v 0 t / (2 * e 0 t)))) by (field; auto). rewrite Z. ring.
Qed.
Print Assumptions C112_water_velocity_refuted.

(** ** C113: total pore pressure *)
Theorem C113_total_pore_pressure : forall sealed X, sound X ->
  exists u xi p, tabulates (pressure sealed X) u /\ tabulates (position sealed X) xi /\ tabulates (total_pore_pressure sealed X) p /\
    forall a t, p a t = u a t + x_gamw X * (x_Hw X + xi a t).
Proof.
  intros sealed X So. eexists. eexists. eexists. split; [apply (b_u sealed X So)|]. split; [apply (b_xi sealed X So)|]. split; [apply (b_tpp sealed X So)|].
  intros a t. cbv beta. ring.
Qed.
Print Assumptions C113_total_pore_pressure.

(** The four stress methods always raise. *)
Theorem C113_stresses_refuted : forall X a t,
  x_effective_stress_PTIB a t = Err NameError /\ x_effective_stress_PTPB a t = Err NameError /\
  x_total_stress_PTIB a t = Err NameError /\ x_total_stress_PTPB a t = Err NameError /\ (sound X -> exists p, tabulates (total_pore_pressure true X) p).
Proof. intros X a t. repeat (split; [reflexivity|]). intros So. eexists. apply (b_tpp true X So). Qed.
Print Assumptions C113_stresses_refuted.

(** ** C114: the time at which a degree of consolidation is reached *)
Theorem C114_time_from_degree : forall sealed X taus, sound X -> (1 <= x_nterms X)%nat ->
  let T s := x_kv0 X / (x_mvl X * x_gamw X) / x_H X ^ 2 * s in
  exists ts, time_from_degree sealed X (degree sealed X taus) = Ok ts /\
    Forall2 (fun tau t => (T tau <= / 10000 -> T t = / 10000) /\ (10 <= T tau -> T t = 10) /\ (/ 10000 <= T tau <= 10 -> Rabs (t - tau) <= 24 / 1000 * tau)) taus ts.
Proof.
  intros sealed X taus So Hn T. rewrite b_us by auto. set (g := tz_doc (path sealed X) (x_kv0 X) (x_mvl X) (x_gamw X) (x_nterms X)).
  pose proof (b_path sealed X So) as Hp. assert (Hgm : forall s t, s < t -> g s < g t).
  { destruct So. intros s t L. apply doc_mono; auto. repeat apply Rdiv_lt_0_compat; auto. apply pow_lt; auto. }
  assert (Hd : 0 < x_dTv X). { destruct So. unfold x_dTv, x_cv0. apply Rdiv_lt_0_compat; [apply Rdiv_lt_0_compat; auto; apply Rmult_lt_0_compat; auto|apply pow_lt; auto]. }
  assert (Q : forall vs, time_from_degree sealed X vs = mapM (fun v => np_interp v (map g (t_interp X)) (t_interp X)) vs).
  { intros vs. pose proof (b_us sealed X So (t_interp X)) as U. fold g in U. unfold time_from_degree, x_t_from_Us_PTIB, x_t_from_Us_PTPB. rewrite <- U. destruct sealed; reflexivity. }
  rewrite Q. induction taus as [|tau taus IH]; cbn [map mapM].
  - exists []. split; [reflexivity|constructor].
  - destruct IH as (ts & E1 & F1). destruct (table_time X Hd g tau Hgm) as (t & E2 & A & B & C0). rewrite E2. cbn [bind]. rewrite E1. cbn [bind]. exists (t :: ts). split; [reflexivity|]. constructor; auto.
    assert (TT : forall s, T s = x_dTv X * s) by reflexivity. rewrite !TT.
    assert (M : forall c s, c / x_dTv X <= s <-> c <= x_dTv X * s).
    { intros c s. split; intros L; [apply (Rmult_le_compat_l (x_dTv X)) in L; [|lra]; replace (x_dTv X * (c / x_dTv X)) with c in L by (field; lra); auto|].
      apply (Rmult_le_reg_l (x_dTv X)); auto. replace (x_dTv X * (c / x_dTv X)) with c by (field; lra). auto. }
    assert (M' : forall c s, s <= c / x_dTv X <-> x_dTv X * s <= c).
    { intros c s. split; intros L; [apply (Rmult_le_compat_l (x_dTv X)) in L; [|lra]; replace (x_dTv X * (c / x_dTv X)) with c in L by (field; lra); auto|].
      apply (Rmult_le_reg_l (x_dTv X)); auto. replace (x_dTv X * (c / x_dTv X)) with c by (field; lra). auto. }
    split; [|split].
    + intros L. rewrite (A (proj2 (M' _ _) L)). rewrite TT. field. lra.
    + intros L. rewrite (B (proj2 (M _ _) L)). rewrite TT. field. lra.
    + intros [L1 L2]. apply C0. split; [apply M|apply M']; auto.
Qed.
Print Assumptions C114_time_from_degree.

(** ** A concrete layer: 10 m, void ratio 3 at the top, loaded by 100 kPa *)
Definition ex_xie : xie := mkXie 100 10 10 1 (/ 1000) (/ 250) 3 (275 / 100) 10 100.
Theorem C109_witness : sound ex_xie /\ 0 < x_qu ex_xie /\ (1 <= x_nterms ex_xie)%nat /\ x_efinal ex_xie 0 < x_e0 ex_xie 0.
Proof.
  split; [|split; [cbn; lra|split; [cbn; lia|]]].
  - split; cbn; try lra. intros a Ha. unfold x_e0; cbn. lra.
  - unfold x_efinal, x_e0; cbn. assert (exp (- / 250 * 100) < 1) by (rewrite <- exp_0; apply exp_increasing; lra). lra.
Qed.
Print Assumptions C109_witness.
