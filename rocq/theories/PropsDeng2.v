(** * Property theorems: dengetal2014 (C116) *)
From Coq Require Import Reals List Bool Arith Lia Lra.
From Coquelicot Require Import Coquelicot.
From Verif Require Import Base SmearModel SpecSmear TerzaghiModel TerzaghiProofs TerzaghiProofs2 DengModel SpecDeng DengProofs PropsDeng.
Import ListNotations.
Local Open Scope R_scope.

Section Modes.
Variables (D : deng) (mu0 : R) (nt : nat).
Hypothesis So : sound_drain D.
Hypothesis Hmu : 0 < mu0.
Hypothesis HA3 : 0 < d_A3 D.
Let H := d_H D.
Let n := d_n D.
Let ch := d_ch D.
Definition Rm (k : nat) : R := 2 * PI * d_kh D * d_H D ^2 * (d_n D ^2 - 1) / (d_n D ^2 * d_qw0 D * Mk k ^2).
Lemma n_gt1 : 1 < n.
Proof using So. destruct So. unfold n, d_n. apply (Rmult_lt_reg_r (d_rw D)); [lra|]. unfold Rdiv. rewrite Rmult_assoc, Rinv_l by lra. lra. Qed.
Lemma q_pos : 0 < d_qw0 D.
Proof using So. destruct So. pose proof PI_RGT_0. unfold d_qw0. apply Rmult_lt_0_compat; [apply Rmult_lt_0_compat; lra|apply pow_lt; lra]. Qed.
Lemma Rm_pos k : 0 < Rm k.
Proof using So.
  pose proof n_gt1 as N. unfold n in N. pose proof q_pos as Q. pose proof (Mk_pos k) as P. pose proof PI_RGT_0. destruct So. unfold Rm.
  assert (1 < d_n D ^2) by nra. assert (0 < Mk k ^2) by (apply pow_lt; auto). assert (0 < d_H D ^2) by (apply pow_lt; auto).
  apply Rdiv_lt_0_compat; [|apply Rmult_lt_0_compat; auto; apply Rmult_lt_0_compat; lra].
  apply Rmult_lt_0_compat; [|lra]. apply Rmult_lt_0_compat; auto. apply Rmult_lt_0_compat; auto. lra.
Qed.
Definition Dm (k : nat) (t : R) : R := mu0 + Rm k * exp (d_A3 D * t).
Lemma Dm_pos k t : 0 < Dm k t.
Proof using So Hmu. unfold Dm. pose proof (Rmult_lt_0_compat _ _ (Rm_pos k) (exp_pos (d_A3 D * t))). lra. Qed.
Definition fm (k : nat) (t : R) : R :=
  let a3 := d_A3 D * 4 * d_re D ^2 / d_ch D in
  1 * Rpower ((1 + mu0 / Rm k * exp (- a3 * (d_ch D * t / 4 / d_re D ^2))) / (1 + mu0 / Rm k)) (8 / (a3 * mu0)).
Lemma fm_decays k : fm k 0 = 1 /\ forall t, is_derive (fm k) t (- (2 * ch / (d_re D ^2 * Dm k t)) * fm k t).
Proof using So Hmu HA3.
  pose proof (ch_pos D So) as Hch. destruct (decay_pow (d_ch D) (d_re D) (d_A3 D) 1 mu0 (Rm k) Hch ltac:(destruct So; lra) Hmu HA3 (Rm_pos k)) as [_ A]. exact A.
Qed.
Definition du (z t : R) : R := d_ui D * ssum (fun k => 2 / Mk k * sin (Mk k * (z / H)) * fm k t) nt.
Definition gm (k : nat) (t : R) : R := fm k t * (Rm k * exp (d_A3 D * t) / Dm k t).
Definition dw (z t : R) : R := d_ui D * ssum (fun k => 2 / Mk k * sin (Mk k * (z / H)) * gm k t) nt.
Definition dwz (z t : R) : R := d_ui D * ssum (fun k => 2 / H * cos (Mk k * (z / H)) * gm k t) nt.
Definition dwzz (z t : R) : R := d_ui D * ssum (fun k => - 2 * Mk k / H^2 * sin (Mk k * (z / H)) * gm k t) nt.
Definition dut (z t : R) : R := d_ui D * ssum (fun k => 2 / Mk k * sin (Mk k * (z / H)) * (- (2 * ch / (d_re D ^2 * Dm k t)) * fm k t)) nt.
Lemma HH : 0 < H. Proof using So. destruct So. auto. Qed.
Lemma du_t z t : is_derive (du z) t (dut z t).
Proof using So Hmu HA3.
  unfold du, dut. apply (is_derive_scal (fun s => ssum _ nt)). apply (ssum_derive (fun k s => 2 / Mk k * sin (Mk k * (z / H)) * fm k s) (fun k s => 2 / Mk k * sin (Mk k * (z / H)) * (- (2 * ch / (d_re D ^2 * Dm k s)) * fm k s))).
  intros k _. apply (is_derive_scal (fm k)). apply fm_decays.
Qed.
Lemma dw_z z t : is_derive (fun y => dw y t) z (dwz z t).
Proof using So.
  pose proof HH. unfold dw, dwz. apply (is_derive_scal (fun y => ssum _ nt)).
  apply (ssum_derive (fun k y => 2 / Mk k * sin (Mk k * (y / H)) * gm k t) (fun k y => 2 / H * cos (Mk k * (y / H)) * gm k t)).
  intros k _. pose proof (Mk_pos k). auto_derive; auto. unfold Rdiv. field. lra.
Qed.
Lemma dw_zz z t : is_derive (fun y => dwz y t) z (dwzz z t).
Proof using So.
  pose proof HH. unfold dwz, dwzz. apply (is_derive_scal (fun y => ssum _ nt)).
  apply (ssum_derive (fun k y => 2 / H * cos (Mk k * (y / H)) * gm k t) (fun k y => - 2 * Mk k / H^2 * sin (Mk k * (y / H)) * gm k t)).
  intros k _. auto_derive; auto. cbn [pow]. unfold Rdiv. field. lra.
Qed.
Lemma d_system : soil_and_drain (d_kh D / d_mv D / d_gamw D) (d_mv D) (d_gamw D) (d_rw D) (d_re D) H mu0 (fun t => PI * d_rw D ^2 * (d_kw0 D * exp (- d_A3 D * t))) du dw.
Proof using So Hmu HA3.
  pose proof HH as Hp. pose proof n_gt1 as Hn. pose proof q_pos as Q. pose proof So as [Hrw _ Hkw Hkh Hmv Hg _]. pose proof PI_RGT_0 as Hpi. pose proof (ch_pos D So) as Hch.
  split.
  - intros z t. exists (dut z t), (fun y => dwz y t), (dwzz z t). split; [apply du_t|]. split; [|split; [intros; apply dw_z|split; [apply dw_zz|]]].
    + unfold dut, du, dw. rewrite <- Rmult_minus_distr_l, <- ssum_minus. change (d_kh D / d_mv D / d_gamw D) with ch.
      replace (- (2 * ch / (d_re D ^ 2 * mu0)) * (d_ui D * ssum (fun k => 2 / Mk k * sin (Mk k * (z / H)) * fm k t - 2 / Mk k * sin (Mk k * (z / H)) * gm k t) nt))
        with (d_ui D * ssum (fun k => - (2 * ch / (d_re D ^ 2 * mu0)) * (2 / Mk k * sin (Mk k * (z / H)) * fm k t - 2 / Mk k * sin (Mk k * (z / H)) * gm k t)) nt) by (rewrite ssum_scal; ring).
      f_equal. apply ssum_ext. intros k _. unfold gm. pose proof (Dm_pos k t) as Pd. replace (Rm k * exp (d_A3 D * t)) with (Dm k t - mu0) by (unfold Dm; ring).
      pose proof (Mk_pos k). field. repeat split; lra.
    + unfold dwzz, dut.
      replace (PI * d_rw D ^ 2 * (d_kw0 D * exp (- d_A3 D * t)) / d_gamw D * (d_ui D * ssum (fun k => -2 * Mk k / H ^ 2 * sin (Mk k * (z / H)) * gm k t) nt))
        with (d_ui D * ssum (fun k => PI * d_rw D ^ 2 * (d_kw0 D * exp (- d_A3 D * t)) / d_gamw D * (-2 * Mk k / H ^ 2 * sin (Mk k * (z / H)) * gm k t)) nt) by (rewrite ssum_scal; ring).
      replace (PI * (d_re D ^ 2 - d_rw D ^ 2) * d_mv D * (d_ui D * ssum (fun k => 2 / Mk k * sin (Mk k * (z / H)) * (- (2 * ch / (d_re D ^ 2 * Dm k t)) * fm k t)) nt))
        with (d_ui D * ssum (fun k => PI * (d_re D ^ 2 - d_rw D ^ 2) * d_mv D * (2 / Mk k * sin (Mk k * (z / H)) * (- (2 * ch / (d_re D ^ 2 * Dm k t)) * fm k t))) nt) by (rewrite ssum_scal; ring).
      f_equal. apply ssum_ext. intros k _. unfold gm. pose proof (Dm_pos k t) as Pd. pose proof (Mk_pos k) as Pm.
      set (d := Dm k t) in *. clearbody d. replace (- d_A3 D * t) with (- (d_A3 D * t)) by ring. rewrite exp_Ropp. pose proof (exp_pos (d_A3 D * t)) as Px. set (x := exp (d_A3 D * t)) in *. clearbody x.
      unfold Rm. fold H. unfold d_qw0, d_n, ch, d_ch. set (sn := sin (Mk k * (z / H))). set (f := fm k t). clearbody sn f. field. repeat split; lra.
  - intros t. unfold dw. rewrite ssum_0'; [ring|]. intros k _. replace (Mk k * (0 / H)) with 0 by (field; lra). rewrite sin_0. ring.
  - intros t. replace 0 with (dwz H t); [apply dw_z|]. unfold dwz. rewrite ssum_0'; [ring|]. intros k _. replace (Mk k * (H / H)) with (Mk k) by (field; lra). rewrite cos_Mk. ring.
Qed.
Lemma du_0 z : du z 0 = tz_u H 1 1 1 (d_ui D) nt z 0.
Proof using So Hmu HA3.
  unfold du, tz_u. f_equal. apply ssum_ext. intros k _. rewrite (proj1 (fm_decays k)). replace (- Mk k ^ 2 * (tz_dTv H 1 1 1 * 0)) with 0 by ring. rewrite exp_0. ring.
Qed.
Lemma deng2014_table zs ts : d_mu0 D = Ok mu0 -> dengetal2014 D nt zs ts = Ok (map (fun z => map (fun t => Some (du z t)) ts) zs).
Proof using So Hmu HA3.
  intros E. unfold dengetal2014. replace (Rltb (d_A3 D) 0) with false by (symmetry; apply Rltb_false; lra). rewrite E. cbn [bind]. cbv zeta. f_equal. unfold d_grid.
  apply map_ext. intros z. apply map_ext. intros t. f_equal. unfold du. f_equal. rewrite np_sum_M. apply ssum_ext. intros k _. fold (Mk k). fold H. f_equal.
  pose proof (ch_pos D So) as Hch. assert (Ha : 0 < d_A3 D * 4 * d_re D ^2 / d_ch D) by (apply Rdiv_lt_0_compat; auto; apply Rmult_lt_0_compat; [lra|apply pow_lt; destruct So; lra]).
  replace (Reqb (d_A3 D * 4 * d_re D ^ 2 / d_ch D * mu0) 0) with false by (symmetry; apply Reqb_false; pose proof (Rmult_lt_0_compat _ _ Ha Hmu); lra).
  unfold fm. rewrite Rmult_1_l. unfold d_Th.
  assert (C : Mk k ^ 2 * mu0 / 8 / (PI * d_kh D * H ^ 2 / 4 / d_qw0 D) * d_n D ^ 2 / (d_n D ^ 2 - 1) = mu0 / Rm k).
  { pose proof n_gt1 as Hn. unfold n in Hn. pose proof q_pos as Q. pose proof (Mk_pos k). pose proof PI_RGT_0. destruct So. unfold Rm. fold H. assert (1 < d_n D ^2) by nra. pose proof HH. field. repeat split; try lra. }
  rewrite C. reflexivity.
Qed.
End Modes.

(** ** C116 *)
Theorem C116_drain_and_soil : forall D nterms, sound_drain D -> 0 < d_A3 D ->
  exists mu0 u w, is_mu (d_re D / d_rw D) (around D) mu0 /\
    (forall zs ts, dengetal2014 D nterms zs ts = Ok (map (fun z => map (fun t => Some (u z t)) ts) zs)) /\
    soil_and_drain (d_kh D / d_mv D / d_gamw D) (d_mv D) (d_gamw D) (d_rw D) (d_re D) (d_H D) mu0
      (fun t => PI * d_rw D ^2 * (d_kw0 D * exp (- d_A3 D * t))) u w /\
    ((1 <= nterms)%nat -> exists e, is_RInt (fun z => (u z 0 - d_ui D)^2) 0 (d_H D) (e * d_H D) /\ 0 <= e <= d_ui D ^2 * (2 / (PI^2 * INR nterms))).
Proof.
  intros D nt So HA3. destruct (mu0_ok D So) as (mu0 & Emu & Imu & Hmu). exists mu0, (du D mu0 nt), (dw D mu0 nt). split; auto. split; [|split].
  - intros zs ts. apply deng2014_table; auto.
  - apply d_system; auto.
  - intros Hn. pose proof (dr_H D So) as HH. exists (d_ui D ^2 * tz_doc (d_H D) 1 1 1 nt 0). split.
    + apply (is_RInt_ext (fun z => (tz_u (d_H D) 1 1 1 (d_ui D) nt z 0 - d_ui D)^2)); [intros z _; rewrite <- du_0 with (mu0 := mu0) by auto; reflexivity|].
      replace (d_ui D ^ 2 * tz_doc (d_H D) 1 1 1 nt 0 * d_H D) with (d_ui D ^2 * d_H D * tz_doc (d_H D) 1 1 1 nt 0) by ring. apply tz_misfit; lra.
    + pose proof (tz_doc0_nonneg (d_H D) 1 1 1 nt HH) as B. pose proof (pow2_ge_0 (d_ui D)) as P. split; [apply Rmult_le_pos; auto|]. apply Rmult_le_compat_l; auto.
      pose proof (sum_tail nt Hn) as T. unfold tz_doc. rewrite (ssum_ext _ (fun k => 2 / Mk k ^2)); auto. intros k _.
      replace (- Mk k ^ 2 * (tz_dTv (d_H D) 1 1 1 * 0)) with 0 by ring. rewrite exp_0. ring.
Qed.
Print Assumptions C116_drain_and_soil.

(** With the default A3 = 0 (constant capacity) the result does not depend on time: the soil never consolidates,
    and no positive soil resistance and drain pressure satisfy the equations unless it was always zero. *)
Theorem C116_constant_capacity_refuted : forall D nterms, sound_drain D -> d_A3 D = 0 -> d_ui D <> 0 -> (1 <= nterms)%nat ->
  exists u, (forall zs ts, dengetal2014 D nterms zs ts = Ok (map (fun z => map (fun t => Some (u z t)) ts) zs)) /\
    (forall z t, u z t = u z 0) /\
    forall mu0 w, 0 < mu0 -> ~ soil_and_drain (d_kh D / d_mv D / d_gamw D) (d_mv D) (d_gamw D) (d_rw D) (d_re D) (d_H D) mu0
      (fun t => PI * d_rw D ^2 * (d_kw0 D * exp (- d_A3 D * t))) u w.
Proof.
  intros D nt So Z3 Hui Hn. destruct (mu0_ok D So) as (mu & Emu & _ & Hmu). pose proof So as [Hrw HH Hkw Hkh Hmv Hg _].
  set (c := fun z => d_ui D * ssum (fun k => 2 / Mk k * sin (Mk k * (z / d_H D)) * 1) nt).
  exists (fun z _ => c z). split; [|split; [reflexivity|]].
  - intros zs ts. unfold dengetal2014. replace (Rltb (d_A3 D) 0) with false by (symmetry; apply Rltb_false; lra). rewrite Emu. cbn [bind]. cbv zeta. f_equal. unfold d_grid.
    apply map_ext. intros z. apply map_ext. intros t. f_equal. unfold c. f_equal. rewrite np_sum_M. apply ssum_ext. intros k _. fold (Mk k). f_equal.
    replace (Reqb (d_A3 D * 4 * d_re D ^ 2 / d_ch D * mu) 0) with true; auto. symmetry. apply Reqb_true. rewrite Z3. unfold Rdiv. ring.
  - intros mu0 w Hm0 S0. pose proof (ch_pos D So) as Hch. change (d_kh D / d_mv D / d_gamw D) with (d_ch D) in S0. pose proof PI_RGT_0 as Hpi.
    assert (Re2 : 0 < d_re D ^2) by (apply pow_lt; lra).
    (* the drain pressure is the soil pressure *)
    assert (E1 : forall z, w z 0 = c z).
    { intros z. destruct (sd_system _ _ _ _ _ _ _ _ _ _ S0 z 0) as (ut & wz & wzz & A & B & _).
      assert (U0 : ut = 0). { transitivity (Derive (fun _ => c z) 0); [symmetry; apply is_derive_unique; exact A|apply Derive_const]. }
      rewrite U0 in B. assert (N : 2 * d_ch D / (d_re D ^ 2 * mu0) <> 0). { apply Rgt_not_eq. apply Rdiv_lt_0_compat; [lra|apply Rmult_lt_0_compat; auto]. }
      assert (P : 2 * d_ch D / (d_re D ^ 2 * mu0) * (c z - w z 0) = 0) by lra. apply Rmult_integral in P. destruct P as [P|P]; [contradiction|lra]. }
    (* so its second derivative vanishes, and with the boundary conditions it is zero *)
    assert (E2 : forall z, 0 <= z -> is_derive (fun x => w x 0) z 0).
    { assert (L : exists g, forall y, is_derive (fun x => w x 0) y (g y)).
      { exists (fun y => Derive (fun x => w x 0) y). intros y. destruct (sd_system _ _ _ _ _ _ _ _ _ _ S0 y 0) as (ut & wz & wzz & _ & _ & A & _). apply Derive_correct. exists (wz y). apply A. }
      destruct L as [g Hg']. assert (G : forall y, is_derive g y 0).
      { intros y. destruct (sd_system _ _ _ _ _ _ _ _ _ _ S0 y 0) as (ut & wz & wzz & A & _ & B & C & E).
        assert (U0 : ut = 0). { transitivity (Derive (fun _ => c y) 0); [symmetry; apply is_derive_unique; exact A|apply Derive_const]. }
        rewrite U0 in E. match type of E with _ = ?r => replace r with 0 in E by ring end. assert (Q : PI * d_rw D ^ 2 * (d_kw0 D * exp (- d_A3 D * 0)) / d_gamw D <> 0).
        { apply Rgt_not_eq. apply Rdiv_lt_0_compat; auto. apply Rmult_lt_0_compat; [apply Rmult_lt_0_compat; [lra|apply pow_lt; lra]|apply Rmult_lt_0_compat; [lra|apply exp_pos]]. }
        apply Rmult_integral in E. destruct E as [E|E]; [contradiction|]. rewrite E in C. apply (is_derive_ext wz); auto.
        intros x. transitivity (Derive (fun x => w x 0) x); [symmetry|]; apply is_derive_unique; [apply B|apply Hg']. }
      assert (Gc : forall y, g y = g (d_H D)).
      { intros y. destruct (MVT_gen g (d_H D) y (fun _ => 0)) as (x & _ & M); [intros; apply G|intros z _; apply continuity_pt_filterlim; apply (ex_derive_continuous (V := R_NormedModule) g z (ex_intro _ _ (G z)))|lra]. }
      assert (G0 : g (d_H D) = 0). { transitivity (Derive (fun x => w x 0) (d_H D)); [symmetry|]; apply is_derive_unique; [apply Hg'|apply (sd_bottom _ _ _ _ _ _ _ _ _ _ S0)]. }
      intros z _. assert (Gz : g z = 0) by (rewrite Gc; exact G0). pose proof (Hg' z) as Dz. rewrite Gz in Dz. exact Dz. }
    assert (E3 : forall z, 0 <= z -> c z = 0).
    { intros z Hz. rewrite <- E1. transitivity (w 0 0); [|apply (sd_top _ _ _ _ _ _ _ _ _ _ S0 0)].
      destruct (MVT_gen (fun x => w x 0) 0 z (fun _ => 0)) as (x & _ & M); [intros y Hy; apply E2; rewrite Rmin_left in Hy by lra; lra| |cbv beta in M; lra].
      intros y Hy. rewrite Rmin_left in Hy by lra. apply continuity_pt_filterlim. apply (ex_derive_continuous (V := R_NormedModule) (fun x => w x 0) y (ex_intro _ _ (E2 y ltac:(lra)))). }
    (* but its mean is not zero *)
    pose proof (tz_mean (d_H D) 1 1 1 (d_ui D) nt 0 ltac:(lra)) as I.
    assert (I0 : is_RInt (fun z => tz_u (d_H D) 1 1 1 (d_ui D) nt z 0) 0 (d_H D) 0).
    { apply (is_RInt_ext (fun _ => 0)).
      - rewrite Rmin_left, Rmax_right by lra. intros z Hz. match goal with |- ?p = ?q => change (@eq R p q) end. transitivity (c z); [symmetry; apply E3; lra|]. unfold c, tz_u. f_equal. apply ssum_ext. intros k _.
        replace (- Mk k ^ 2 * (tz_dTv (d_H D) 1 1 1 * 0)) with 0 by ring. rewrite exp_0. auto.
      - apply (rint_val _ _ _ (scal (d_H D - 0) 0)); [apply (is_RInt_const (V := R_NormedModule))|]. unfold scal; cbn; unfold Hierarchy.mult; cbn. ring. }
    pose proof (rint_unique _ _ _ _ _ I I0) as E. apply Rmult_integral in E. destruct E as [E|E]; [apply Rmult_integral in E; destruct E; [contradiction|lra]|].
    assert (P : 0 < ssum (fun k => 2 / Mk k ^2 * exp (- Mk k ^2 * (tz_dTv (d_H D) 1 1 1 * 0))) nt).
    { assert (Q : forall k, 0 < 2 / Mk k ^ 2 * exp (- Mk k ^ 2 * (tz_dTv (d_H D) 1 1 1 * 0))) by (intros k; apply Rmult_lt_0_compat; [apply Rdiv_lt_0_compat; [lra|apply pow_lt, Mk_pos]|apply exp_pos]).
      destruct nt as [|m]; [lia|]. cbn [ssum]. pose proof (Q m). assert (0 <= ssum (fun k => 2 / Mk k ^ 2 * exp (- Mk k ^ 2 * (tz_dTv (d_H D) 1 1 1 * 0))) m); [|lra].
      apply Rle_trans with (ssum (fun _ => 0) m); [rewrite ssum_0; lra|]. apply ssum_le. intros k _. apply Rlt_le, Q. }
    unfold tz_doc in E. lra.
Qed.
Print Assumptions C116_constant_capacity_refuted.

Theorem C116_witness : sound_drain ex_deng /\ 0 < d_A3 ex_deng /\ d_ui ex_deng <> 0.
Proof. split; [apply C115_witness|]. cbn. split; [lra|]. intros E; lra. Qed.
Print Assumptions C116_witness.
