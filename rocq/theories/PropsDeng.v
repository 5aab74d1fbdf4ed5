(** * Property theorems: drains with varying discharge capacity, dengetal2013 and dengetal2014 (C115, C116) *)
From Coq Require Import Reals List Bool Arith Lia Lra.
From Coquelicot Require Import Coquelicot.
From Verif Require Import Base SmearModel SpecSmear SmearProofs SmearProofs2 SmearProofs6 SmearProofs7 PropsSmear TerzaghiModel TerzaghiProofs TerzaghiProofs2 DengModel SpecDeng DengProofs.
Import ListNotations.
Local Open Scope R_scope.

(** Meaningful drain and soil. *)
Record sound_drain (D : deng) : Prop := {
  dr_rw : 0 < d_rw D < d_re D; dr_H : 0 < d_H D; dr_kw : 0 < d_kw0 D; dr_kh : 0 < d_kh D; dr_mv : 0 < d_mv D; dr_gamw : 0 < d_gamw D;
  dr_smear : match d_ks D, d_rs D with Some ks, Some rs => 0 < ks /\ d_rw D <= rs <= d_re D | _, _ => True end }.
(** The relative permeability around the drain, at a distance measured in drain radii. *)
Definition around (D : deng) : R -> R :=
  match d_ks D, d_rs D with Some ks, Some rs => k_const (rs / d_rw D) (d_kh D / ks) | _, _ => fun _ => 1 end.

Lemma mu0_ok D : sound_drain D -> exists mu0, d_mu0 D = Ok mu0 /\ is_mu (d_re D / d_rw D) (around D) mu0 /\ 0 < mu0.
Proof.
  intros [Hrw HH Hkw Hkh Hmv Hg Hs]. unfold d_mu0, around, d_n. set (n := d_re D / d_rw D).
  assert (Hn : 1 < n). { unfold n. apply (Rmult_lt_reg_r (d_rw D)); [lra|]. unfold Rdiv. rewrite Rmult_assoc, Rinv_l by lra. lra. }
  assert (I : exists mu0, bind (mu_ideal [n]) (fun l => Ok (hd 0 l)) = Ok mu0 /\ is_mu n (fun _ => 1) mu0 /\ 0 < mu0).
  { exists (mu_ideal_elem n). split; [|split; [apply is_mu_ideal; auto|apply mu_ideal_pos; auto]].
    unfold mu_ideal, any. cbn [existsb]. replace (Rleb n 1) with false by (symmetry; apply Rleb_false; auto). reflexivity. }
  destruct (d_ks D) as [ks|]; [|exact I]. destruct (d_rs D) as [rs|]; [|exact I]. destruct Hs as [Hks Hrs].
  assert (Hsn : 1 <= rs / d_rw D <= n).
  { unfold n. split; apply (Rmult_le_reg_r (d_rw D)); try lra; unfold Rdiv; rewrite ?Rmult_assoc, ?Rinv_l by lra; lra. }
  assert (Hkap : 0 < d_kh D / ks) by (apply Rdiv_lt_0_compat; auto).
  destruct (proj1 (C34_mu_constant n (rs / d_rw D) (d_kh D / ks)) Hn Hsn Hkap) as (mu & E & M). exists mu. split; auto. split; auto.
  apply (is_mu_gt0 n (k_const (rs / d_rw D) (d_kh D / ks)) mu (1 + / (d_kh D / ks))); auto.
  - pose proof (Rinv_0_lt_compat _ Hkap). lra.
  - intros x Hx. pose proof (Rinv_0_lt_compat _ Hkap). unfold k_const. destruct (Rlt_dec x (rs / d_rw D)); lra.
Qed.

(** The depths at which the code computes the pressure: with time dependent capacity not at the top, and not at a bottom without capacity. *)
Definition reached (D : deng) (z : R) : Prop := 0 <= z <= d_H D /\ (0 < d_A3 D -> 0 < z) /\ (d_A2 D = d_A1 D -> z < d_H D).

Definition d_u (D : deng) (mu0 z t : R) : R :=
  let r := resist (d_kh D) (d_H D) (d_rw D) (d_kw0 D) (d_A1 D) (d_A2 D) z in
  let a3 := d_A3 D * 4 * d_re D ^2 / d_ch D in
  if Req_EM_T (d_A3 D) 0 then d_ui D * exp (-8 * (d_ch D * t / 4 / d_re D ^2) / (mu0 + r))
  else d_ui D * Rpower ((1 + mu0 / r * exp (- a3 * (d_ch D * t / 4 / d_re D ^2))) / (1 + mu0 / r)) (8 / (a3 * mu0)).
Definition d_mu (D : deng) (mu0 z t : R) : R := mu0 + resist (d_kh D) (d_H D) (d_rw D) (d_kw0 D) (d_A1 D) (d_A2 D) z * exp (d_A3 D * t).

Lemma ch_pos D : sound_drain D -> 0 < d_ch D.
Proof. intros []. unfold d_ch. repeat apply Rdiv_lt_0_compat; auto. Qed.
Lemma reach_resist D z : sound_drain D -> 0 < d_A1 D -> 0 <= d_A2 D <= d_A1 D -> reached D z ->
  let r := resist (d_kh D) (d_H D) (d_rw D) (d_kw0 D) (d_A1 D) (d_A2 D) z in 0 <= r /\ (0 < d_A3 D -> 0 < r).
Proof.
  intros [Hrw HH Hkw Hkh Hmv Hg Hs] A1 A2 (Z1 & Z2 & Z3) r. destruct (Req_dec z 0) as [->|N].
  - split; [unfold r; rewrite resist_0; auto; lra|]. intros A3. specialize (Z2 A3). lra.
  - assert (0 < r) by (apply resist_pos; auto; lra). split; intros; lra.
Qed.
Lemma grid_in (f g : R -> R -> option R) zs ts : (forall z t, In z zs -> f z t = g z t) -> d_grid f zs ts = d_grid g zs ts.
Proof. intros E. unfold d_grid. apply map_ext_in. intros z Hz. apply map_ext. intros t. apply E; auto. Qed.
Lemma div_some x y : y <> 0 -> div_by x y = Some (x / y).
Proof. intros N. unfold div_by. replace (Reqb y 0) with false; auto. symmetry. apply Reqb_false. auto. Qed.
Lemma log_some x : 0 < x -> log_of x = Some (ln x).
Proof. intros N. unfold log_of. replace (Rltb 0 x) with true; auto. symmetry. apply Rltb_true. auto. Qed.
Lemma pow_some x y : 0 < x -> pow_of x y = Some (Rpower x y).
Proof. intros N. unfold pow_of. replace (Rltb 0 x) with true; auto. symmetry. apply Rltb_true. auto. Qed.

Lemma deng2013_table D mu0 zs ts : sound_drain D -> 0 < d_A1 D -> 0 <= d_A2 D <= d_A1 D -> 0 <= d_A3 D ->
  d_mu0 D = Ok mu0 -> 0 < mu0 -> (forall z, In z zs -> reached D z) ->
  dengetal2013 D zs ts = Ok (Some (d_grid (fun z t => Some (d_u D mu0 z t)) zs ts)).
Proof.
  intros So A1 A2 A3 Emu Hmu Hz. pose proof (ch_pos D So) as Hch. pose proof So as [Hrw HH Hkw Hkh Hmv Hg Hs]. pose proof PI_RGT_0 as Hpi.
  assert (Q : 0 < d_qw0 D) by (unfold d_qw0; apply Rmult_lt_0_compat; [apply Rmult_lt_0_compat; lra|apply pow_lt; lra]).
  unfold dengetal2013. replace (Rltb (d_A1 D) 0) with false by (symmetry; apply Rltb_false; lra).
  replace (Rltb (d_A1 D) (d_A2 D)) with false by (symmetry; apply Rltb_false; lra). replace (Rltb (d_A3 D) 0) with false by (symmetry; apply Rltb_false; lra).
  rewrite Emu. cbn [bind].
  assert (Ha3 : 0 < d_A3 D -> 0 < d_A3 D * 4 * d_re D ^2 / d_ch D) by (intros; apply Rdiv_lt_0_compat; auto; apply Rmult_lt_0_compat; [lra|apply pow_lt; lra]).
  assert (PW : forall z t r, 0 < d_A3 D -> 0 < r -> r = resist (d_kh D) (d_H D) (d_rw D) (d_kw0 D) (d_A1 D) (d_A2 D) z -> forall alp, alp = mu0 / r ->
     obind (div_by (1 + alp * exp (- (d_A3 D * 4 * d_re D ^2 / d_ch D) * d_Th D t)) (1 + alp)) (fun b =>
       obind (pow_of b (8 / (d_A3 D * 4 * d_re D ^2 / d_ch D * mu0))) (fun p => Some (d_ui D * p))) = Some (d_u D mu0 z t)).
  { intros z t r A3p Hr Er alp ->. destruct (decay_pow (d_ch D) (d_re D) (d_A3 D) (d_ui D) mu0 r Hch ltac:(lra) Hmu A3p Hr) as [P _]. cbv zeta in P. specialize (P t).
    assert (0 < mu0 / r) by (apply Rdiv_lt_0_compat; auto). rewrite div_some by lra. cbn [obind]. unfold d_Th. rewrite pow_some by exact P. cbn [obind].
    unfold d_u. destruct (Req_EM_T (d_A3 D) 0); [lra|]. rewrite <- Er. reflexivity. }
  destruct (Req_dec (d_A3 D) 0) as [Z3|N3]; destruct (Req_dec (d_A2 D) 0) as [Z2|N2].
  - replace (Reqb (d_A3 D) 0) with true by (symmetry; apply Reqb_true; auto). replace (Reqb (d_A2 D) 0) with true by (symmetry; apply Reqb_true; auto). cbn [andb].
    do 2 f_equal. apply grid_in. intros z t Iz. specialize (Hz z Iz). destruct (reach_resist D z So A1 A2 Hz) as [R0 _]. unfold d_u. destruct (Req_EM_T (d_A3 D) 0); [|contradiction].
    assert (Er : mu0 + PI * d_kh D / (d_qw0 D * d_A1 D) * (2 * d_H D * z - z ^ 2) = mu0 + resist (d_kh D) (d_H D) (d_rw D) (d_kw0 D) (d_A1 D) (d_A2 D) z).
    { unfold resist. destruct (Req_EM_T (d_A2 D) 0); [reflexivity|contradiction]. }
    rewrite Er, div_some by lra. reflexivity.
  - replace (Reqb (d_A3 D) 0) with true by (symmetry; apply Reqb_true; auto). replace (Reqb (d_A2 D) 0) with false by (symmetry; apply Reqb_false; auto).
    replace (Rltb 0 (d_A2 D)) with true by (symmetry; apply Rltb_true; lra). cbn [andb].
    do 2 f_equal. apply grid_in. intros z t Iz. specialize (Hz z Iz). destruct (reach_resist D z So A1 A2 Hz) as [R0 _]. unfold d_u. destruct (Req_EM_T (d_A3 D) 0); [|contradiction].
    destruct Hz as (Z1 & _ & Z3'). rewrite log_some by (apply log_pos; auto). cbn [obind].
    assert (Er : (d_A2 D * z / d_H D + (d_A1 D - d_A2 D) * ln (1 - d_A2 D / d_A1 D * z / d_H D)) * (2 * PI * d_kh D * d_H D ^ 2 / (d_qw0 D * d_A2 D ^ 2)) = resist (d_kh D) (d_H D) (d_rw D) (d_kw0 D) (d_A1 D) (d_A2 D) z).
    { unfold resist. destruct (Req_EM_T (d_A2 D) 0); [contradiction|reflexivity]. }
    rewrite Er, Rplus_comm, div_some by lra. reflexivity.
  - replace (Reqb (d_A3 D) 0) with false by (symmetry; apply Reqb_false; auto). replace (Reqb (d_A2 D) 0) with true by (symmetry; apply Reqb_true; auto).
    replace (Rltb 0 (d_A3 D)) with true by (symmetry; apply Rltb_true; lra). cbn [andb].
    do 2 f_equal. apply grid_in. intros z t Iz. specialize (Hz z Iz). destruct (reach_resist D z So A1 A2 Hz) as [R0 R1]. specialize (R1 ltac:(lra)).
    assert (Er : PI * d_kh D * (2 * d_H D * z - z ^ 2) = resist (d_kh D) (d_H D) (d_rw D) (d_kw0 D) (d_A1 D) (d_A2 D) z * (d_qw0 D * d_A1 D)).
    { unfold resist. destruct (Req_EM_T (d_A2 D) 0); [|contradiction]. unfold d_qw0 in *. field. repeat split; try lra. }
    set (r := resist _ _ _ _ _ _ _) in *. assert (0 < r * (d_qw0 D * d_A1 D)) by (exact (Rmult_lt_0_compat _ _ R1 (Rmult_lt_0_compat _ _ Q A1))).
    rewrite Er, div_some by lra. cbn [obind]. apply (PW z t r); auto; try lra. field. repeat split; lra.
  - replace (Reqb (d_A3 D) 0) with false by (symmetry; apply Reqb_false; auto). replace (Reqb (d_A2 D) 0) with false by (symmetry; apply Reqb_false; auto).
    replace (Rltb 0 (d_A3 D)) with true by (symmetry; apply Rltb_true; lra). replace (Rltb 0 (d_A2 D)) with true by (symmetry; apply Rltb_true; lra). cbn [andb].
    do 2 f_equal. apply grid_in. intros z t Iz. specialize (Hz z Iz). destruct (reach_resist D z So A1 A2 Hz) as [R0 R1]. specialize (R1 ltac:(lra)).
    destruct Hz as (Z1 & _ & Z3'). rewrite log_some by (apply log_pos; auto). cbn [obind].
    assert (Er : d_A2 D * z / d_H D + (d_A1 D - d_A2 D) * ln (1 - d_A2 D / d_A1 D * z / d_H D) = resist (d_kh D) (d_H D) (d_rw D) (d_kw0 D) (d_A1 D) (d_A2 D) z * (d_qw0 D * d_A2 D ^ 2) / (2 * PI * d_kh D * d_H D ^ 2)).
    { unfold resist. destruct (Req_EM_T (d_A2 D) 0); [contradiction|]. unfold d_qw0 in *. field. repeat split; try lra. }
    set (r := resist _ _ _ _ _ _ _) in *. assert (P2 : 0 < d_A2 D ^ 2) by (apply pow_lt; lra). assert (P3 : 0 < d_H D ^ 2) by (apply pow_lt; lra).
    assert (0 < r * (d_qw0 D * d_A2 D ^ 2) / (2 * PI * d_kh D * d_H D ^ 2)) by (apply Rdiv_lt_0_compat; [exact (Rmult_lt_0_compat _ _ R1 (Rmult_lt_0_compat _ _ Q P2))|apply Rmult_lt_0_compat; auto; apply Rmult_lt_0_compat; lra]).
    rewrite Er, div_some by lra. cbn [obind]. apply (PW z t r); auto; try lra. field. repeat split; lra.
Qed.

(** ** C115 *)
Theorem C115_varying_drain : forall D, sound_drain D -> 0 < d_A1 D -> 0 <= d_A2 D <= d_A1 D -> 0 <= d_A3 D ->
  exists mu0 mu u, is_mu (d_re D / d_rw D) (around D) mu0 /\
    (forall zs ts, (forall z, In z zs -> reached D z) ->
       dengetal2013 D zs ts = Ok (Some (map (fun z => map (fun t => Some (u z t)) ts) zs))) /\
    (forall z, reached D z -> decays (d_kh D / d_mv D / d_gamw D) (d_re D) (d_ui D) (mu z) (u z)) /\
    (forall z t, reached D z -> mu0 <= mu z t /\
       drain_resistance (d_kh D) (d_H D) (fun s => capacity (d_rw D) (d_kw0 D) (d_A1 D) (d_A2 D) (d_A3 D) (d_H D) s t) z mu0 (mu z t)).
Proof.
  intros D So A1 A2 A3. destruct (mu0_ok D So) as (mu0 & Emu & Imu & Hmu). exists mu0, (d_mu D mu0), (d_u D mu0). split; auto. split; [|split].
  - intros zs ts Hz. apply deng2013_table; auto.
  - intros z Hz. destruct (reach_resist D z So A1 A2 Hz) as [R0 R1]. pose proof (ch_pos D So) as Hch. change (d_kh D / d_mv D / d_gamw D) with (d_ch D).
    unfold d_mu, d_u. set (r := resist _ _ _ _ _ _ _) in *. destruct So. destruct (Req_EM_T (d_A3 D) 0) as [Z3|N3].
    + destruct (decay_const (d_ch D) (d_re D) (d_ui D) mu0 r Hch ltac:(lra) Hmu R0) as [B1 B2]. split; [exact B1|]. intros t. rewrite Z3, Rmult_0_l, exp_0, Rmult_1_r. apply B2.
    + assert (P3 : 0 < d_A3 D) by lra. exact (proj2 (decay_pow (d_ch D) (d_re D) (d_A3 D) (d_ui D) mu0 r Hch ltac:(lra) Hmu P3 (R1 P3))).
  - intros z t Hz. destruct (reach_resist D z So A1 A2 Hz) as [R0 R1]. unfold d_mu, drain_resistance. destruct So. destruct Hz as (Z1 & _ & Z3). pose proof PI_RGT_0 as Hpi. split.
    + pose proof (exp_pos (d_A3 D * t)). pose proof (Rmult_le_pos _ _ R0 (Rlt_le _ _ H)). lra.
    + pose proof (resist_int (d_kh D) (d_H D) (d_rw D) (d_kw0 D) (d_A1 D) (d_A2 D) dr_H0 ltac:(lra) dr_kw0 A1 A2 z Z1 Z3) as I.
      set (r := resist _ _ _ _ _ _ _) in *. apply (is_RInt_scal (V := R_NormedModule) _ _ _ (exp (d_A3 D * t))) in I.
      apply (rint_val _ _ _ (scal (exp (d_A3 D * t)) r)); [|unfold scal; cbn; unfold Hierarchy.mult; cbn; ring].
      refine (is_RInt_ext _ _ _ _ _ _ I). rewrite Rmin_left, Rmax_right by lra. intros s Hs. unfold scal; cbn; unfold Hierarchy.mult; cbn.
      match goal with |- ?p = ?q => change (@eq R p q) end. unfold capacity. replace (- d_A3 D * t) with (- (d_A3 D * t)) by ring. rewrite exp_Ropp.
      assert (L : 0 < d_A1 D - d_A2 D * s / d_H D) by (apply left_pos; auto; [lra|intros E; specialize (Z3 E); lra]).
      pose proof (exp_pos (d_A3 D * t)). set (X := d_A1 D - d_A2 D * s / d_H D) in *. cbn [pow]. field. repeat split; lra.
Qed.
Print Assumptions C115_varying_drain.

(** The rejected arguments. *)
Theorem C115_rejects : forall D zs ts, d_A1 D < 0 \/ d_A1 D < d_A2 D \/ d_A3 D < 0 -> dengetal2013 D zs ts = Err ValueError.
Proof.
  intros D zs ts Hb. unfold dengetal2013. destruct (Rltb (d_A1 D) 0) eqn:E1; auto. destruct (Rltb (d_A1 D) (d_A2 D)) eqn:E2; auto. destruct (Rltb (d_A3 D) 0) eqn:E3; auto.
  apply Rltb_false in E1, E2, E3. lra.
Qed.
Print Assumptions C115_rejects.

(** A capacity that increases with depth (A2 < 0) is accepted, and nothing is returned; at the top with A3 > 0, and at the
    bottom with A1 = A2, the cell is not a number. *)
Theorem C115_gaps_refuted : forall D zs ts, sound_drain D -> 0 < d_A1 D -> d_A2 D <= d_A1 D -> 0 <= d_A3 D ->
  (d_A2 D < 0 -> dengetal2013 D zs ts = Ok None) /\
  (0 < d_A3 D -> 0 <= d_A2 D -> forall t, dengetal2013 D [0] [t] = Ok (Some [[None]])) /\
  (d_A2 D = d_A1 D -> forall t, dengetal2013 D [d_H D] [t] = Ok (Some [[None]])).
Proof.
  intros D zs ts So A1 A2 A3. destruct (mu0_ok D So) as (mu0 & Emu & _ & Hmu). pose proof So as [Hrw HH Hkw Hkh Hmv Hg Hs].
  unfold dengetal2013. replace (Rltb (d_A1 D) 0) with false by (symmetry; apply Rltb_false; lra).
  replace (Rltb (d_A1 D) (d_A2 D)) with false by (symmetry; apply Rltb_false; lra). replace (Rltb (d_A3 D) 0) with false by (symmetry; apply Rltb_false; lra).
  rewrite Emu. cbn [bind]. split; [|split].
  - intros L. replace (Reqb (d_A2 D) 0) with false by (symmetry; apply Reqb_false; lra). replace (Rltb 0 (d_A2 D)) with false by (symmetry; apply Rltb_false; lra). rewrite !andb_false_r. reflexivity.
  - intros P3 P2 t. replace (Reqb (d_A3 D) 0) with false by (symmetry; apply Reqb_false; lra). replace (Rltb 0 (d_A3 D)) with true by (symmetry; apply Rltb_true; lra). cbn [andb].
    assert (Z : forall x y, y = 0 -> div_by x y = None) by (intros x y ->; unfold div_by; replace (Reqb 0 0) with true by (symmetry; apply Reqb_true; auto); auto).
    destruct (Reqb (d_A2 D) 0) eqn:E2.
    + unfold d_grid. cbn [map]. rewrite Z by ring. reflexivity.
    + apply Reqb_false in E2. replace (Rltb 0 (d_A2 D)) with true by (symmetry; apply Rltb_true; lra). unfold d_grid. cbn [map].
      replace (d_A2 D / d_A1 D * 0 / d_H D) with 0 by (field; lra). rewrite Rminus_0_r, log_some by lra. cbn [obind]. rewrite ln_1, Z by (field; lra). reflexivity.
  - intros E t. assert (L : log_of (1 - d_A2 D / d_A1 D * d_H D / d_H D) = None).
    { replace (1 - d_A2 D / d_A1 D * d_H D / d_H D) with 0 by (rewrite E; field; lra). unfold log_of. replace (Rltb 0 0) with false by (symmetry; apply Rltb_false; lra). auto. }
    replace (Reqb (d_A2 D) 0) with false by (symmetry; apply Reqb_false; lra). replace (Rltb 0 (d_A2 D)) with true by (symmetry; apply Rltb_true; lra). rewrite !andb_false_r, !andb_true_r.
    unfold d_grid. cbn [map]. rewrite !L. cbn [obind]. destruct (Reqb (d_A3 D) 0) eqn:E3; [reflexivity|]. apply Reqb_false in E3. replace (Rltb 0 (d_A3 D)) with true by (symmetry; apply Rltb_true; lra). reflexivity.
Qed.
Print Assumptions C115_gaps_refuted.

Definition ex_deng : deng := mkDeng (35 / 1000) (525 / 1000) 1 (/ 2) (/ 1000000) 20 (Some (175 / 1000)) (Some (1 / 100000000)) (1 / 1000) (2 / 100000000) (2 / 10000) 10 1.
Theorem C115_witness : sound_drain ex_deng /\ 0 < d_A1 ex_deng /\ 0 <= d_A2 ex_deng <= d_A1 ex_deng /\ 0 <= d_A3 ex_deng /\ reached ex_deng 10.
Proof. split; [split; cbn; lra|]. cbn. repeat split; cbn; intros; lra. Qed.
Print Assumptions C115_witness.
