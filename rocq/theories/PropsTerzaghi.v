(** * Property theorems: Terzaghi one-dimensional consolidation (C32, C33, C77) *)
From Coq Require Import Reals List Arith Lia Lra.
From Coquelicot Require Import Coquelicot.
From Verif Require Import TerzaghiModel SpecTerzaghi TerzaghiProofs TerzaghiProofs2.
Import ListNotations.
Local Open Scope R_scope.

(** The function of depth and time tabulated by the first result. *)
Definition tabulates (f : list R -> list R -> list (list R)) (u : R -> R -> R) : Prop :=
  forall zs ts, f zs ts = map (fun z => map (fun t => u z t) ts) zs.

Theorem C32_terzaghi_solves : forall H kv mv gamw ui nterms,
  H <> 0 -> mv <> 0 -> gamw <> 0 ->
  exists u, tabulates (fun zs ts => fst (terzaghi_1d zs ts H kv mv gamw ui nterms)) u /\
    consolidates (kv / (mv * gamw)) H u.
Proof.
  intros. exists (tz_u H kv mv gamw ui nterms). split.
  - intros zs ts. apply tz_por_eq.
  - apply tz_consolidates; auto.
Qed.
Print Assumptions C32_terzaghi_solves.

(** The initial pressure: the mean square deviation from the uniform pressure ui is at
    most 2/(pi^2 nterms), so it vanishes as terms are added. *)
Theorem C32_initial_pressure : forall H kv mv gamw ui nterms,
  0 < H -> (1 <= nterms)%nat ->
  exists u e, tabulates (fun zs ts => fst (terzaghi_1d zs ts H kv mv gamw ui nterms)) u /\
    is_RInt (fun z => (u z 0 - ui)^2) 0 H (e * H) /\
    0 <= e <= ui^2 * (2 / (PI^2 * INR nterms)).
Proof.
  intros H kv mv gamw ui nt HH Hn. exists (tz_u H kv mv gamw ui nt), (ui^2 * tz_doc H kv mv gamw nt 0).
  split; [intros zs ts; apply tz_por_eq|]. split.
  - replace (ui ^ 2 * tz_doc H kv mv gamw nt 0 * H) with (ui^2 * H * tz_doc H kv mv gamw nt 0) by ring.
    apply tz_misfit; lra.
  - pose proof (tz_doc0_nonneg H kv mv gamw nt HH) as B. pose proof (pow2_ge_0 ui) as P.
    split; [apply Rmult_le_pos; auto|]. apply Rmult_le_compat_l; auto.
    pose proof (sum_tail nt Hn) as T. unfold tz_doc.
    rewrite (ssum_ext _ (fun k => 2 / Mk k ^2)); auto. intros k _.
    replace (- Mk k ^ 2 * (tz_dTv H kv mv gamw * 0)) with 0 by ring. rewrite exp_0. ring.
Qed.
Print Assumptions C32_initial_pressure.

(** Degree of consolidation and mean pressure; flow rate and gradient. *)
Theorem C33_doc_is_mean : forall H kv mv gamw ui nterms, H <> 0 ->
  exists u d, tabulates (fun zs ts => fst (terzaghi_1d zs ts H kv mv gamw ui nterms)) u /\
    (forall zs ts, snd (terzaghi_1d zs ts H kv mv gamw ui nterms) = map d ts) /\
    forall t, is_RInt (fun z => u z t) 0 H (ui * H * (1 - d t)).
Proof.
  intros H kv mv gamw ui nt HH. exists (tz_u H kv mv gamw ui nt), (tz_doc H kv mv gamw nt).
  split; [intros zs ts; apply tz_por_eq|]. split; [intros; apply tz_doc_eq|].
  intros t. apply tz_mean; auto.
Qed.
Print Assumptions C33_doc_is_mean.

Theorem C33_flowrate_is_gradient : forall H kv mv gamw ui nterms, H <> 0 ->
  exists u q, tabulates (fun zs ts => fst (terzaghi_1d zs ts H kv mv gamw ui nterms)) u /\
    tabulates (fun zs ts => terzaghi_1d_flowrate zs ts H kv mv gamw ui nterms)
              (fun z t => kv / gamw * q z t) /\
    forall z t, is_derive (fun y => u y t) z (q z t).
Proof.
  intros H kv mv gamw ui nt HH. exists (tz_u H kv mv gamw ui nt), (tz_uz H kv mv gamw ui nt).
  split; [intros zs ts; apply tz_por_eq|]. split; [intros zs ts; apply tz_flow_eq; auto|].
  intros z t. apply tz_dz; auto.
Qed.
Print Assumptions C33_flowrate_is_gradient.

(** ** C77: the degree of consolidation behaves like one *)
Lemma doc_mono H kv mv gamw nt t1 t2 : 0 < kv / H^2 / mv / gamw -> (1 <= nt)%nat -> t1 < t2 ->
  tz_doc H kv mv gamw nt t1 < tz_doc H kv mv gamw nt t2.
Proof.
  intros Hd Hn Ht. unfold tz_doc, tz_dTv.
  apply Rplus_lt_compat_l, Ropp_lt_contravar.
  assert (Q : forall k, 2 / Mk k ^ 2 * exp (- Mk k ^ 2 * (kv / H^2 / mv / gamw * t2))
     < 2 / Mk k ^ 2 * exp (- Mk k ^ 2 * (kv / H^2 / mv / gamw * t1))).
  { intros k. pose proof (Mk_pos k) as P. assert (P2 : 0 < Mk k ^2) by (apply pow_lt; auto).
    apply Rmult_lt_compat_l; [apply Rdiv_lt_0_compat; lra|]. apply exp_increasing.
    assert (0 < Mk k ^2 * (kv / H^2 / mv / gamw * (t2 - t1))); [|lra].
    apply Rmult_lt_0_compat; auto. apply Rmult_lt_0_compat; lra. }
  destruct nt as [|nt]; [lia|]. cbn [ssum]. specialize (Q nt) as Q1.
  assert (ssum (fun k => 2 / Mk k ^ 2 * exp (- Mk k ^ 2 * (kv / H^2 / mv / gamw * t2))) nt
    <= ssum (fun k => 2 / Mk k ^ 2 * exp (- Mk k ^ 2 * (kv / H^2 / mv / gamw * t1))) nt).
  { apply ssum_le. intros k _. apply Rlt_le, Q. }
  lra.
Qed.

Theorem C77_degree_of_consolidation : forall H kv mv gamw ui nterms,
  0 < H -> 0 < kv -> 0 < mv -> 0 < gamw -> (1 <= nterms)%nat ->
  exists d, (forall zs ts, snd (terzaghi_1d zs ts H kv mv gamw ui nterms) = map d ts) /\
    (forall t, 0 <= t -> 0 <= d t < 1) /\
    (forall t1 t2, t1 < t2 -> d t1 < d t2) /\
    d 0 <= 2 / (PI^2 * INR nterms).
Proof.
  intros H kv mv gamw ui nt HH Hk Hm Hg Hn. exists (tz_doc H kv mv gamw nt).
  assert (Hd : 0 < kv / H^2 / mv / gamw).
  { repeat apply Rdiv_lt_0_compat; auto. apply pow_lt; auto. }
  split; [intros; apply tz_doc_eq|]. split; [|split].
  - intros t Ht. pose proof (tz_doc0_nonneg H kv mv gamw nt HH) as B. split.
    + destruct (Req_dec t 0) as [->|N]; auto. apply Rle_trans with (1 := B), Rlt_le, doc_mono; auto.
      apply Rnot_le_lt; intros ?; apply N; lra.
    + unfold tz_doc. assert (0 < ssum (fun k => 2 / Mk k ^ 2 * exp (- Mk k ^ 2 * (tz_dTv H kv mv gamw * t))) nt); [|lra].
      assert (Q : forall k, 0 < 2 / Mk k ^ 2 * exp (- Mk k ^ 2 * (tz_dTv H kv mv gamw * t))).
      { intros k. apply Rmult_lt_0_compat; [|apply exp_pos]. apply Rdiv_lt_0_compat; [lra|].
        apply pow_lt, Mk_pos. }
      destruct nt as [|nt]; [lia|]. cbn [ssum]. specialize (Q nt) as Q1.
      assert (0 <= ssum (fun k => 2 / Mk k ^ 2 * exp (- Mk k ^ 2 * (tz_dTv H kv mv gamw * t))) nt); [|lra].
      rewrite <- (ssum_0 nt). apply ssum_le. intros k _. apply Rlt_le, Q.
  - intros. apply doc_mono; auto.
  - pose proof (sum_tail nt Hn) as T. unfold tz_doc.
    rewrite (ssum_ext _ (fun k => 2 / Mk k ^2)); auto. intros k _.
    replace (- Mk k ^ 2 * (tz_dTv H kv mv gamw * 0)) with 0 by ring. rewrite exp_0. ring.
Qed.
Print Assumptions C77_degree_of_consolidation.

(** Adding terms lowers the degree of consolidation, by at most 2/(pi^2 n) at any time. *)
Theorem C77_truncation_error : forall H kv mv gamw ui n m t dn dm,
  0 < H -> 0 < kv -> 0 < mv -> 0 < gamw -> 0 <= t -> (1 <= n <= m)%nat ->
  snd (terzaghi_1d [] [t] H kv mv gamw ui n) = [dn] ->
  snd (terzaghi_1d [] [t] H kv mv gamw ui m) = [dm] ->
  0 <= dn - dm <= 2 / (PI^2 * INR n).
Proof.
  intros H kv mv gamw ui n m t dn dm HH Hk Hm Hg Ht Hn E1 E2.
  rewrite tz_doc_eq in E1, E2. cbn [map] in E1, E2. injection E1 as <-. injection E2 as <-.
  assert (Hd : 0 < kv / H^2 / mv / gamw).
  { repeat apply Rdiv_lt_0_compat; auto. apply pow_lt; auto. }
  replace m with (n + (m - n))%nat by lia. unfold tz_doc, tz_dTv. rewrite ssum_split.
  set (c := kv / H ^ 2 / mv / gamw) in *. set (A := ssum _ n).
  set (B := ssum _ (m - n)).
  replace (1 - A - (1 - (A + B))) with B by ring. unfold B. split.
  - rewrite <- (ssum_0 (m - n)). apply ssum_le. intros k _.
    apply Rlt_le, Rmult_lt_0_compat; [|apply exp_pos]. apply Rdiv_lt_0_compat; [lra|]. apply pow_lt, Mk_pos.
  - apply Rle_trans with (ssum (fun k => 2 / Mk (n + k) ^2) (m - n)).
    + apply ssum_le. intros k _. pose proof (Mk_pos (n + k)) as P.
      assert (P2 : 0 < Mk (n + k) ^2) by (apply pow_lt; auto).
      rewrite <- (Rmult_1_r (2 / Mk (n + k) ^ 2)) at 2. apply Rmult_le_compat_l.
      * apply Rlt_le, Rdiv_lt_0_compat; lra.
      * rewrite <- exp_0. assert (0 <= Mk (n + k) ^ 2 * (c * t)) by (apply Rmult_le_pos; [lra|apply Rmult_le_pos; lra]).
        destruct (Req_dec (Mk (n + k) ^ 2 * (c * t)) 0) as [E|N].
        -- replace (- Mk (n + k) ^ 2 * (c * t)) with 0 by lra. lra.
        -- apply Rlt_le, exp_increasing. lra.
    + assert (PN : 0 < INR n) by (apply lt_0_INR; lia). pose proof PI_RGT_0.
      eapply Rle_trans; [apply tail_bound; lia|].
      replace (2 / (PI^2 * INR n)) with (2 / PI^2 * / INR n) by (field; lra).
      apply Rmult_le_compat_l; [apply Rlt_le, Rdiv_lt_0_compat; [lra|apply pow_lt; auto]|].
      assert (0 < / INR (n + (m - n))) by (apply Rinv_0_lt_compat, lt_0_INR; lia). lra.
Qed.
Print Assumptions C77_truncation_error.

Example C77_applies : exists dn dm,
  snd (terzaghi_1d [] [2] 1 1 (/ 10) 10 1 100) = [dn] /\
  snd (terzaghi_1d [] [2] 1 1 (/ 10) 10 1 200) = [dm] /\ 0 <= dn - dm <= 2 / (PI^2 * INR 100).
Proof.
  do 2 eexists. split; [rewrite tz_doc_eq; reflexivity|]. split; [rewrite tz_doc_eq; reflexivity|].
  apply (C77_truncation_error 1 1 (/ 10) 10 1 100 200 2); try lra; try lia;
  rewrite tz_doc_eq; reflexivity.
Qed.
