(** * C176, C177 continued: the limit of the slope, the special cases of beta, and what is rejected *)
From Coq Require Import Reals List Bool Arith Lia Lra.
From Coquelicot Require Import Coquelicot.
From Verif Require Import Base NonDarcyModel NonDarcyProofs PropsNonDarcy NonDarcyProofs2.
Import ListNotations.
Local Open Scope R_scope.
Local Open Scope list_scope.

(** with more and more terms the slope of g is the n-th root of the flow through radius y: ((N^2 - y^2) / (N^2 y))^(1/n) *)
Theorem C176_slope_limit : forall N n y, 1 < n -> 0 < y < N -> is_lim_seq (fun m => slope N n m y) (Rpower ((N ^ 2 - y ^ 2) / (N ^ 2 * y)) (1 / n)).
Proof.
  intros N n y Hn Hy. assert (X : 0 <= y / N < 1). { split; [apply Rlt_le, Rdiv_lt_0_compat; lra|]. apply (Rmult_lt_reg_r N); [lra|]. unfold Rdiv. rewrite Rmult_assoc, Rinv_l by lra. lra. }
  assert (A : 0 < 1 / n < 1). { split; [apply Rdiv_lt_0_compat; lra|]. apply (Rmult_lt_reg_r n); [lra|]. unfold Rdiv. rewrite Rmult_assoc, Rinv_l by lra. lra. }
  replace (Rpower ((N ^ 2 - y ^ 2) / (N ^ 2 * y)) (1 / n)) with (Rpower y (- (1 / n)) * Rpower (1 - (y / N) ^ 2) (1 / n)).
  - unfold slope. apply (is_lim_seq_scal_l (partial_sum (1 / n) ((y / N) ^ 2)) _ (Rpower (1 - (y / N) ^ 2) (1 / n))). apply partial_limit; [exact A|]. split; [apply pow2_ge_0|nra].
  - replace ((N ^ 2 - y ^ 2) / (N ^ 2 * y)) with (/ y * (1 - (y / N) ^ 2)) by (field; lra). assert (I : 0 < / y) by (apply Rinv_0_lt_compat; lra). assert (J : 0 < 1 - (y / N) ^ 2) by nra.
    rewrite <- Rpower_mult_distr by assumption. f_equal. unfold Rpower. rewrite ln_Rinv by lra. f_equal. ring.
Qed.

(** *** special cases *)
Theorem C177_outer : forall s kap n kap_m nflow m,
  non_darcy_beta_piecewise_constant s kap (Some n) kap_m nflow m =
  match kap_m, kap with
  | None, [] => Err IndexError
  | None, _ => non_darcy_beta_piecewise_constant (s ++ [n]) (kap ++ [last kap 0]) None None nflow m
  | Some k, _ => non_darcy_beta_piecewise_constant (s ++ [n]) (kap ++ [k]) None None nflow m
  end.
Proof. intros s kap n [k|] nflow m; [reflexivity|]. destruct kap; reflexivity. Qed.
Theorem C177_returns : forall s kap nflow m, (exists beta, non_darcy_beta_piecewise_constant s kap None None nflow m = Ok beta) <-> valid s kap nflow m.
Proof.
  intros s kap nflow m. unfold non_darcy_beta_piecewise_constant. cbn [with_outer bind fst snd]. split.
  - intros [beta H]. apply checks_valid. destruct (pw_checks s kap nflow m) as [[]|]; [reflexivity|discriminate].
  - intros H. rewrite valid_checks by exact H. eexists. reflexivity.
Qed.
Lemma valid_one N nflow m : 1 < N -> 1 < nflow -> (1 <= m)%nat -> valid [N] [1] nflow m.
Proof.
  intros. unfold valid. repeat (match goal with |- _ /\ _ => split end); auto; try discriminate; try (intros x [<-|[]]; lra). intros i Hi. cbn in Hi. lia.
Qed.
Lemma valid_two s N kap nflow m : 1 < s < N -> 0 < kap -> 1 < nflow -> (1 <= m)%nat -> valid [s; N] [kap; 1] nflow m.
Proof.
  intros. unfold valid. repeat (match goal with |- _ /\ _ => split end); auto; try discriminate; try (intros x [<-|[<-|[]]]; lra). intros [|i] Hi; cbn in Hi |- *; [lra|lia].
Qed.
Lemma Rpower_one e : Rpower 1 e = 1.
Proof. unfold Rpower. rewrite ln_1, Rmult_0_r, exp_0. reflexivity. Qed.
(** without a smear zone: one zone of permeability ratio 1 *)
Theorem C177_ideal : forall arr N nflow m, 1 < N -> 1 < nflow -> (1 <= m)%nat -> non_darcy_beta_ideal arr N nflow m = non_darcy_beta_piecewise_constant [N] [1] None None nflow m.
Proof.
  intros arr N nflow m HN Hn Hm. assert (V := valid_one N nflow m HN Hn Hm). unfold non_darcy_beta_ideal, non_darcy_beta_piecewise_constant. cbn [with_outer bind fst snd]. rewrite valid_checks by exact V. cbn [bind].
  rewrite !(proj2 (Rleb_false _ _)) by lra. rewrite g_ok, !gbar_ok by (auto; lra). cbn [bind]. f_equal. unfold pw_beta. cbn [length sum_to]. rewrite !(gbarv_array _ _ _ _ V), !(gv_array _ _ _ _ V). unfold psi, kx, hi, lo, outer. cbn [nth sum_to last]. rewrite Rpower_one. assert (N ^ 2 - 1 <> 0) by nra. field. assumption.
Qed.
(** a smear zone of constant permeability: two zones; none if it has no width or no effect *)
Theorem C177_constant : forall arr N s kap nflow m, 1 < N -> 1 < nflow -> (1 <= m)%nat -> 1 <= kap ->
  (1 < s < N -> non_darcy_beta_constant arr N s kap nflow m = non_darcy_beta_piecewise_constant [s] [kap] (Some N) (Some 1) nflow m) /\
  (s = 1 \/ (1 <= s /\ kap = 1) -> non_darcy_beta_constant arr N s kap nflow m = non_darcy_beta_ideal arr N nflow m).
Proof.
  intros arr N s kap nflow m HN Hn Hm Hk. assert (NZ : N ^ 2 - 1 <> 0) by nra. split.
  - intros Hs. assert (V := valid_two s N kap nflow m Hs ltac:(lra) Hn Hm). unfold non_darcy_beta_constant, non_darcy_beta_piecewise_constant. cbn [with_outer bind fst snd app]. rewrite valid_checks by exact V. cbn [bind].
    rewrite !(proj2 (Rleb_false _ _)) by lra. rewrite !(proj2 (Rltb_false _ _)) by lra. rewrite !g_ok, !gbar_ok by (auto; lra). cbn [bind]. f_equal. unfold pw_beta. cbn [length sum_to]. rewrite !(gbarv_array _ _ _ _ V), !(gv_array _ _ _ _ V). unfold psi, kx, hi, lo, outer. cbn [nth sum_to last]. rewrite !(gv_array _ _ _ _ V). unfold hi, lo, outer. cbn [nth last]. rewrite Rpower_one.
    set (K := Rpower kap (1 / nflow)). assert (KP : K <> 0) by (assert (0 < K) by apply exp_pos; lra). clearbody K. field. repeat split; assumption.
  - intros Hs. unfold non_darcy_beta_constant, non_darcy_beta_ideal. assert (1 <= s) by lra. rewrite !(proj2 (Rleb_false _ _)) by lra. rewrite !(proj2 (Rltb_false _ _)) by lra. rewrite !g_ok, !gbar_ok by (auto; lra). cbn [bind]. f_equal. destruct Hs as [->|[_ ->]].
    + field. exact NZ.
    + rewrite Rpower_one. field. exact NZ.
Qed.
Theorem C177_rejects : forall arr N s kap nflow m,
  (N <= 1 \/ nflow <= 1 -> non_darcy_beta_ideal arr N nflow m = Err ValueError) /\
  (N <= 1 \/ s < 1 \/ kap < 1 \/ nflow <= 1 -> non_darcy_beta_constant arr N s kap nflow m = Err ValueError).
Proof.
  intros arr N s kap nflow m. unfold non_darcy_beta_ideal, non_darcy_beta_constant. destruct (Rleb N 1) eqn:E1; [auto|]. apply Rleb_false in E1. destruct (Rleb nflow 1) eqn:E2.
  - split; [reflexivity|]. intros _. destruct (Rltb s 1), (Rltb kap 1); reflexivity.
  - apply Rleb_false in E2. split; [intros; lra|]. intros H. destruct (Rltb s 1) eqn:E3; [reflexivity|]. destruct (Rltb kap 1) eqn:E4; [reflexivity|]. apply Rltb_false in E3, E4. lra.
Qed.
(** a profile point outside the ring *)
Theorem C177_u_outside : forall s kap si uavg uw muw nflow m, valid s kap nflow m -> (exists y, In y si /\ (y < 1 \/ last s 0 < y)) -> non_darcy_u_piecewise_constant s kap si uavg uw muw None None nflow m = Err ValueError.
Proof.
  intros s kap si uavg uw muw nflow m V (y & Hy & Ho). unfold non_darcy_u_piecewise_constant. cbn [with_outer bind fst snd]. assert (V1 : valid s kap nflow 1) by (destruct V as (V1 & V2 & V3 & V4 & V5 & V6 & V7); unfold valid; repeat split; auto). rewrite (valid_checks _ _ _ _ V1). cbn [bind].
  replace (existsb _ si) with true; [reflexivity|]. symmetry. apply existsb_exists. exists y. split; [exact Hy|]. apply orb_true_iff. unfold outer. rewrite !Rltb_true. exact Ho.
Qed.
(** the hypotheses are met: a drain with two smear zones in front of the undisturbed soil *)
Theorem C177_example : valid [2; 5; 20] [6; 3; 1] (13 / 10) 20 /\ exists b, non_darcy_beta_piecewise_constant [2; 5; 20] [6; 3; 1] None None (13 / 10) 20 = Ok b /\ 0 < b.
Proof.
  assert (V : valid [2; 5; 20] [6; 3; 1] (13 / 10) 20).
  { unfold valid. repeat (match goal with |- _ /\ _ => split end); auto; try discriminate; try lra; try lia; try (intros x [<-|[<-|[<-|[]]]]; lra). intros [|[|i]] Hi; cbn in Hi |- *; [lra|lra|lia]. }
  split; [exact V|]. destruct (C177_beta_u _ _ _ _ V) as (f & b & _ & B1 & B2 & _). exists b. auto.
Qed.
Print Assumptions C176_g.
Print Assumptions C176_slope_limit.
Print Assumptions C177_beta_u.
