(** * C178: the drain parameter of non-Darcian consolidation is the one of Hansbo's flow law *)
From Coq Require Import Reals List Bool Lra.
From Coquelicot Require Import Coquelicot.
From Verif Require Import Base NonDarcyModel NonDarcyProofs PropsNonDarcy NonDarcyEtaModel.
Import ListNotations.
Local Open Scope R_scope.
Local Open Scope list_scope.

(** Hansbo's law below the limiting gradient: v = k_star i^n, with k_star such that the law meets Darcy's with its slope k at iL *)
Definition hansbo (k n iL i : R) : R := k / (n * Rpower iL (n - 1)) * Rpower i n.
Lemma hansbo_tangent k n iL : 0 < iL -> 0 < n -> is_derive (hansbo k n iL) iL k.
Proof.
  intros Hi Hn. unfold hansbo. assert (P : 0 < Rpower iL (n - 1)) by apply exp_pos. assert (D : is_derive (fun i => k / (n * Rpower iL (n - 1)) * Rpower i n) iL (k / (n * Rpower iL (n - 1)) * (n * Rpower iL (n - 1)))) by (apply is_derive_scal; apply is_derive_Reals, derivable_pt_lim_power; exact Hi).
  replace (k / (n * Rpower iL (n - 1)) * (n * Rpower iL (n - 1))) with k in D by (field; split; lra). exact D.
Qed.
Lemma power_pos x e : 0 < x -> power x e = Rpower x e.
Proof. intros H. unfold power. rewrite (proj2 (Reqb_false _ _)) by lra. reflexivity. Qed.
Lemma eta_value re iL gamw N nf b : 0 < re -> 0 < iL -> 0 < gamw -> 0 < N -> 0 < nf -> 0 < b -> forall n_kw args, (n_kw = Some N \/ (n_kw = None /\ exists t, args = N :: t)) ->
  non_darcy_drain_eta re iL gamw n_kw args (Some nf) (Ok b) = Ok (2 / (re ^ 2 * Rpower b nf * Rpower (re / N * gamw) (nf - 1) * nf * Rpower iL (nf - 1))).
Proof.
  intros Hre Hi Hg HN Hf Hb n_kw args HA. unfold non_darcy_drain_eta. assert (Q : 0 < re / N * gamw) by (apply Rmult_lt_0_compat; [apply Rdiv_lt_0_compat|]; lra).
  assert (E : match n_kw with Some n => Ok n | None => match args with [] => Err IndexError | a :: _ => Ok a end end = Ok N) by (destruct HA as [-> |[-> [t ->]]]; reflexivity). rewrite E. cbn [bind]. rewrite (proj2 (Reqb_false _ _)) by lra. cbn [bind]. cbv zeta. rewrite !power_pos by assumption.
  assert (P1 : 0 < Rpower b nf) by apply exp_pos. assert (P2 : 0 < Rpower (re / N * gamw) (nf - 1)) by apply exp_pos. assert (P3 : 0 < Rpower iL (nf - 1)) by apply exp_pos.
  rewrite (proj2 (Reqb_false _ _)); [reflexivity|]. assert (0 < re ^ 2) by (apply pow_lt; lra). apply Rgt_not_eq. repeat apply Rmult_lt_0_compat; (assumption || lra).
Qed.
(** with strain rate u^n k / gamw eta (u the mean excess pressure) and the pressure profile of C177 (its mean beta, its slope in a zone
    of permeability ratio kap kap^(1/n) times the limit of C176_slope_limit), Hansbo's law gives at each radius y rw the flow through
    that radius that the straining of the soil outside it expels *)
Theorem C178_flow : forall re iL gamw N nf beta k u kap n_kw args, 0 < re -> 0 < iL -> 0 < gamw -> 1 < N -> 1 < nf -> 0 < beta -> 0 < k -> 0 < u -> 0 < kap ->
  (n_kw = Some N \/ (n_kw = None /\ exists t, args = N :: t)) ->
  is_derive (hansbo (k / kap) nf iL) iL (k / kap) /\
  exists eta, non_darcy_drain_eta re iL gamw n_kw args (Some nf) (Ok beta) = Ok eta /\ 0 < eta /\
  let rate := Rpower u nf * k / gamw * eta in let rw := re / N in
  forall y, 0 < y < N ->
    let du_dr := u / beta * (Rpower kap (1 / nf) * Rpower ((N ^ 2 - y ^ 2) / (N ^ 2 * y)) (1 / nf)) / rw in
    2 * (y * rw) * hansbo (k / kap) nf iL (du_dr / gamw) = rate * (re ^ 2 - (y * rw) ^ 2).
Proof.
  intros re iL gamw N nf beta k u kap n_kw args Hre Hi Hg HN Hf Hb Hk Hu Hkap HA. split; [apply hansbo_tangent; lra|].
  eexists. split; [apply (eta_value re iL gamw N nf beta); auto; lra|]. assert (Q : 0 < re / N) by (apply Rdiv_lt_0_compat; lra).
  assert (P1 : 0 < Rpower beta nf) by apply exp_pos. assert (P2 : 0 < Rpower (re / N * gamw) (nf - 1)) by apply exp_pos. assert (P3 : 0 < Rpower iL (nf - 1)) by apply exp_pos. assert (R2 : 0 < re ^ 2) by (apply pow_lt; lra). split.
  - apply Rdiv_lt_0_compat; [lra|]. repeat apply Rmult_lt_0_compat; lra.
  - cbv zeta. intros y Hy. set (rw := re / N) in *. set (z := (N ^ 2 - y ^ 2) / (N ^ 2 * y)). assert (Z : 0 < z) by (apply Rdiv_lt_0_compat; [nra|apply Rmult_lt_0_compat; nra]).
    assert (RG : 0 < rw * gamw) by (apply Rmult_lt_0_compat; lra).
    assert (E : Rpower (u / beta * (Rpower kap (1 / nf) * Rpower z (1 / nf)) / rw / gamw) nf = Rpower u nf / Rpower beta nf / (Rpower (rw * gamw) (nf - 1) * (rw * gamw)) * kap * z).
    { replace (u / beta * (Rpower kap (1 / nf) * Rpower z (1 / nf)) / rw / gamw) with (u * / beta * / (rw * gamw) * Rpower kap (1 / nf) * Rpower z (1 / nf)) by (field; lra).
      assert (I1 : 0 < / beta) by (apply Rinv_0_lt_compat; lra). assert (I2 : 0 < / (rw * gamw)) by (apply Rinv_0_lt_compat; lra). assert (K1 : 0 < Rpower kap (1 / nf)) by apply exp_pos. assert (K2 : 0 < Rpower z (1 / nf)) by apply exp_pos.
      rewrite <- !Rpower_mult_distr by (repeat apply Rmult_lt_0_compat; assumption || lra). rewrite !Rpower_mult. replace (1 / nf * nf) with 1 by (field; lra). rewrite !Rpower_1 by assumption.
      assert (IV : forall x, 0 < x -> Rpower (/ x) nf = / Rpower x nf) by (intros x Hx; rewrite <- Rpower_Ropp; unfold Rpower; rewrite ln_Rinv by exact Hx; f_equal; ring). rewrite !IV by assumption.
      replace (Rpower (rw * gamw) nf) with (Rpower (rw * gamw) (nf - 1) * (rw * gamw)) by (rewrite <- (Rpower_1 (rw * gamw)) at 2 by exact RG; rewrite <- Rpower_plus; f_equal; ring). unfold Rdiv. ring. }
    unfold hansbo. rewrite E. unfold z. replace (re ^ 2) with (rw ^ 2 * N ^ 2) by (unfold rw; field; lra). field. repeat split; try lra; apply Rgt_not_eq; assumption.
Qed.
(** what is missing or zero *)
Theorem C178_rejects : forall re iL gamw N nf beta, 
  non_darcy_drain_eta re iL gamw None [] nf beta = Err IndexError /\
  non_darcy_drain_eta re iL gamw (Some 0) [] nf beta = Err ZeroDivisionError /\
  (N <> 0 -> non_darcy_drain_eta re iL gamw (Some N) [] None beta = Err KeyError) /\
  (N <> 0 -> forall v e, non_darcy_drain_eta re iL gamw (Some N) [] (Some v) (Err e) = Err e) /\
  (N <> 0 -> forall v b, re = 0 \/ iL = 0 \/ gamw = 0 \/ b = 0 -> non_darcy_drain_eta re iL gamw (Some N) [] (Some v) (Ok b) = Err ZeroDivisionError).
Proof.
  intros re iL gamw N nf beta. unfold non_darcy_drain_eta. repeat (match goal with |- _ /\ _ => split end); cbn [bind].
  - reflexivity.
  - rewrite (proj2 (Reqb_true 0 0)) by reflexivity. reflexivity.
  - intros H. rewrite (proj2 (Reqb_false _ _)) by exact H. reflexivity.
  - intros H v e. rewrite (proj2 (Reqb_false _ _)) by exact H. reflexivity.
  - intros H v b H0. rewrite (proj2 (Reqb_false N 0)) by exact H. cbv zeta. assert (P0 : forall e, power 0 e = 0) by (intros e; unfold power; rewrite (proj2 (Reqb_true 0 0)) by reflexivity; reflexivity).
    rewrite (proj2 (Reqb_true _ 0)); [reflexivity|]. destruct H0 as [-> |[-> |[-> | ->]]]; [|rewrite P0|rewrite Rmult_0_r, P0|rewrite P0]; ring.
Qed.
(** the docstring's case: n = 15, exponent 1.3, with the ideal drain's beta *)
Theorem C178_example : exists beta eta, non_darcy_beta_ideal false 15 (13 / 10) 20 = Ok beta /\ non_darcy_drain_eta (3 / 2) 10 10 (Some 15) [] (Some (13 / 10)) (Ok beta) = Ok eta /\ 0 < eta.
Proof.
  assert (V : valid [15] [1] (13 / 10) 20).
  { unfold valid. repeat (match goal with |- _ /\ _ => split end); auto; try discriminate; try lra; try (intros x [<-|[]]; lra); [|repeat constructor]. intros i Hi. cbn in Hi. inversion Hi as [|? Q]; inversion Q. }
  destruct (C177_beta_u _ _ _ _ V) as (f & b & _ & B1 & B2 & _).
  unfold non_darcy_beta_ideal. rewrite !(proj2 (Rleb_false _ _)) by lra. rewrite g_ok, !gbar_ok by (try lra; repeat constructor). cbn [bind]. eexists. 
  assert (E : (- g_array 1 15 (13 / 10) 20 * (15 ^ 2 - 1) + 2 * gbar_array 15 15 (13 / 10) 20 - 2 * gbar_array 1 15 (13 / 10) 20) / (15 ^ 2 - 1) = b).
  { assert (B3 : pw_beta [15] [1] (13 / 10) 20 = b). { unfold non_darcy_beta_piecewise_constant in B1. cbn [with_outer bind fst snd] in B1. rewrite valid_checks in B1 by exact V. cbn [bind] in B1. congruence. }
    rewrite <- B3. unfold pw_beta. cbn [length sum_to]. rewrite !(gbarv_array _ _ _ _ V), !(gv_array _ _ _ _ V). unfold psi, kx, hi, lo, outer. cbn [nth sum_to last]. assert (O : Rpower 1 (1 / (13 / 10)) = 1) by (unfold Rpower; rewrite ln_1, Rmult_0_r, exp_0; reflexivity). rewrite O. field. }
  rewrite E. destruct (C178_flow (3 / 2) 10 10 15 (13 / 10) b 1 1 1 (Some 15) []) as (_ & eta & T1 & T2 & _); try lra; [left; reflexivity|]. exists eta. auto.
Qed.
Print Assumptions C178_flow.
