(** * Hansbo's constructor *)
From Coq Require Import Reals List ZArith Lia Lra Bool.
From Coquelicot Require Import Coquelicot.
From Verif Require Import Base ConstitutiveModel SpecConstitutive ConstitutiveProofs ConstitutiveProofs5.
Import ListNotations.
Open Scope R_scope.

Lemma fdiv_ok a b : b <> 0 -> fdiv a b = Ok (a / b).
Proof. intros. unfold fdiv. rewrite Reqb_false by auto. auto. Qed.
Lemma fdiv_inv a b q : fdiv a b = Ok q -> b <> 0 /\ q = a / b.
Proof. unfold fdiv, Reqb. destruct (Req_EM_T b 0); [discriminate|]. intros H. injection H as <-. auto. Qed.
Lemma bind_inv {A B} (r : result A) (f : A -> result B) b : bind r f = Ok b -> exists a, r = Ok a /\ f a = Ok b.
Proof. destruct r; cbn; [eauto|discriminate]. Qed.
Lemma power_inv x y p : 0 < x -> power x y = Ok p -> p = rpow x y.
Proof. intros Hx. rewrite power_pos by auto. intros H. injection H as <-. auto. Qed.

Section Any.
Variables kstar n iL : R.
Hypothesis (Hk : 0 < kstar) (Hn : 1 < n) (Hi : 0 < iL).
Let i0 := iL * (n - 1) / n.
Let klinear := kstar * n * rpow iL (n - 1).
Let vL := kstar * rpow iL n.
Let the_model := mkHansbo kstar n iL i0 klinear vL.
Lemma P_pos : 0 < rpow iL (n - 1). Proof. apply rpow_pos; auto. Qed.
Lemma the_ok : hansbo_ok the_model.
Proof. constructor; cbn; auto; try lra. Qed.
Lemma i0_pos : 0 < i0 < iL.
Proof.
  unfold i0. assert (0 < / n < 1). { split; [apply Rinv_0_lt_compat; lra|]. rewrite <- Rinv_1. apply Rinv_lt_contravar; lra. }
  replace (iL * (n - 1) / n) with (iL - iL * / n) by (field; lra). nra.
Qed.
Lemma checks kl : kl = klinear ->
  (if Rltb iL i0 then Err ValueError else if andb (Rleb iL i0) (Rltb 0 i0) then Err ValueError
   else if Rltb n 1 then Err ValueError else Ok (mkHansbo kstar n iL i0 kl (kl * (iL - i0)))) = Ok the_model.
Proof.
  intros ->. pose proof i0_pos. rewrite Rltb_false by lra. rewrite Rleb_false by lra. cbn [andb]. rewrite Rltb_false by lra.
  unfold the_model. do 2 f_equal. apply (kl_eq the_model the_ok).
Qed.
Ltac fin := cbn [a_kstar a_n a_iL a_i0 a_klinear bind]; apply checks; reflexivity.
Lemma init_kstar_n_iL : hansbo_init None (Some kstar) (Some n) None (Some iL) = Ok the_model.
Proof.
  unfold hansbo_init, hansbo_attrs. rewrite !Reqb_false by lra. cbn [orb].
  rewrite fdiv_ok by lra. cbn [bind]. rewrite power_pos by auto. cbn [bind a_kstar a_n a_iL a_i0 a_klinear].
  replace ((n - 1) / n * iL) with i0 by (unfold i0, Rdiv; ring). apply checks. reflexivity.
Qed.
Lemma iL_of_i0 : i0 * n / (n - 1) = iL.
Proof. unfold i0. field. lra. Qed.
Lemma init_kstar_n_i0 : hansbo_init None (Some kstar) (Some n) (Some i0) None = Ok the_model.
Proof.
  pose proof i0_pos. unfold hansbo_init, hansbo_attrs. rewrite !Reqb_false by lra. cbn [orb].
  rewrite fdiv_ok by lra. cbn [bind]. rewrite iL_of_i0. rewrite power_pos by auto. fin.
Qed.
Lemma init_kstar_n_klinear : hansbo_init (Some klinear) (Some kstar) (Some n) None None = Ok the_model.
Proof.
  pose proof P_pos. unfold hansbo_init, hansbo_attrs. rewrite !Reqb_false by lra.
  rewrite !fdiv_ok by nra. cbn [bind].
  replace (klinear / (kstar * n)) with (rpow iL (n - 1)) by (unfold klinear; field; lra).
  rewrite power_pos by auto. rewrite rpow_rpow by lra. cbn [bind]. rewrite fdiv_ok by lra. fin.
Qed.
Lemma n_of : iL / (iL - i0) = n.
Proof. unfold i0. assert (iL / n <> 0) by (apply Rgt_not_eq; apply Rdiv_lt_0_compat; lra). field. split; [lra|]. nra. Qed.
Lemma init_kstar_iL_i0 : hansbo_init None (Some kstar) None (Some i0) (Some iL) = Ok the_model.
Proof.
  pose proof i0_pos. unfold hansbo_init, hansbo_attrs. rewrite !Reqb_false by lra.
  rewrite fdiv_ok by lra. cbn [bind]. rewrite n_of. rewrite power_pos by auto. fin.
Qed.
Lemma kstar_of : klinear / (n * rpow iL (n - 1)) = kstar.
Proof. pose proof P_pos. unfold klinear. field. lra. Qed.
Lemma init_n_iL_klinear : hansbo_init (Some klinear) None (Some n) None (Some iL) = Ok the_model.
Proof.
  pose proof P_pos. unfold hansbo_init, hansbo_attrs. rewrite !Reqb_false by lra. cbn [orb].
  rewrite fdiv_ok by lra. cbn [bind]. rewrite power_pos by auto. cbn [bind]. rewrite fdiv_ok by nra. cbn [bind]. rewrite kstar_of. fin.
Qed.
Lemma init_n_i0_klinear : hansbo_init (Some klinear) None (Some n) (Some i0) None = Ok the_model.
Proof.
  pose proof P_pos. pose proof i0_pos. unfold hansbo_init, hansbo_attrs. rewrite !Reqb_false by lra. cbn [orb].
  rewrite fdiv_ok by lra. cbn [bind]. rewrite iL_of_i0. rewrite power_pos by auto. cbn [bind]. rewrite fdiv_ok by nra. cbn [bind]. rewrite kstar_of. fin.
Qed.
Lemma init_iL_i0_klinear : hansbo_init (Some klinear) None None (Some i0) (Some iL) = Ok the_model.
Proof.
  pose proof P_pos. pose proof i0_pos. unfold hansbo_init, hansbo_attrs.
  rewrite fdiv_ok by lra. cbn [bind]. rewrite n_of. rewrite power_pos by auto. cbn [bind]. rewrite fdiv_ok by nra. cbn [bind]. rewrite kstar_of. fin.
Qed.
End Any.

(** soundness for all inputs *)

Lemma init_inv klinear kstar n i0 iL m : hansbo_init klinear kstar n i0 iL = Ok m ->
  exists a kl, hansbo_attrs klinear kstar n i0 iL = Ok a /\ a_klinear a = Some kl /\
    a_i0 a <= a_iL a /\ (0 < a_i0 a -> a_i0 a < a_iL a) /\ 1 <= a_n a /\
    m = mkHansbo (a_kstar a) (a_n a) (a_iL a) (a_i0 a) kl (kl * (a_iL a - a_i0 a)).
Proof.
  unfold hansbo_init. destruct (hansbo_attrs klinear kstar n i0 iL) as [a|] eqn:E; [|discriminate]. cbn [bind].
  unfold Rltb, Rleb. destruct (Rlt_dec (a_iL a) (a_i0 a)); [discriminate|].
  destruct (Rle_dec (a_iL a) (a_i0 a)) as [Hle|Hle]; cbn [andb].
  - destruct (Rlt_dec 0 (a_i0 a)); [discriminate|]. destruct (Rlt_dec (a_n a) 1); [discriminate|].
    destruct (a_klinear a) as [kl|] eqn:Ek; [|discriminate]. intros H. injection H as <-.
    exists a, kl. repeat split; auto; lra.
  - destruct (Rlt_dec (a_n a) 1); [discriminate|].
    destruct (a_klinear a) as [kl|] eqn:Ek; [|discriminate]. intros H. injection H as <-.
    exists a, kl. repeat split; auto; lra.
Qed.
Lemma ok_of kstar n iL i0 kl vL : 0 < kstar -> 1 <= n -> 0 <= iL -> (iL = 0 -> n = 1) -> i0 = iL * (n - 1) / n ->
  kl = kstar * n * rpow iL (n - 1) -> vL = kl * (iL - i0) -> hansbo_ok (mkHansbo kstar n iL i0 kl vL).
Proof.
  intros. subst. constructor; cbn; auto. destruct H1 as [H1|H1].
  - rewrite (rpow_step iL n) by auto. field. lra.
  - rewrite <- H1. rewrite (rpow_0 n) by lra. unfold Rdiv. ring.
Qed.
Lemma ok_darcy k vL : 0 < k -> vL = k * (0 - 0) -> hansbo_ok (mkHansbo k 1 0 0 k vL).
Proof. intros. apply ok_of; auto; try lra. rewrite Rminus_eq_0, rpow_x0. ring. Qed.

Lemma orb_true_R a b c d : orb (Reqb a b) (Reqb c d) = false -> a <> b /\ c <> d.
Proof. unfold Reqb. destruct (Req_EM_T a b), (Req_EM_T c d); cbn; auto; discriminate. Qed.
Lemma Reqb_inv a b : Reqb a b = false -> a <> b.
Proof. unfold Reqb. destruct (Req_EM_T a b); auto; discriminate. Qed.

Ltac step H := let v := fresh "v" in let E := fresh "E" in apply bind_inv in H; destruct H as (v & E & H).
Ltac undiv E := let N := fresh "N" in apply fdiv_inv in E; destruct E as (N & E).
Lemma init_sound klinear kstar n i0 iL m :
  given_ok klinear (Rlt 0) -> given_ok kstar (Rlt 0) -> given_ok i0 (Rle 0) -> given_ok iL (Rle 0) ->
  ~ fixed_point_case klinear kstar i0 iL ->
  hansbo_init klinear kstar n i0 iL = Ok m -> hansbo_ok m.
Proof.
  intros Hkl Hk H0 HL Hfp H. destruct (init_inv _ _ _ _ _ _ H) as (a & kl & Ea & Ekl & C1 & C2 & C3 & ->). clear H.
  unfold hansbo_attrs in Ea.
  destruct kstar as [ks|], n as [n|], iL as [L|], i0 as [z|], klinear as [c|]; cbn in *; try discriminate; try tauto.
  - (* kstar n iL *)
    destruct (Reqb n 1 || Reqb L 0)%bool eqn:B; [injection Ea as <-; discriminate|].
    destruct (orb_true_R _ _ _ _ B) as (Hn & HL0). step Ea. undiv E. step Ea. apply power_inv in E0; [|lra].
    injection Ea as <-. cbn in *. injection Ekl as <-. apply ok_of; auto; try lra; subst; auto. unfold Rdiv. ring.
  - (* kstar n i0 *)
    destruct (Reqb n 1 || Reqb z 0)%bool eqn:B; [injection Ea as <-; injection Ekl as <-; apply ok_darcy; cbn; auto|].
    destruct (orb_true_R _ _ _ _ B) as (Hn & HL0). step Ea. undiv E. step Ea.
    assert (Hv : 0 < v).
    { unfold power in E0. destruct (Rltb 0 v) eqn:Bv; [unfold Rltb in Bv; destruct (Rlt_dec 0 v); auto; discriminate|].
      injection Ea as <-. cbn in *. lra. }
    apply power_inv in E0; [|auto].
    injection Ea as <-. cbn in *. injection Ekl as <-. apply ok_of; auto; try lra; subst; auto. field. lra.
  - (* kstar n klinear *)
    destruct (Reqb n 1) eqn:B; [injection Ea as <-; injection Ekl as <-; apply ok_darcy; cbn; auto|].
    apply Reqb_inv in B. step Ea. undiv E. step Ea. undiv E0. step Ea. step Ea. undiv E2. injection Ea as <-. cbn in *. injection Ekl as <-.
    assert (Hq : 0 < v). { rewrite E. apply Rdiv_lt_0_compat; auto. apply Rmult_lt_0_compat; lra. }
    apply power_inv in E1; auto.
    assert (0 < v1) by (rewrite E1; apply rpow_pos; auto).
    apply ok_of; auto; try lra.
    rewrite E1, E0, rpow_rpow' by (auto; lra). rewrite E. field. lra.
  - (* kstar iL i0 *)
    destruct (Reqb L z) eqn:B; [injection Ea as <-; injection Ekl as <-; apply ok_darcy; cbn; auto|].
    apply Reqb_inv in B. step Ea. undiv E. step Ea.
    injection Ea as <-. cbn in *. injection Ekl as <-.
    assert (0 < L) by lra. apply power_inv in E0; auto.
    apply ok_of; auto; try lra; subst; auto. field. lra.
  - (* n iL klinear *)
    destruct (Reqb n 1 || Reqb L 0)%bool eqn:B; [injection Ea as <-; injection Ekl as <-; apply ok_darcy; cbn; auto|].
    destruct (orb_true_R _ _ _ _ B) as (Hn & HL0). step Ea. undiv E. step Ea. apply power_inv in E0; [|lra]. step Ea. undiv E1.
    injection Ea as <-. cbn in *. injection Ekl as <-. assert (0 < v0) by (rewrite E0; apply rpow_pos; lra).
    assert (0 < v1). { rewrite E1. apply Rdiv_lt_0_compat; auto. apply Rmult_lt_0_compat; lra. }
    apply ok_of; auto; try lra. rewrite <- E0, E1. field. lra.
  - (* n i0 klinear *)
    destruct (Reqb n 1 || Reqb z 0)%bool eqn:B; [injection Ea as <-; injection Ekl as <-; apply ok_darcy; cbn; auto|].
    destruct (orb_true_R _ _ _ _ B) as (Hn & HL0). step Ea. undiv E. step Ea. step Ea. undiv E1.
    injection Ea as <-. cbn in *. injection Ekl as <-. assert (Hv : 0 < v) by lra.
    apply power_inv in E0; [|auto]. assert (0 < v0) by (rewrite E0; apply rpow_pos; lra).
    assert (0 < v1). { rewrite E1. apply Rdiv_lt_0_compat; auto. apply Rmult_lt_0_compat; lra. }
    apply ok_of; auto; try lra; [rewrite E; field; lra|]. rewrite <- E0, E1. field. lra.
  - (* iL i0 klinear *)
    step Ea. undiv E. step Ea. step Ea. undiv E1. injection Ea as <-. cbn in *. injection Ekl as <-.
    assert (0 < L) by lra. apply power_inv in E0; auto. assert (0 < v0) by (rewrite E0; apply rpow_pos; lra).
    assert (0 < v1). { rewrite E1. apply Rdiv_lt_0_compat; auto. apply Rmult_lt_0_compat; lra. }
    apply ok_of; auto; try lra; [rewrite E; field; lra|]. rewrite <- E0, E1. field. lra.
Qed.

(** ** fixed_point_no_accel *)

Lemma fixed_loop_sound fuel f tol x p : fixed_point_loop fuel f tol x = Ok p ->
  exists j p0, (j < fuel)%nat /\ iterate f j x = Ok p0 /\ f p0 = Ok p /\ Rabs (relerr p0 p) < tol.
Proof.
  revert x. induction fuel as [|fuel IH]; intros x H; [discriminate|]. cbn [fixed_point_loop] in H.
  step H. unfold Reqb, Rltb in H. fold (relerr x v) in H.
  assert (Er : (if (if Req_EM_T x 0 then true else false) then v else (v - x) / x) = relerr x v) by (unfold relerr; destruct (Req_EM_T x 0); auto).
  rewrite Er in H. destruct (Rlt_dec (Rabs (relerr x v)) tol) as [Hl|Hl].
  - injection H as <-. exists 0%nat, x. repeat split; auto; lia.
  - destruct (IH v H) as (j & p0 & Hj & Hi & Hf & Ht). exists (S j), p0. repeat split; auto; [lia|]. cbn. rewrite E. exact Hi.
Qed.
(** it fails exactly when no iterate within maxiter steps is accepted *)
Lemma fixed_loop_fails fuel f tol x :
  (forall j p0, (j < fuel)%nat -> iterate f j x = Ok p0 -> exists p, f p0 = Ok p /\ tol <= Rabs (relerr p0 p)) ->
  fixed_point_loop fuel f tol x = Err RuntimeError.
Proof.
  revert x. induction fuel as [|fuel IH]; intros x H; [reflexivity|]. cbn [fixed_point_loop].
  destruct (H 0%nat x ltac:(lia) eq_refl) as (p & Hp & Ht). rewrite Hp. cbn [bind]. unfold Reqb, Rltb.
  assert (Er : (if (if Req_EM_T x 0 then true else false) then p else (p - x) / x) = relerr x p) by (unfold relerr; destruct (Req_EM_T x 0); auto).
  rewrite Er. destruct (Rlt_dec (Rabs (relerr x p)) tol); [lra|]. apply IH.
  intros j p0 Hj Hi. apply (H (S j)); [lia|]. cbn. rewrite Hp. exact Hi.
Qed.
Lemma fixed_point_sound N f tol x p : fixed_point_no_accel f x tol N = Ok p ->
  exists j p0, (j < N)%nat /\ iterate f j x = Ok p0 /\ f p0 = Ok p /\ Rabs (relerr p0 p) < tol.
Proof. unfold fixed_point_no_accel. destruct N; [discriminate|]. apply fixed_loop_sound. Qed.
Local Arguments fixed_point_no_accel : simpl never.
(** the two constructors that iterate: the exponent is accurate to the tolerance *)
Lemma rlog_inv x y : rlog x = Ok y -> 0 < x /\ y = ln x.
Proof. unfold rlog, Rltb. destruct (Rlt_dec 0 x); [|discriminate]. intros H. injection H as <-. auto. Qed.
Lemma fp_case_core klinear kstar L p0 p : 0 < klinear -> 0 < kstar -> 0 < L ->
  (exists a b, fdiv klinear kstar = Ok a /\ fdiv a p0 = Ok b /\ 0 < b /\ ln L <> 0 /\ p = ln b / ln L + 1) ->
  klinear = kstar * p0 * rpow L (p - 1).
Proof.
  intros Hkl Hk HL (a & b & Ea & Eb & Hb & Hl & ->). apply fdiv_inv in Ea. apply fdiv_inv in Eb. destruct Ea as (_ & ->). destruct Eb as (Hp & ->).
  rewrite rpow_pos_eq by auto. replace ((ln (klinear / kstar / p0) / ln L + 1 - 1) * ln L) with (ln (klinear / kstar / p0)) by (field; auto).
  rewrite exp_ln by auto. field. lra.
Qed.
Lemma init_iterative klinear kstar n i0 iL m :
  given_ok klinear (Rlt 0) -> given_ok kstar (Rlt 0) -> given_ok i0 (Rlt 0) -> given_ok iL (Rlt 0) ->
  fixed_point_case klinear kstar i0 iL -> hansbo_init klinear kstar n i0 iL = Ok m ->
  klinear = Some (h_klinear m) /\ kstar = Some (h_kstar m) /\ (i0 = None \/ i0 = Some (h_i0 m)) /\ (iL = None \/ iL = Some (h_iL m)) /\
  1 <= h_n m /\ h_i0 m < h_iL m /\ h_i0 m = h_iL m * (h_n m - 1) / h_n m /\
  exists n', Rabs (h_n m - n') < 1 / 100000000 * Rabs n' /\
    (iL = Some (h_iL m) -> h_klinear m = h_kstar m * n' * rpow (h_iL m) (h_n m - 1)) /\
    (i0 = Some (h_i0 m) -> h_klinear m = h_kstar m * n' * rpow (h_i0 m * n' / (n' - 1)) (h_n m - 1)).
Proof.
  intros Hkl Hk H0 HL Hfp H. destruct (init_inv _ _ _ _ _ _ H) as (a & kl & Ea & Ekl & C1 & C2 & C3 & ->). clear H.
  destruct klinear as [c|], kstar as [ks|], i0 as [z|], iL as [L|]; cbn in Hfp; try contradiction; cbn [given_ok] in *.
  - (* i0 *)
    destruct n as [n|]; cbn in Ea; [discriminate|]. rewrite Reqb_false in Ea by lra. step Ea. step Ea. undiv E0.
    injection Ea as <-. cbn in *. injection Ekl as <-.
    destruct (fixed_point_sound _ _ _ _ _ E) as (j & p0 & Hj & Hi & Hf & Ht).
    unfold fn_i0 in Hf. step Hf. step Hf. undiv E2. step Hf. apply rlog_inv in E3. step Hf. undiv E4. step Hf. apply rlog_inv in E5.
    destruct E3 as (Hb & E3). destruct E5 as (HiL & E5).
    destruct (Reqb v5 0) eqn:B; [discriminate|]. apply Reqb_inv in B. injection Hf as Hv.
    unfold relerr in Ht. destruct (Req_EM_T p0 0); [contradiction|].
    assert (Hlt : z < v0) by (apply C2; auto).
    split; auto. split; auto. split; auto. split; auto. split; auto. split; [auto|].
    split; [rewrite E0; field; lra|].
    exists p0. split; [|split; [discriminate|]].
    + unfold Rdiv in Ht. rewrite Rabs_mult, Rabs_inv in Ht. assert (0 < Rabs p0) by (apply Rabs_pos_lt; auto).
      apply Rmult_lt_reg_r with (/ Rabs p0); [apply Rinv_0_lt_compat; auto|]. rewrite Rmult_assoc, Rinv_r by lra. lra.
    + intros _. rewrite <- E4. apply fp_case_core; auto.
      exists v1, v2. split; auto. split; [unfold fdiv; rewrite Reqb_false by auto; rewrite E2; auto|]. split; auto.
      split; [rewrite <- E5; auto|]. rewrite <- Hv, E3, E5. auto.
  - (* iL *)
    destruct n as [n|]; cbn in Ea; [discriminate|]. rewrite Reqb_false in Ea by lra. step Ea. step Ea. undiv E0.
    injection Ea as <-. cbn in *. injection Ekl as <-.
    destruct (fixed_point_sound _ _ _ _ _ E) as (j & p0 & Hj & Hi & Hf & Ht).
    unfold fn_iL in Hf. step Hf. step Hf. undiv E2. step Hf. apply rlog_inv in E3. step Hf. apply rlog_inv in E4.
    destruct E3 as (Hb & E3). destruct E4 as (HiL & E4).
    destruct (Reqb v4 0) eqn:B; [discriminate|]. apply Reqb_inv in B. injection Hf as Hv.
    unfold relerr in Ht. destruct (Req_EM_T p0 0); [contradiction|].
    assert (Hlt : v0 < L). { rewrite E0. assert (0 < / v) by (apply Rinv_0_lt_compat; lra). replace (L * (v - 1) / v) with (L - L * / v) by (field; lra). nra. }
    split; auto. split; auto. split; auto. split; auto. split; auto. split; [auto|]. split; [auto|].
    exists p0. split; [|split; [|discriminate]].
    + unfold Rdiv in Ht. rewrite Rabs_mult, Rabs_inv in Ht. assert (0 < Rabs p0) by (apply Rabs_pos_lt; auto).
      apply Rmult_lt_reg_r with (/ Rabs p0); [apply Rinv_0_lt_compat; auto|]. rewrite Rmult_assoc, Rinv_r by lra. lra.
    + intros _. apply fp_case_core; auto.
      exists v1, v2. split; auto. split; [unfold fdiv; rewrite Reqb_false by auto; rewrite E2; auto|]. split; auto.
      split; [rewrite <- E4; auto|]. rewrite <- Hv, E3, E4. auto.
Qed.
