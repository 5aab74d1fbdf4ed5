(** * Hansbo's flow law *)
From Coq Require Import Reals List ZArith Lia Lra Bool.
From Coquelicot Require Import Coquelicot.
From Verif Require Import Base ConstitutiveModel SpecConstitutive ConstitutiveProofs.
Import ListNotations.
Open Scope R_scope.

Lemma rpow_pos_eq x y : 0 < x -> rpow x y = exp (y * ln x).
Proof. intros. unfold rpow. destruct (Req_EM_T x 0); [lra|]. reflexivity. Qed.
Lemma rpow_0 y : 0 < y -> rpow 0 y = 0.
Proof. intros. unfold rpow. destruct (Req_EM_T 0 0); [|lra]. destruct (Req_EM_T y 0); lra. Qed.
Lemma rpow_x0 x : rpow x 0 = 1.
Proof. unfold rpow. destruct (Req_EM_T x 0). destruct (Req_EM_T 0 0); lra. unfold Rpower. rewrite Rmult_0_l. apply exp_0. Qed.
Lemma rpow_x1 x : 0 <= x -> rpow x 1 = x.
Proof.
  intros H. unfold rpow. destruct (Req_EM_T x 0) as [->|Hx]. destruct (Req_EM_T 1 0); lra.
  apply Rpower_1. lra.
Qed.
Lemma rpow_pos x y : 0 < x -> 0 < rpow x y.
Proof. intros. rewrite rpow_pos_eq by auto. apply exp_pos. Qed.
Lemma power_ok x y : 0 <= x -> 0 <= y -> power x y = Ok (rpow x y).
Proof.
  intros Hx Hy. unfold power, rpow. destruct (Req_EM_T x 0) as [->|Hn].
  - rewrite Rltb_false by lra. rewrite Reqb_true by auto. unfold Reqb, Rltb. destruct (Req_EM_T y 0); auto. destruct (Rlt_dec 0 y); auto. lra.
  - rewrite Rltb_true by lra. reflexivity.
Qed.
Lemma power_pos x y : 0 < x -> power x y = Ok (rpow x y).
Proof. intros Hx. unfold power. rewrite Rltb_true by lra. rewrite rpow_pos_eq by auto. reflexivity. Qed.
Lemma rpow_rpow x y : 0 < x -> y <> 0 -> rpow (rpow x y) (1 / y) = x.
Proof.
  intros Hx Hy. rewrite (rpow_pos_eq (rpow x y)) by (apply rpow_pos; auto). rewrite rpow_pos_eq by auto. rewrite ln_exp.
  replace (1 / y * (y * ln x)) with (ln x) by (field; auto). apply exp_ln; auto.
Qed.
Lemma rpow_rpow' x y : 0 < x -> y <> 0 -> rpow (rpow x (1 / y)) y = x.
Proof.
  intros Hx Hy. rewrite (rpow_pos_eq (rpow x (1/y))) by (apply rpow_pos; auto). rewrite rpow_pos_eq by auto. rewrite ln_exp.
  replace (y * (1 / y * ln x)) with (ln x) by (field; auto). apply exp_ln; auto.
Qed.
Lemma rpow_step x y : 0 < x -> rpow x y = rpow x (y - 1) * x.
Proof.
  intros Hx. rewrite !rpow_pos_eq by auto. rewrite <- (exp_ln x) at 3 by auto. rewrite <- exp_plus. f_equal. ring.
Qed.
Lemma rpow_lt x y n : 0 < x < y -> 0 < n -> rpow x n < rpow y n.
Proof.
  intros H Hn. rewrite !rpow_pos_eq by lra. apply exp_increasing. apply Rmult_lt_compat_l; auto. apply ln_increasing; lra.
Qed.
Lemma rpow_lt_inv x y n : 0 < x -> 0 < y -> 0 < n -> rpow x n < rpow y n -> x < y.
Proof.
  intros Hx Hy Hn H. apply Rnot_le_lt. intros [F|F]; [|subst; lra].
  assert (rpow y n < rpow x n) by (apply rpow_lt; lra). lra.
Qed.
Lemma signR_pos x : 0 < x -> signR x = 1.
Proof. intros. unfold signR. rewrite Rltb_true by auto. auto. Qed.
Lemma signR_neg x : x < 0 -> signR x = -1.
Proof. intros. unfold signR. rewrite Rltb_false by lra. rewrite Rltb_true by auto. auto. Qed.
Lemma signR_0 : signR 0 = 0.
Proof. unfold signR. rewrite !Rltb_false by lra. auto. Qed.

(** the five parameters agree with one another *)


Section Law.
Variable m : Hansbo.
Hypothesis Hm : hansbo_ok m.
Notation k := (h_kstar m). Notation nn := (h_n m). Notation iL := (h_iL m). Notation i0 := (h_i0 m). Notation kl := (h_klinear m). Notation vL := (h_vL m).
Definition hF (i : R) : R := if Rle_dec iL i then kl * (i - i0) else k * rpow i nn.
Definition hv (i : R) : R := if Rlt_dec 0 i then hF i else if Rlt_dec i 0 then - hF (- i) else 0.

Lemma kl_pos : 0 < kl.
Proof.
  destruct Hm as [K N I Z E0 EK EV]. rewrite EK. apply Rmult_lt_0_compat; [nra|].
  destruct I as [I|I]; [apply rpow_pos; auto|]. rewrite Z by auto. rewrite Rminus_eq_0, rpow_x0. lra.
Qed.
Lemma kl_eq : kl * (iL - i0) = vL.
Proof.
  destruct Hm as [K N I Z E0 EK EV]. rewrite EV, EK, E0.
  destruct I as [I|I].
  - rewrite (rpow_step iL nn) by auto. field. lra.
  - rewrite (Z (eq_sym I)), <- I, (rpow_0 1) by lra. unfold Rdiv. ring.
Qed.
Lemma i0_lt : 0 <= i0 <= iL /\ (0 < iL -> i0 < iL).
Proof.
  destruct Hm as [K N I Z E0 EK EV]. rewrite E0. assert (0 < / nn) by (apply Rinv_0_lt_compat; lra).
  assert (E : iL * (nn - 1) / nn = iL - iL * / nn) by (field; lra). rewrite E.
  assert (/ nn <= 1). { rewrite <- Rinv_1. apply Rinv_le_contravar; lra. }
  split; [split; nra|]. intros. nra.
Qed.
Lemma vL_nonneg : 0 <= vL.
Proof. rewrite <- kl_eq. pose proof kl_pos. pose proof i0_lt. nra. Qed.
Lemma hF_pos i : 0 < i -> 0 < hF i.
Proof.
  intros Hi. unfold hF. pose proof kl_pos. destruct i0_lt as (H1 & H2). destruct Hm as [K N I Z E0 EK EV].
  destruct (Rle_dec iL i).
  - apply Rmult_lt_0_compat; auto. destruct I as [I|I]; [specialize (H2 I); lra|]. lra.
  - apply Rmult_lt_0_compat; auto. apply rpow_pos. auto.
Qed.
Lemma hF_inc i j : 0 < i < j -> hF i < hF j.
Proof.
  intros Hij. unfold hF. pose proof kl_pos as Hkl. pose proof kl_eq as E. destruct i0_lt as (H1 & H2). destruct Hm as [K N I Z E0 EK EV].
  destruct (Rle_dec iL i); destruct (Rle_dec iL j); try lra.
  - nra.
  - assert (rpow i nn < rpow iL nn) by (apply rpow_lt; lra). assert (k * rpow i nn < vL) by (rewrite EV; apply Rmult_lt_compat_l; auto). nra.
  - apply Rmult_lt_compat_l; auto. apply rpow_lt; lra.
Qed.
Lemma hv_ok i : hansbo_v_from_i m i = Ok (hv i).
Proof.
  unfold hansbo_v_from_i, hv, hF. destruct Hm as [K N I Z E0 EK EV].
  assert (P : forall x, 0 <= x -> (if Rleb iL x then Ok (kl * (x - i0)) else p <- power x nn;; Ok (k * p)) = Ok (if Rle_dec iL x then kl * (x - i0) else k * rpow x nn)).
  { intros x Hx. unfold Rleb. destruct (Rle_dec iL x); auto. rewrite power_ok by lra. reflexivity. }
  cbv zeta. rewrite P by apply Rabs_pos. cbn [bind]. f_equal.
  destruct (Rlt_dec 0 i); [rewrite signR_pos, Rabs_pos_eq by lra; ring|].
  destruct (Rlt_dec i 0); [rewrite signR_neg, Rabs_left by lra; ring|].
  replace i with 0 by lra. rewrite signR_0. ring.
Qed.
Lemma hv_odd i : hv (- i) = - hv i.
Proof.
  unfold hv. destruct (Rlt_dec 0 (-i)), (Rlt_dec (-i) 0), (Rlt_dec 0 i), (Rlt_dec i 0); try lra.
  rewrite Ropp_involutive. auto.
Qed.
Lemma hv_0 : hv 0 = 0.
Proof. unfold hv. destruct (Rlt_dec 0 0); lra. Qed.
Lemma hv_pos i : 0 < i -> hv i = hF i.
Proof. intros. unfold hv. destruct (Rlt_dec 0 i); lra. Qed.
Lemma hv_inc i j : i < j -> hv i < hv j.
Proof.
  intros H.
  assert (P : forall x, 0 < x -> 0 < hv x) by (intros; rewrite hv_pos by auto; apply hF_pos; auto).
  assert (N : forall x, x < 0 -> hv x < 0).
  { intros x Hx. replace x with (- - x) by ring. rewrite hv_odd. specialize (P (- x)). lra. }
  assert (M : forall x y, 0 < x -> x < y -> hv x < hv y) by (intros; rewrite !hv_pos by lra; apply hF_inc; auto).
  destruct (Rlt_dec 0 i); [auto|]. destruct (Rlt_dec j 0).
  - assert (H1 := M (- j) (- i) ltac:(lra) ltac:(lra)). rewrite !hv_odd in H1. lra.
  - destruct (Req_EM_T i 0) as [->|Hi]; [rewrite hv_0; apply P; lra|].
    assert (hv i < 0) by (apply N; lra). destruct (Req_EM_T j 0) as [->|Hj]; [rewrite hv_0; auto|].
    assert (0 < hv j) by (apply P; lra). lra.
Qed.
(** inverse *)
Definition hG (v : R) : R := if Rle_dec vL v then v / kl + i0 else rpow (v / k) (1 / nn).
Definition hi (v : R) : R := if Rlt_dec 0 v then hG v else if Rlt_dec v 0 then - hG (- v) else 0.
Lemma hi_ok v : hansbo_i_from_v m v = Ok (hi v).
Proof.
  unfold hansbo_i_from_v, hi, hG. pose proof kl_pos as Hkl. destruct Hm as [K N I Z E0 EK EV].
  assert (P : forall x, 0 <= x -> (if Rleb vL x then q <- fdiv x kl;; Ok (q + i0) else q <- fdiv x k;; r <- fdiv 1 nn;; power q r)
      = Ok (if Rle_dec vL x then x / kl + i0 else rpow (x / k) (1 / nn))).
  { intros x Hx. unfold Rleb, fdiv. destruct (Rle_dec vL x).
    - rewrite Reqb_false by lra. reflexivity.
    - rewrite !Reqb_false by lra. cbn [bind]. apply power_ok.
      + apply Rmult_le_pos; auto. left. apply Rinv_0_lt_compat; auto.
      + apply Rmult_le_pos; [lra|]. left. apply Rinv_0_lt_compat; lra. }
  cbv zeta. rewrite P by apply Rabs_pos. cbn [bind]. f_equal.
  destruct (Rlt_dec 0 v); [rewrite signR_pos, Rabs_pos_eq by lra; ring|].
  destruct (Rlt_dec v 0); [rewrite signR_neg, Rabs_left by lra; ring|].
  replace v with 0 by lra. rewrite signR_0. ring.
Qed.
Lemma hi_odd v : hi (- v) = - hi v.
Proof.
  unfold hi. destruct (Rlt_dec 0 (-v)), (Rlt_dec (-v) 0), (Rlt_dec 0 v), (Rlt_dec v 0); try lra.
  rewrite Ropp_involutive. auto.
Qed.
Lemma hi_0 : hi 0 = 0.
Proof. unfold hi. destruct (Rlt_dec 0 0); lra. Qed.
Lemma hi_pos v : 0 < v -> hi v = hG v.
Proof. intros. unfold hi. destruct (Rlt_dec 0 v); lra. Qed.
Lemma hG_hF i : 0 < i -> hG (hF i) = i.
Proof.
  intros Hi. pose proof kl_pos as Hkl. pose proof kl_eq as E. destruct Hm as [K N I Z E0 EK EV].
  unfold hG, hF. destruct (Rle_dec iL i).
  - destruct (Rle_dec vL (kl * (i - i0))); [field; lra|]. exfalso. nra.
  - assert (Hl : k * rpow i nn < vL).
    { rewrite EV. apply Rmult_lt_compat_l; auto. apply rpow_lt; lra. }
    destruct (Rle_dec vL (k * rpow i nn)); [lra|].
    replace (k * rpow i nn / k) with (rpow i nn) by (field; lra). apply rpow_rpow; lra.
Qed.
Lemma hG_pos v : 0 < v -> 0 < hG v.
Proof.
  intros Hv. unfold hG. pose proof kl_pos as Hkl. destruct i0_lt as (H1 & _). destruct Hm as [K N I Z E0 EK EV].
  destruct (Rle_dec vL v).
  - assert (0 < v / kl) by (apply Rdiv_lt_0_compat; auto). lra.
  - apply rpow_pos. apply Rdiv_lt_0_compat; auto.
Qed.
Lemma hF_hG v : 0 < v -> hF (hG v) = v.
Proof.
  intros Hv. pose proof kl_pos as Hkl. pose proof kl_eq as E. assert (Hg := hG_pos v Hv). destruct Hm as [K N I Z E0 EK EV].
  unfold hF, hG in *. destruct (Rle_dec vL v).
  - destruct (Rle_dec iL (v / kl + i0)); [field; lra|]. exfalso. apply n.
    apply Rmult_le_reg_l with kl; auto. replace (kl * (v / kl + i0)) with (v + kl * i0) by (field; lra). lra.
  - assert (Hq : 0 < v / k) by (apply Rdiv_lt_0_compat; auto).
    assert (Hr : rpow (rpow (v / k) (1 / nn)) nn = v / k) by (apply rpow_rpow'; lra).
    destruct (Rle_dec iL (rpow (v / k) (1 / nn))) as [H|H].
    + exfalso. apply n. rewrite EV. replace v with (k * (v / k)) by (field; lra).
      apply Rmult_le_compat_l; [lra|]. rewrite <- Hr.
      destruct I as [I|I].
      * destruct H as [H|H]; [left; apply rpow_lt; lra|rewrite H; lra].
      * rewrite <- I. rewrite rpow_0 by lra. left. apply rpow_pos. auto.
    + rewrite Hr. field. lra.
Qed.
Lemma hi_hv i : hi (hv i) = i.
Proof.
  assert (P : forall x, 0 < x -> hi (hv x) = x).
  { intros x Hx. rewrite hv_pos by auto. rewrite hi_pos by (apply hF_pos; auto). apply hG_hF; auto. }
  destruct (Rlt_dec 0 i); [auto|]. destruct (Req_EM_T i 0) as [->|Hi]; [rewrite hv_0; apply hi_0|].
  replace i with (- - i) by ring. rewrite hv_odd, hi_odd. rewrite P by lra. auto.
Qed.
Lemma hv_hi v : hv (hi v) = v.
Proof.
  assert (P : forall x, 0 < x -> hv (hi x) = x).
  { intros x Hx. rewrite hi_pos by auto. rewrite hv_pos by (apply hG_pos; auto). apply hF_hG; auto. }
  destruct (Rlt_dec 0 v); [auto|]. destruct (Req_EM_T v 0) as [->|Hi]; [rewrite hi_0; apply hv_0|].
  replace v with (- - v) by ring. rewrite hi_odd, hv_odd. rewrite P by lra. auto.
Qed.
(** Hansbo's law itself *)
Lemma hF_law i : 0 <= i -> (i <= iL -> (if Rlt_dec 0 i then hF i else 0) = k * rpow i nn) /\
  (iL <= i -> (if Rlt_dec 0 i then hF i else 0) = k * rpow iL nn + k * nn * rpow iL (nn - 1) * (i - iL)).
Proof.
  intros Hi. pose proof kl_eq as E. assert (Hm' := Hm). destruct Hm' as [K N I Z E0 EK EV]. split; intros H.
  - destruct (Rlt_dec 0 i) as [Hp|Hp].
    + unfold hF. destruct (Rle_dec iL i); auto. assert (i = iL) by lra. subst i. rewrite E, EV. auto.
    + replace i with 0 by lra. rewrite rpow_0 by lra. ring.
  - destruct (Rlt_dec 0 i) as [Hp|Hp].
    + unfold hF. destruct (Rle_dec iL i); [|lra]. rewrite <- EV, <- E, <- EK. ring.
    + assert (i = 0) by lra. assert (Ez : iL = 0) by lra. rewrite Ez in *. subst i. rewrite rpow_0 by lra. ring.
Qed.
Lemma hv_law i : hansbo_law k nn iL i (hv i).
Proof.
  assert (Hm' := Hm). destruct Hm' as [K N I Z E0 EK EV]. unfold hansbo_law, hv.
  destruct (Rle_dec 0 i) as [Hi|Hi].
  - destruct (hF_law i Hi) as (L1 & L2). destruct (Rlt_dec i 0); [lra|].
    split; [intros; apply L1; lra|]. split; [intros; apply L2; lra|]. split; intros H.
    + assert (Ez : i = 0) by lra. rewrite Ez in *. rewrite Ropp_0, rpow_0 by lra. destruct (Rlt_dec 0 0); lra.
    + assert (Ez : i = 0) by lra. assert (Ez' : iL = 0) by lra. rewrite Ez, Ez' in *. rewrite rpow_0 by lra. destruct (Rlt_dec 0 0); lra.
  - apply Rnot_le_lt in Hi. destruct (hF_law (- i) ltac:(lra)) as (L1 & L2).
    destruct (Rlt_dec 0 i); [lra|]. destruct (Rlt_dec i 0); [|lra].
    destruct (Rlt_dec 0 (- i)) as [_|]; [|lra].
    split; [intros; lra|]. split; [intros; lra|]. split; intros H.
    + rewrite <- L1 by lra. auto.
    + rewrite <- L2 by lra. auto.
Qed.
(** derivative *)
Lemma is_derive_glue (f g1 g2 : R -> R) x d : is_derive g1 x d -> is_derive g2 x d -> f x = g1 x -> f x = g2 x ->
  locally x (fun y => f y = g1 y \/ f y = g2 y) -> is_derive f x d.
Proof.
  intros D1 D2 E1 E2 (dl & L). apply is_derive_Reals. apply is_derive_Reals in D1. apply is_derive_Reals in D2.
  intros eps Heps. destruct (D1 eps Heps) as (d1 & H1). destruct (D2 eps Heps) as (d2 & H2).
  assert (Hd : 0 < Rmin dl (Rmin d1 d2)) by (repeat apply Rmin_pos; apply cond_pos).
  exists (mkposreal _ Hd). intros h Hh Hhd. cbn in Hhd.
  pose proof (Rmin_l dl (Rmin d1 d2)). pose proof (Rmin_r dl (Rmin d1 d2)). pose proof (Rmin_l d1 d2). pose proof (Rmin_r d1 d2).
  destruct (L (x + h)) as [E|E].
  - unfold ball; cbn; unfold AbsRing_ball, abs, minus, plus, opp; cbn. replace (x + h + - x) with h by ring. lra.
  - rewrite E, E1. apply H1; auto. lra.
  - rewrite E, E2. apply H2; auto. lra.
Qed.
Lemma rpow_derive c x : 0 < x -> is_derive (fun y => c * rpow y nn) x (c * nn * rpow x (nn - 1)).
Proof.
  intros Hx. apply (is_derive_ext_loc (fun y => c * exp (nn * ln y))).
  - generalize (near_gt x 0 Hx). apply filter_imp. intros y Hy. rewrite rpow_pos_eq by auto. auto.
  - auto_derive; auto. rewrite <- rpow_pos_eq by auto. rewrite (rpow_step x nn) by auto. field. lra.
Qed.
Definition hd (i : R) : R := if Rle_dec iL i then kl else k * nn * rpow i (nn - 1).
Lemma hF_derive i : 0 < i -> is_derive hF i (hd i).
Proof.
  intros Hi. pose proof kl_eq as E. assert (Hm' := Hm). destruct Hm' as [K N I Z E0 EK EV].
  assert (Lin : forall x, is_derive (fun y => kl * (y - i0)) x kl).
  { intros x. auto_derive; auto. ring. }
  unfold hd. destruct (Rle_dec iL i) as [[H|H]|H].
  - apply (is_derive_ext_loc (fun y => kl * (y - i0))); [|apply Lin].
    generalize (near_gt i iL H). apply filter_imp. intros y Hy. unfold hF. destruct (Rle_dec iL y); lra.
  - apply (is_derive_glue hF (fun y => kl * (y - i0)) (fun y => k * rpow y nn)).
    + apply Lin.
    + rewrite EK, H. apply rpow_derive; auto.
    + unfold hF. destruct (Rle_dec iL i); lra.
    + unfold hF. destruct (Rle_dec iL i); [|lra]. rewrite <- H, E, EV. auto.
    + exists (mkposreal 1 Rlt_0_1). intros y _. unfold hF. destruct (Rle_dec iL y); auto.
  - apply Rnot_le_lt in H. apply (is_derive_ext_loc (fun y => k * rpow y nn)); [|apply rpow_derive; auto].
    generalize (near_lt i iL H). apply filter_imp. intros y Hy. unfold hF. destruct (Rle_dec iL y); lra.
Qed.
Lemma hv_derive_pos i : 0 < i -> is_derive hv i (hd i).
Proof.
  intros Hi. apply (is_derive_ext_loc hF); [|apply hF_derive; auto].
  generalize (near_gt i 0 Hi). apply filter_imp. intros y Hy. symmetry. apply hv_pos; auto.
Qed.
Lemma hv_derive_neg i : i < 0 -> is_derive hv i (hd (- i)).
Proof.
  intros Hi. apply (is_derive_ext (fun y => - hv (- y))).
  - intros y. rewrite hv_odd. apply Ropp_involutive.
  - assert (D := hv_derive_pos (- i) ltac:(lra)).
    assert (C : is_derive (fun y : R => - y) i (-1)) by (auto_derive; auto; ring).
    pose proof (is_derive_comp hv (fun y => - y) i _ _ D C) as G.
    apply (is_derive_opp (K := R_AbsRing) (V := R_NormedModule)) in G.
    replace (hd (- i)) with (opp (scal (-1) (hd (- i)))); [exact G|].
    change (- (-1 * hd (- i)) = hd (- i)). ring.
Qed.
Lemma darcy_case : nn = 1 -> forall i, hv i = k * i.
Proof.
  intros Hn i. assert (Hm' := Hm). destruct Hm' as [K N I Z E0 EK EV].
  assert (Ei : i0 = 0) by (rewrite E0, Hn; unfold Rdiv; ring). assert (Ek : kl = k) by (rewrite EK, Hn, Rminus_eq_0, rpow_x0; ring).
  assert (P : forall x, 0 < x -> hF x = k * x).
  { intros x Hx. unfold hF. rewrite Ei, Ek, Hn. destruct (Rle_dec iL x); [ring|]. rewrite rpow_x1 by lra. auto. }
  unfold hv. destruct (Rlt_dec 0 i); [auto|]. destruct (Rlt_dec i 0); [rewrite P by lra; ring|]. replace i with 0 by lra. ring.
Qed.
Lemma hv_derive_0 : is_derive hv 0 (if Req_EM_T nn 1 then k else 0).
Proof.
  assert (Hm' := Hm). destruct Hm' as [K N I Z E0 EK EV]. destruct (Req_EM_T nn 1) as [Hn|Hn].
  - apply (is_derive_ext (fun x => k * x)); [intros; rewrite darcy_case; auto|]. auto_derive; auto. ring.
  - assert (HiL : 0 < iL). { destruct I as [I|I]; auto. exfalso. apply Hn, Z. auto. }
    assert (Hn1 : 0 < nn - 1) by lra.
    apply is_derive_Reals. intros eps Heps.
    set (dd := rpow (eps / k) (1 / (nn - 1))).
    assert (Hq : 0 < eps / k) by (apply Rdiv_lt_0_compat; auto).
    assert (Hdd : 0 < dd) by (apply rpow_pos; auto).
    assert (Hp : 0 < Rmin iL dd) by (apply Rmin_pos; auto).
    exists (mkposreal _ Hp). intros h Hh Hhd. cbn in Hhd.
    pose proof (Rmin_l iL dd). pose proof (Rmin_r iL dd).
    rewrite Rplus_0_l, hv_0, !Rminus_0_r.
    assert (A : Rabs (hv h / h) = k * rpow (Rabs h) (nn - 1)).
    { assert (P : forall x, 0 < x < iL -> hv x / x = k * rpow x (nn - 1)).
      { intros x Hx. rewrite hv_pos by lra. unfold hF. destruct (Rle_dec iL x); [lra|]. rewrite (rpow_step x nn) by lra. field. lra. }
      destruct (Rlt_dec 0 h).
      - rewrite (Rabs_pos_eq h) in * by lra. rewrite P by lra. apply Rabs_pos_eq. apply Rmult_le_pos; [lra|]. left. apply rpow_pos; auto.
      - rewrite (Rabs_left h) in * by lra. replace h with (- - h) at 1 2 by ring. rewrite hv_odd.
        replace (- hv (- h) / - - h) with (hv (- h) / - h) by (field; lra). rewrite P by lra.
        apply Rabs_pos_eq. apply Rmult_le_pos; [lra|]. left. apply rpow_pos; lra. }
    rewrite A.
    assert (rpow (Rabs h) (nn - 1) < eps / k).
    { replace (eps / k) with (rpow dd (nn - 1)) by (unfold dd; apply rpow_rpow'; lra).
      apply rpow_lt; auto. split; [apply Rabs_pos_lt; auto|lra]. }
    replace eps with (k * (eps / k)) by (field; lra). apply Rmult_lt_compat_l; auto.
Qed.
Lemma hv_derivable i : ex_derive hv i.
Proof.
  destruct (Rlt_dec 0 i); [eexists; apply hv_derive_pos; auto|]. destruct (Rlt_dec i 0); [eexists; apply hv_derive_neg; auto|].
  replace i with 0 by lra. eexists. apply hv_derive_0.
Qed.
Lemma hd_pos i : 0 < i -> 0 < hd i.
Proof.
  intros Hi. unfold hd. pose proof kl_pos. destruct Hm as [K N I Z E0 EK EV]. destruct (Rle_dec iL i); auto.
  apply Rmult_lt_0_compat; [nra|apply rpow_pos; auto].
Qed.
Lemma dv_di_ok i : hansbo_dv_di m i = Ok (hd (Rabs i) * signR i).
Proof.
  unfold hansbo_dv_di, hd. destruct Hm as [K N I Z E0 EK EV]. cbv zeta. unfold Rleb. destruct (Rle_dec iL (Rabs i)).
  - cbn [bind]. f_equal. ring.
  - rewrite power_ok by (try apply Rabs_pos; lra). cbn [bind]. f_equal. ring.
Qed.
End Law.
