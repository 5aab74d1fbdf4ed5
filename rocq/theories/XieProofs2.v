From Coq Require Import Reals List Arith Lia Lra.
From Coquelicot Require Import Coquelicot.
From Verif Require Import Base TerzaghiModel SpecTerzaghi TerzaghiProofs TerzaghiProofs2 PropsTerzaghi XieModel SpecXie XieProofs.
Import ListNotations.
Local Open Scope R_scope.

Lemma sum_xM X f : np_sum (map f (x_M X)) = ssum (fun k => f (Mk k)) (x_nterms X).
Proof.
  rewrite <- (np_sum_M f). unfold x_M, tz_M. f_equal. rewrite !map_map. apply map_ext. intros k. f_equal. field.
Qed.

(** ** Sums that decay *)
Lemma lim_exp_decay c d : 0 < d -> is_lim (fun t => c * exp (- (d * t))) p_infty 0.
Proof.
  intros Hd. replace (Finite 0) with (Rbar_mult c 0) by (cbn; f_equal; ring).
  apply is_lim_scal_l. apply (is_lim_comp exp (fun t => - (d * t)) p_infty 0 m_infty).
  - apply is_lim_exp_m.
  - replace m_infty with (Rbar_opp p_infty) by auto. apply is_lim_opp.
    replace p_infty with (Rbar_mult d p_infty) at 2. + apply is_lim_scal_l, is_lim_id.
    + cbn. destruct (Rle_dec 0 d); [|lra]. destruct (Rle_lt_or_eq_dec 0 d r); [auto|lra].
  - exists 0. intros y _. discriminate.
Qed.
Lemma lim_ssum (f : nat -> R -> R) n : (forall k, is_lim (f k) p_infty 0) -> is_lim (fun t => ssum (fun k => f k t) n) p_infty 0.
Proof.
  intros Hf. induction n as [|n IH]; cbn [ssum]; [apply is_lim_const|].
  replace (Finite 0) with (Rbar_plus 0 0) by (cbn; f_equal; ring). apply is_lim_plus'; auto.
Qed.

(** ** The layer: h is the length of the drainage path, k = 0 (sealed base) or 1 (drained base) *)
Section Layer.
Variables (H h kv0 mvl gamw qu k : R) (n : nat).
Hypothesis HH : 0 < H.
Hypothesis Hh : 0 < h.
Hypothesis Hk : 0 < kv0.
Hypothesis Hm : 0 < mvl.
Hypothesis Hg : 0 < gamw.
Hypothesis Hq : 0 <= qu.
Hypothesis Hend : forall j, k + cos (Mk j * (H / h)) = 0.
Let E := exp (- mvl * qu).
Let cv := kv0 / (mvl * gamw).
Let dT := tz_dTv h kv0 mvl gamw.
Definition wW : R -> R -> R := tz_u h kv0 mvl gamw 1 n.
Definition wWa : R -> R -> R := tz_uz h kv0 mvl gamw 1 n.
Lemma dT_pos : 0 < dT.
Proof using Hh Hk Hm Hg. unfold dT, tz_dTv. repeat apply Rdiv_lt_0_compat; auto. apply pow_lt; auto. Qed.
Lemma wW_lim a : is_lim (wW a) p_infty 0.
Proof using Hh Hk Hm Hg.
  unfold wW, tz_u. replace (Finite 0) with (Rbar_mult 1 0) by (cbn; f_equal; ring). apply (is_lim_scal_l (fun t => ssum _ n)).
  apply (lim_ssum (fun j t => 2 / Mk j * sin (Mk j * (a / h)) * exp (- Mk j ^ 2 * (dT * t)))). intros j.
  apply (is_lim_ext (fun t => 2 / Mk j * sin (Mk j * (a / h)) * exp (- (Mk j ^ 2 * dT * t)))).
  - intros t. f_equal. f_equal. ring.
  - apply lim_exp_decay. apply Rmult_lt_0_compat; [apply pow_lt, Mk_pos|apply dT_pos].
Qed.
Definition wS (a t : R) : R := (1 - E) * (H - a - h * ssum (fun j => 2 / Mk j ^ 2 * (k + cos (Mk j * (a / h))) * exp (- Mk j ^ 2 * (dT * t))) n).
Lemma wS_base t : wS H t = 0.
Proof using Hend. unfold wS. rewrite ssum_0'; [ring|]. intros j _. rewrite Hend. ring. Qed.
Lemma wS_da a t : is_derive (fun b => wS b t) a (- ((1 - E) * (1 - wW a t))).
Proof using Hh.
  unfold wS, wW, tz_u. fold dT.
  evar_last. { apply (is_derive_scal (fun b => H - b - h * ssum (fun j => 2 / Mk j ^ 2 * (k + cos (Mk j * (b / h))) * exp (- Mk j ^ 2 * (dT * t))) n)).
    apply (is_derive_minus (V := R_NormedModule) (fun b => H - b) (fun b => h * ssum (fun j => 2 / Mk j ^ 2 * (k + cos (Mk j * (b / h))) * exp (- Mk j ^ 2 * (dT * t))) n)).
    - instantiate (1 := -1). auto_derive; auto. 
    - apply (is_derive_scal (fun b => ssum (fun j => 2 / Mk j ^ 2 * (k + cos (Mk j * (b / h))) * exp (- Mk j ^ 2 * (dT * t))) n)).
      apply (ssum_derive (fun j b => 2 / Mk j ^ 2 * (k + cos (Mk j * (b / h))) * exp (- Mk j ^ 2 * (dT * t))) (fun j b => - / h * (2 / Mk j * sin (Mk j * (b / h)) * exp (- Mk j ^ 2 * (dT * t))))).
      intros j _. pose proof (Mk_pos j). auto_derive; auto. cbn [pow]. unfold Rdiv. tz_gen. field. lra. }
  rewrite ssum_scal. unfold minus, plus, opp; cbn. field. lra.
Qed.
Lemma wS_dt a t : is_derive (fun s => wS a s) t (cv * (1 - E) * (wWa a t - wWa H t)).
Proof using Hh Hm Hg Hend.
  unfold wS, wWa, tz_uz. fold dT.
  evar_last. { apply (is_derive_scal (fun s => H - a - h * ssum (fun j => 2 / Mk j ^ 2 * (k + cos (Mk j * (a / h))) * exp (- Mk j ^ 2 * (dT * s))) n)).
    apply (is_derive_minus (V := R_NormedModule) (fun s => H - a) (fun s => h * ssum (fun j => 2 / Mk j ^ 2 * (k + cos (Mk j * (a / h))) * exp (- Mk j ^ 2 * (dT * s))) n)); [apply is_derive_const|].
    apply (is_derive_scal (fun s => ssum (fun j => 2 / Mk j ^ 2 * (k + cos (Mk j * (a / h))) * exp (- Mk j ^ 2 * (dT * s))) n)).
    apply (ssum_derive (fun j s => 2 / Mk j ^ 2 * (k + cos (Mk j * (a / h))) * exp (- Mk j ^ 2 * (dT * s)))
       (fun j s => - (cv / h) * (2 / h * cos (Mk j * (a / h)) * exp (- Mk j ^ 2 * (dT * s)) - 2 / h * cos (Mk j * (H / h)) * exp (- Mk j ^ 2 * (dT * s))))).
    intros j _. pose proof (Mk_pos j). replace (cos (Mk j * (H / h))) with (- k) by (pose proof (Hend j); lra).
    auto_derive; auto. cbn [pow]. unfold Rdiv. tz_gen. unfold dT, tz_dTv, cv. field. repeat split; lra. }
  rewrite ssum_scal, ssum_minus. unfold minus, plus, opp, zero; cbn. field. lra.
Qed.
Lemma wS_lim a : is_lim (wS a) p_infty ((1 - E) * (H - a)).
Proof using Hh Hk Hm Hg.
  unfold wS. replace (Finite ((1 - E) * (H - a))) with (Rbar_mult (1 - E) (H - a)) by (cbn; f_equal; ring).
  apply (is_lim_scal_l (fun t => H - a - _)). replace (Finite (H - a)) with (Rbar_minus (H - a) 0) by (cbn; f_equal; ring).
  apply (is_lim_minus' (fun _ => H - a)); [apply is_lim_const|].
  replace (Finite 0) with (Rbar_mult h 0) by (cbn; f_equal; ring). apply (is_lim_scal_l (fun t => ssum _ n)).
  apply (lim_ssum (fun j t => 2 / Mk j ^ 2 * (k + cos (Mk j * (a / h))) * exp (- Mk j ^ 2 * (dT * t)))). intros j.
  apply (is_lim_ext (fun t => 2 / Mk j ^ 2 * (k + cos (Mk j * (a / h))) * exp (- (Mk j ^ 2 * dT * t)))).
  - intros t. f_equal. f_equal. ring.
  - apply lim_exp_decay. apply Rmult_lt_0_compat; [apply pow_lt, Mk_pos|apply dT_pos].
Qed.
End Layer.
