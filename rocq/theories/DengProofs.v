From Coq Require Import Reals List Bool Arith Lia Lra.
From Coquelicot Require Import Coquelicot.
From Verif Require Import Base SmearModel SpecSmear SmearProofs SmearProofs2 SmearProofs6 SmearProofs7 PropsSmear TerzaghiModel TerzaghiProofs TerzaghiProofs2 DengModel SpecDeng.
Import ListNotations.
Local Open Scope R_scope.

(** ** The two forms of the decay *)
Section Decay.
Variables (ch re A3 ui mu0 r : R).
Hypothesis Hch : 0 < ch.
Hypothesis Hre : 0 < re.
Hypothesis Hmu : 0 < mu0.
Let Th t := ch * t / 4 / re^2.
Let a3 := A3 * 4 * re^2 / ch.
Lemma a3_Th t : a3 * Th t = A3 * t.
Proof using Hch Hre. unfold a3, Th. field. lra. Qed.
Lemma decay_const : 0 <= r -> decays ch re ui (fun t => mu0 + r) (fun t => ui * exp (-8 * Th t / (mu0 + r))).
Proof using Hch Hre Hmu.
  intros Hr. split.
  - unfold Th. replace (-8 * (ch * 0 / 4 / re^2) / (mu0 + r)) with 0 by (field; lra). rewrite exp_0. ring.
  - intros t. unfold Th. auto_derive; auto. cbn [pow]. unfold Rdiv. tz_gen. field. lra.
Qed.
Lemma decay_pow : 0 < A3 -> 0 < r -> let alp := mu0 / r in
  (forall t, 0 < (1 + alp * exp (- a3 * Th t)) / (1 + alp)) /\
  decays ch re ui (fun t => mu0 + r * exp (A3 * t)) (fun t => ui * Rpower ((1 + alp * exp (- a3 * Th t)) / (1 + alp)) (8 / (a3 * mu0))).
Proof using Hch Hre Hmu.
  intros HA Hr alp. assert (Ha : 0 < alp) by (apply Rdiv_lt_0_compat; auto).
  assert (Ha3 : 0 < a3) by (unfold a3; apply Rdiv_lt_0_compat; auto; apply Rmult_lt_0_compat; [lra|apply pow_lt; auto]).
  assert (P : forall t, 0 < (1 + alp * exp (- (A3 * t))) / (1 + alp)).
  { intros t. pose proof (exp_pos (- (A3 * t))). apply Rdiv_lt_0_compat; [|lra]. pose proof (Rmult_lt_0_compat _ _ Ha H). lra. }
  assert (EX : forall t, - a3 * Th t = - (A3 * t)) by (intros t; rewrite <- (a3_Th t); ring).
  split; [intros t; rewrite EX; apply P|]. split.
  - rewrite EX, Rmult_0_r, Ropp_0, exp_0, Rmult_1_r. unfold Rdiv at 1. rewrite Rinv_r by lra. unfold Rpower. rewrite ln_1, Rmult_0_r, exp_0. ring.
  - intros t. apply (is_derive_ext (fun t => ui * exp (8 / (a3 * mu0) * ln ((1 + alp * exp (- (A3 * t))) / (1 + alp))))).
    + intros s. rewrite EX. reflexivity.
    + unfold Rpower. rewrite EX. set (y := exp (8 / (a3 * mu0) * ln ((1 + alp * exp (- (A3 * t))) / (1 + alp)))).
      auto_derive; [apply P|]. unfold y, Rdiv. repeat match goal with |- context [exp (8 * ?q * ln ?l)] => generalize (exp (8 * q * ln l)); intro end.
      replace (exp (A3 * t)) with (/ exp (- (A3 * t))) by (rewrite exp_Ropp, Rinv_inv; auto). pose proof (exp_pos (- (A3 * t))) as Q. set (x := exp (- (A3 * t))) in *.
      unfold alp, a3. field. repeat split; try lra.
      assert (0 < mu0 * x) by (apply Rmult_lt_0_compat; auto). lra.
Qed.
End Decay.

(** ** The resistance of the drain *)
Section Resist.
Variables (kh H rw kw0 A1 A2 : R).
Hypothesis Hkh : 0 < kh.
Hypothesis HH : 0 < H.
Hypothesis Hrw : 0 < rw.
Hypothesis Hkw : 0 < kw0.
Hypothesis HA1 : 0 < A1.
Hypothesis HA2 : 0 <= A2 <= A1.
Let qw0 := kw0 * PI * rw^2.
Definition resist (z : R) : R :=
  if Req_EM_T A2 0 then PI * kh / (qw0 * A1) * (2 * H * z - z^2)
  else (A2 * z / H + (A1 - A2) * ln (1 - A2 / A1 * z / H)) * (2 * PI * kh * H^2 / (qw0 * A2^2)).
Lemma qw0_pos : 0 < qw0.
Proof using Hrw Hkw. unfold qw0. pose proof PI_RGT_0. apply Rmult_lt_0_compat; [apply Rmult_lt_0_compat; auto|apply pow_lt; auto]. Qed.
Lemma left_pos z : 0 <= z <= H -> (A2 = A1 -> z < H) -> 0 < A1 - A2 * z / H.
Proof using HH HA1 HA2.
  intros Hz Hl. assert (Q : 0 <= z / H <= 1) by (split; [apply Rdiv_le_0_compat; lra|apply (Rmult_le_reg_r H); auto; unfold Rdiv; rewrite Rmult_assoc, Rinv_l by lra; lra]).
  unfold Rdiv. rewrite Rmult_assoc. change (z * / H) with (z / H).
  destruct (Req_dec A2 A1) as [E|N].
  - assert (z / H < 1). { apply (Rmult_lt_reg_r H); auto. unfold Rdiv. rewrite Rmult_assoc, Rinv_l by lra. pose proof (Hl E). lra. } rewrite E. nra.
  - assert (A2 < A1) by (destruct HA2 as [_ [L|L]]; [auto|contradiction]). nra.
Qed.
Lemma log_pos z : 0 <= z <= H -> (A2 = A1 -> z < H) -> 0 < 1 - A2 / A1 * z / H.
Proof using HH HA1 HA2. intros Hz Hl. pose proof (left_pos z Hz Hl). replace (1 - A2 / A1 * z / H) with ((A1 - A2 * z / H) / A1) by (field; lra). apply Rdiv_lt_0_compat; auto. Qed.
Lemma between z s : 0 <= z <= H -> (A2 = A1 -> z < H) -> 0 <= s <= z -> 0 <= s <= H /\ (A2 = A1 -> s < H).
Proof using. clear HA2. intros Hz Hl Hs. split; [lra|]. intros E. pose proof (Hl E). lra. Qed.
Lemma resist_int z : 0 <= z <= H -> (A2 = A1 -> z < H) -> is_RInt (fun s => 2 * PI * kh * (H - s) / (qw0 * (A1 - A2 * s / H))) 0 z (resist z).
Proof using Hrw Hkw HH HA1 HA2.
  intros Hz Hl. pose proof qw0_pos as Q.
  assert (R0 : resist 0 = 0).
  { unfold resist. destruct (Req_EM_T A2 0); [ring|]. replace (A2 / A1 * 0 / H) with 0 by (field; lra). rewrite Rminus_0_r, ln_1. field. repeat split; lra. }
  replace (resist z) with (minus (resist z) (resist 0)) by (rewrite R0; unfold minus, plus, opp; cbn; ring).
  apply (is_RInt_derive resist).
  - rewrite Rmin_left, Rmax_right by lra. intros s Hs. destruct (between z s Hz Hl Hs) as [B1 B2]. pose proof (left_pos s B1 B2) as P. pose proof (log_pos s B1 B2) as P2.
    unfold resist. destruct (Req_EM_T A2 0) as [E|N].
    + rewrite E. auto_derive; auto. field. repeat split; lra.
    + auto_derive; [repeat split; auto; exact P2|]. field. repeat split; try lra; auto.
      intros X. assert (A1 * H - A2 * s = H * (A1 - A2 * s / H)) by (field; lra). assert (0 < H * (A1 - A2 * s / H)) by (apply Rmult_lt_0_compat; auto). lra.
  - rewrite Rmin_left, Rmax_right by lra. intros s Hs. destruct (between z s Hz Hl Hs) as [B1 B2]. pose proof (left_pos s B1 B2) as P.
    apply (ex_derive_continuous (V := R_NormedModule) (fun s => 2 * PI * kh * (H - s) / (qw0 * (A1 - A2 * s / H)))). auto_derive.
    intros X. apply Rmult_integral in X. destruct X as [X|X]; unfold Rdiv in *; lra.
Qed.
Lemma resist_pos z : 0 < z <= H -> (A2 = A1 -> z < H) -> 0 < resist z.
Proof using Hkh Hrw Hkw HH HA1 HA2.
  intros Hz Hl. pose proof qw0_pos as Q. pose proof (resist_int z ltac:(lra) Hl) as I.
  rewrite <- (is_RInt_unique (V := R_CompleteNormedModule) _ _ _ _ I). pose proof PI_RGT_0.
  apply RInt_gt_0; [lra| |].
  - intros s Hs. destruct (between z s ltac:(lra) Hl ltac:(lra)) as [B1 B2]. pose proof (left_pos s B1 B2) as P.
    apply Rdiv_lt_0_compat; apply Rmult_lt_0_compat; auto; try lra. apply Rmult_lt_0_compat; lra.
  - intros s Hs. destruct (between z s ltac:(lra) Hl ltac:(lra)) as [B1 B2]. pose proof (left_pos s B1 B2) as P.
    apply (ex_derive_continuous (V := R_NormedModule) (fun s => 2 * PI * kh * (H - s) / (qw0 * (A1 - A2 * s / H)))). auto_derive.
    intros X. apply Rmult_integral in X. destruct X as [X|X]; unfold Rdiv in *; lra.
Qed.
Lemma resist_0 : resist 0 = 0.
Proof using Hrw Hkw HH HA1 HA2.
  pose proof qw0_pos as Q. unfold resist. destruct (Req_EM_T A2 0); [ring|]. replace (A2 / A1 * 0 / H) with 0 by (field; lra). rewrite Rminus_0_r, ln_1. field. repeat split; lra.
Qed.
End Resist.
