(** * Approximation of linear profiles by waves (shanetal2012.py) *)
From Coq Require Import Reals List Arith ZArith Bool Lia Lra.
From Coquelicot Require Import Coquelicot.
From Verif Require Import Base SpecLu SpecShan LuModel TerzaghiModel TerzaghiProofs TerzaghiProofs2 LuProofs LuProofs2 TangProofs.
Import ListNotations.
Open Scope R_scope.

Section Waves.
Variable L : unsat_layer.
Hypothesis HH : 0 < ul_H L.
Hypothesis Hdrn : (ul_drn L = 0 \/ ul_drn L = 1)%Z.
Notation H := (ul_H L).
Variable n : nat.
(** the wave numbers without the depth *)
Definition mu (k : nat) : R := if Z.eqb (ul_drn L) 0 then (INR k + 1) * PI else (INR k + 1/2) * PI.
Lemma mu_pos k : 0 < mu k.
Proof. unfold mu. pose proof PI_RGT_0. pose proof (pos_INR k). destruct (Z.eqb _ _); apply Rmult_lt_0_compat; lra. Qed.
Lemma wn_eq k : wave_number L k = mu k / H. Proof. reflexivity. Qed.
Lemma sin_nPI k : sin (INR k * PI) = 0.
Proof. apply sin_eq_0_1. exists (Z.of_nat k). rewrite <- INR_IZR_INZ. auto. Qed.
Lemma mu_sum j k : sin (mu j + mu k) = 0.
Proof.
  unfold mu. destruct (Z.eqb _ _).
  - replace ((INR j + 1) * PI + (INR k + 1) * PI) with (INR (j + k + 2) * PI) by (rewrite !plus_INR; cbn; ring). apply sin_nPI.
  - replace ((INR j + 1/2) * PI + (INR k + 1/2) * PI) with (INR (j + k + 1) * PI) by (rewrite !plus_INR; cbn; field). apply sin_nPI.
Qed.
Lemma mu_diff j k : sin (mu j - mu k) = 0.
Proof.
  assert (X : mu j - mu k = (INR j - INR k) * PI) by (unfold mu; destruct (Z.eqb _ _); ring). rewrite X.
  apply sin_eq_0_1. exists (Z.of_nat j - Z.of_nat k)%Z. rewrite minus_IZR, <- !INR_IZR_INZ. auto.
Qed.
Lemma mu_inj j k : mu j = mu k -> j = k.
Proof. unfold mu. pose proof PI_RGT_0. intros E. apply INR_eq. destruct (Z.eqb _ _); apply Rmult_eq_reg_r in E; lra. Qed.
(** the coefficient of the linear profile *)
Definition cf (a b : R) (k : nat) : R := 2 * (a / mu k - b * cos (mu k) / mu k + (b - a) * sin (mu k) / (mu k)^2).
Lemma profile_wave a b k : is_RInt (fun z => linear_with_depth H a b z * wave L k z) 0 H (H / 2 * cf a b k).
Proof.
  pose proof (mu_pos k) as Mp. unfold wave. rewrite wn_eq.
  pose (F := fun z => - (a + (b - a) * (z / H)) * (H / mu k) * cos (mu k / H * z) + (b - a) * H / (mu k)^2 * sin (mu k / H * z)).
  apply (rint_val _ _ _ (minus (F H) (F 0))).
  - apply (is_RInt_derive F (fun z => linear_with_depth H a b z * sin (mu k / H * z))).
    + intros z _. unfold F, linear_with_depth. auto_derive; [split; lra|]. cbn [pow]. unfold Rdiv. field. lra.
    + intros z _. apply (ex_derive_continuous (V := R_NormedModule)). unfold linear_with_depth. auto_derive. split; lra.
  - unfold minus, plus, opp, F, cf; cbn. replace (mu k / H * H) with (mu k) by (field; lra). rewrite Rmult_0_r, sin_0, cos_0. match goal with |- ?u = ?v => change (@eq R u v) end. field. lra.
Qed.
Lemma wave_wave j k : is_RInt (fun z => wave L j z * wave L k z) 0 H (if Nat.eq_dec j k then H / 2 else 0).
Proof.
  pose proof (mu_pos j) as Mj. pose proof (mu_pos k) as Mk'. unfold wave. rewrite !wn_eq. destruct (Nat.eq_dec j k) as [<-|Ne].
  - pose (F := fun z => z / 2 - H / (4 * mu j) * sin (2 * (mu j / H * z))).
    apply (rint_val _ _ _ (minus (F H) (F 0))).
    + apply (is_RInt_derive F (fun z => sin (mu j / H * z) * sin (mu j / H * z))).
      * intros z _. unfold F. auto_derive; [auto|]. rewrite cos_2a_sin. field. split; lra.
      * intros z _. apply (ex_derive_continuous (V := R_NormedModule)). auto_derive. auto.
    + unfold minus, plus, opp, F; cbn. replace (2 * (mu j / H * H)) with (mu j + mu j) by (field; lra). rewrite mu_sum. replace (2 * (mu j / H * 0)) with 0 by ring. rewrite sin_0. match goal with |- ?u = ?v => change (@eq R u v) end. field. lra.
  - assert (D : mu j - mu k <> 0) by (intros e; apply Ne, mu_inj; lra).
    pose (F := fun z => H / (2 * (mu j - mu k)) * sin ((mu j - mu k) / H * z) - H / (2 * (mu j + mu k)) * sin ((mu j + mu k) / H * z)).
    apply (rint_val _ _ _ (minus (F H) (F 0))).
    + apply (is_RInt_derive F (fun z => sin (mu j / H * z) * sin (mu k / H * z))).
      * intros z _. unfold F. auto_derive; [auto|]. replace ((mu j - mu k) / H * z) with (mu j / H * z - mu k / H * z) by (field; lra). replace ((mu j + mu k) / H * z) with (mu j / H * z + mu k / H * z) by (field; lra). rewrite cos_plus, cos_minus. field. repeat split; lra.
      * intros z _. apply (ex_derive_continuous (V := R_NormedModule)). auto_derive. auto.
    + unfold minus, plus, opp, F; cbn. replace ((mu j - mu k) / H * H) with (mu j - mu k) by (field; lra). replace ((mu j + mu k) / H * H) with (mu j + mu k) by (field; lra). rewrite mu_sum, mu_diff, !Rmult_0_r, sin_0. match goal with |- ?u = ?v => change (@eq R u v) end. ring.
Qed.
(** the approximation *)
Definition pp (a b z : R) : R := ssum (fun k => cf a b k * wave L k z) n.
Lemma pp_waves a b z : pp a b z = fold_right Rplus 0 (map (fun k => cf a b k * wave L k z) (seq 0 n)).
Proof. unfold pp. rewrite <- sumn_ssum. induction (seq 0 n) as [|k l IH]; [reflexivity|]. cbn [map fold_right sumn nadd NumR]. rewrite IH. reflexivity. Qed.
Lemma pp_wave a b k : (k < n)%nat -> is_RInt (fun z => pp a b z * wave L k z) 0 H (H / 2 * cf a b k).
Proof.
  intros Hk. apply (is_RInt_ext (fun z => ssum (fun j => cf a b j * (wave L j z * wave L k z)) n)).
  - intros z _. unfold pp. rewrite Rmult_comm, <- ssum_scal. apply ssum_ext. intros j _. ring.
  - apply (rint_val _ _ _ (ssum (fun j => cf a b j * (if Nat.eq_dec j k then H / 2 else 0)) n)).
    + apply (ssum_RInt (fun j z => cf a b j * (wave L j z * wave L k z))). intros j _. apply (is_RInt_scal (V := R_NormedModule) (fun z => wave L j z * wave L k z)). apply wave_wave.
    + rewrite <- (ssum_delta (fun j => H / 2 * cf a b j) k n Hk). apply ssum_ext. intros j _. destruct (Nat.eq_dec j k), (Nat.eq_dec k j); subst; try lia; ring.
Qed.
Lemma pp_orth a b k : (k < n)%nat -> is_RInt (fun z => (pp a b z - linear_with_depth H a b z) * wave L k z) 0 H 0.
Proof.
  intros Hk. apply (is_RInt_ext (fun z => minus (pp a b z * wave L k z) (linear_with_depth H a b z * wave L k z))).
  - intros z _. unfold minus, plus, opp; cbn. match goal with |- ?u = ?v => change (@eq R u v) end. ring.
  - apply (rint_val _ _ _ (minus (H / 2 * cf a b k) (H / 2 * cf a b k))); [|unfold minus, plus, opp; cbn; ring].
    apply (is_RInt_minus (V := R_NormedModule)); [apply pp_wave; auto|apply profile_wave].
Qed.
Lemma pp_pp a b : is_RInt (fun z => pp a b z * pp a b z) 0 H (H / 2 * ssum (fun k => (cf a b k)^2) n).
Proof.
  apply (is_RInt_ext (fun z => ssum (fun k => cf a b k * (pp a b z * wave L k z)) n)).
  - intros z _. transitivity (pp a b z * ssum (fun k => cf a b k * wave L k z) n); [|reflexivity]. rewrite <- ssum_scal. apply ssum_ext. intros j _. ring.
  - apply (rint_val _ _ _ (ssum (fun k => cf a b k * (H / 2 * cf a b k)) n)).
    + apply (ssum_RInt (fun k z => cf a b k * (pp a b z * wave L k z))). intros k Hk. apply (is_RInt_scal (V := R_NormedModule) (fun z => pp a b z * wave L k z)). apply pp_wave; auto.
    + rewrite <- ssum_scal. apply ssum_ext. intros; ring.
Qed.
Lemma pp_lin a b : is_RInt (fun z => pp a b z * linear_with_depth H a b z) 0 H (H / 2 * ssum (fun k => (cf a b k)^2) n).
Proof.
  apply (is_RInt_ext (fun z => ssum (fun k => cf a b k * (linear_with_depth H a b z * wave L k z)) n)).
  - intros z _. unfold pp. rewrite (Rmult_comm (ssum _ _)), <- ssum_scal. apply ssum_ext. intros j _. ring.
  - apply (rint_val _ _ _ (ssum (fun k => cf a b k * (H / 2 * cf a b k)) n)).
    + apply (ssum_RInt (fun k z => cf a b k * (linear_with_depth H a b z * wave L k z))). intros k Hk. apply (is_RInt_scal (V := R_NormedModule) (fun z => linear_with_depth H a b z * wave L k z)). apply profile_wave.
    + rewrite <- ssum_scal. apply ssum_ext. intros; ring.
Qed.
Lemma misfit_sq a b : is_RInt (fun z => (pp a b z - linear_with_depth H a b z)^2) 0 H (H * (a^2 + a * b + b^2) / 3 - H / 2 * ssum (fun k => (cf a b k)^2) n).
Proof.
  set (s := ssum _ n).
  apply (is_RInt_ext (fun z => plus (minus (pp a b z * pp a b z) (scal 2 (pp a b z * linear_with_depth H a b z))) ((linear_with_depth H a b z)^2))).
  - intros z _. unfold minus, plus, opp, scal, mult; cbn. unfold mult; cbn. match goal with |- ?u = ?v => change (@eq R u v) end. ring.
  - apply (rint_val _ _ _ (plus (minus (H / 2 * s) (scal 2 (H / 2 * s))) (H * (a^2 + a * b + b^2) / 3))).
    + apply (is_RInt_plus (V := R_NormedModule)); [apply (is_RInt_minus (V := R_NormedModule)); [apply pp_pp|apply (is_RInt_scal (V := R_NormedModule)); apply pp_lin]|].
      pose (F := fun z => a^2 * z + a * (b - a) * z^2 / H + (b - a)^2 * z^3 / (3 * H^2)).
      apply (rint_val _ _ _ (minus (F H) (F 0))).
      * apply (is_RInt_derive F (fun z => (linear_with_depth H a b z)^2)).
        { intros z _. unfold F, linear_with_depth. auto_derive; [auto|]. field. lra. }
        { intros z _. apply (ex_derive_continuous (V := R_NormedModule)). unfold linear_with_depth. auto_derive. auto. }
      * unfold minus, plus, opp, F; cbn. match goal with |- ?u = ?v => change (@eq R u v) end. field. lra.
    + unfold minus, plus, opp, scal, mult; cbn. unfold mult; cbn. match goal with |- ?u = ?v => change (@eq R u v) end. field.
Qed.
(** drained at both ends *)
Lemma cos_mu0 k : ul_drn L = 0%Z -> (cos (mu k))^2 = 1 /\ sin (mu k) = 0.
Proof.
  intros E. unfold mu. rewrite E. cbn [Z.eqb]. pose proof (sin_nPI (S k)) as Z. rewrite S_INR in Z. split; auto.
  pose proof (sin2_cos2 ((INR k + 1) * PI)) as Q. unfold Rsqr in Q. rewrite Z in Q. cbn [pow]. lra.
Qed.
Lemma base_sum a b : ul_drn L = 0%Z -> (a = 0 \/ b = 0) -> H / 2 * ssum (fun k => (cf a b k)^2) n = 2 * H * (a^2 + b^2) / PI^2 * ssum (fun k => / (INR k + 1)^2) n.
Proof.
  intros E O. rewrite <- !ssum_scal. apply ssum_ext. intros k _. destruct (cos_mu0 k E) as [C S]. unfold cf. rewrite S.
  assert (Mp := mu_pos k). assert (M : mu k = (INR k + 1) * PI) by (unfold mu; rewrite E; reflexivity).
  replace ((2 * (a / mu k - b * cos (mu k) / mu k + (b - a) * 0 / mu k ^ 2)) ^ 2) with (4 * (a^2 - 2 * (a * b) * cos (mu k) + b^2 * (cos (mu k))^2) / (mu k)^2) by (field; lra).
  rewrite C. replace (a * b) with 0 by (destruct O as [-> | ->]; ring). rewrite M. pose proof PI_RGT_0. pose proof (pos_INR k). field. lra.
Qed.
Lemma small0_base a b : ul_drn L = 0%Z -> (a = 0 \/ b = 0) -> (1 <= n)%nat ->
  H * (a^2 + a * b + b^2) / 3 - H / 2 * ssum (fun k => (cf a b k)^2) n <= 4 * H * (a^2 + b^2) / (PI^2 * INR n).
Proof.
  intros E O Hn. rewrite base_sum by auto. destruct n as [|m]; [lia|]. pose proof (proj2 (basel_error m)) as B. pose proof PI_RGT_0 as Pp. pose proof (pos_INR m) as Pm. rewrite S_INR.
  set (s := ssum _ (S m)) in *.
  replace (H * (a ^ 2 + a * b + b ^ 2) / 3 - 2 * H * (a ^ 2 + b ^ 2) / PI ^ 2 * s) with (2 * H * (a^2 + b^2) / PI^2 * (PI^2 / 6 - s)) by (destruct O as [-> | ->]; field; lra).
  replace (4 * H * (a ^ 2 + b ^ 2) / (PI ^ 2 * (INR m + 1))) with (2 * H * (a^2 + b^2) / PI^2 * (2 / (INR m + 1))) by (field; lra).
  apply Rmult_le_compat_l.
  - apply Rmult_le_pos; [|left; apply Rinv_0_lt_compat, pow_lt; auto]. pose proof (pow2_ge_0 a). pose proof (pow2_ge_0 b). apply Rmult_le_pos; lra.
  - eapply Rle_trans; [exact B|]. apply Rmult_le_compat_l; [lra|]. apply Rinv_le_contravar; lra.
Qed.
Lemma small0 a b : ul_drn L = 0%Z -> (1 <= n)%nat -> exists e, is_RInt (fun z => (pp a b z - linear_with_depth H a b z)^2) 0 H e /\ e <= 12 * H * (a^2 + b^2) / (PI^2 * INR n).
Proof.
  intros E Hn. eexists. split; [apply misfit_sq|]. set (e := _ - _).
  assert (I := misfit_sq a b : is_RInt _ 0 H e).
  assert (Sp : forall z, pp a b z - linear_with_depth H a b z = (pp a 0 z - linear_with_depth H a 0 z) + (pp 0 b z - linear_with_depth H 0 b z)).
  { intros z. unfold linear_with_depth. replace (pp a b z) with (pp a 0 z + pp 0 b z); [ring|]. unfold pp. rewrite <- ssum_plus. apply ssum_ext. intros k _. unfold cf, Rdiv. ring. }
  pose proof (misfit_sq a 0) as Ia. pose proof (misfit_sq 0 b) as Ib.
  pose proof (small0_base a 0 E ltac:(auto) Hn) as Sa. pose proof (small0_base 0 b E ltac:(auto) Hn) as Sb.
  set (ea := _ - _) in Ia, Sa. set (eb := _ - _) in Ib, Sb.
  assert (I2 : is_RInt (fun z => plus (scal 2 ((pp a 0 z - linear_with_depth H a 0 z)^2)) (scal 2 ((pp 0 b z - linear_with_depth H 0 b z)^2))) 0 H (plus (scal 2 ea) (scal 2 eb)))
    by (apply (is_RInt_plus (V := R_NormedModule)); apply (is_RInt_scal (V := R_NormedModule)); auto).
  assert (X : e <= 2 * ea + 2 * eb).
  { assert (Le0 : 0 <= H) by lra. apply (is_RInt_le _ _ 0 H _ _ Le0 I I2).
    intros z _. rewrite Sp. unfold plus, scal; cbn. unfold mult; cbn. set (x := pp a 0 z - _). set (y := pp 0 b z - _). pose proof (Rle_0_sqr (x - y)) as Q. unfold Rsqr in Q. nra. }
  assert (Pi0 := PI_RGT_0). assert (Pn0 : 0 < INR n) by (apply lt_0_INR; lia). assert (0 < PI^2 * INR n) as Pn by (apply Rmult_lt_0_compat; [apply pow_lt, PI_RGT_0|apply lt_0_INR; lia]).
  eapply Rle_trans; [exact X|]. replace (12 * H * (a^2 + b^2) / (PI^2 * INR n)) with (2 * (4 * H * (a^2 + 0^2) / (PI^2 * INR n)) + 2 * (4 * H * (0^2 + b^2) / (PI^2 * INR n)) + 4 * H * (a^2 + b^2) / (PI^2 * INR n)) by (field; lra).
  assert (0 <= 4 * H * (a^2 + b^2) / (PI^2 * INR n)). { apply Rmult_le_pos; [|left; apply Rinv_0_lt_compat; auto]. pose proof (pow2_ge_0 a). pose proof (pow2_ge_0 b). apply Rmult_le_pos; lra. }
  lra.
Qed.
(** closed below *)
Lemma mu1 k : ul_drn L = 1%Z -> mu k = Mk k.
Proof. intros E. unfold mu, Mk. rewrite E. cbn [Z.eqb]. field. Qed.
Lemma small1 a b : ul_drn L = 1%Z -> (1 <= n)%nat -> exists e, is_RInt (fun z => (pp a b z - linear_with_depth H a b z)^2) 0 H e /\ e <= 12 * H * (a^2 + b^2) / (PI^2 * INR n).
Proof.
  intros E Hn. destruct (start_misfit H HH n a b (fun _ => 0) Hn) as (e & I & Le). exists e. split.
  - apply (is_RInt_ext (fun z => (ser H (fun _ => 0) n (start_coef a b) z 0 - linear_with_depth H a b z)^2)); [|exact I].
    intros z _. f_equal. f_equal. unfold ser, pp. apply ssum_ext. intros k _. unfold start_coef, cf, wave. rewrite wn_eq, (mu1 k E), cos_Mk, <- sin_Mk. rewrite Rmult_0_r, exp_0. replace (Mk k * z / H) with (Mk k / H * z) by (field; lra). pose proof (Mk_pos k). field. lra.
  - eapply Rle_trans; [exact Le|]. assert (Pi0 := PI_RGT_0). assert (Pn0 : 0 < INR n) by (apply lt_0_INR; lia). assert (0 < PI^2 * INR n) as Pn by (apply Rmult_lt_0_compat; [apply pow_lt, PI_RGT_0|apply lt_0_INR; lia]).
    replace (12 * H * (a^2 + b^2) / (PI^2 * INR n)) with (H * (4 / (PI^2 * INR n)) * (3 * (a^2 + b^2))) by (field; lra).
    apply Rmult_le_compat_l; [apply Rmult_le_pos; [lra|]; apply Rmult_le_pos; [lra|left; apply Rinv_0_lt_compat; auto]|]. pose proof (pow2_ge_0 (a + b)). nra.
Qed.
Theorem pp_approximates a b : approximates L n a b (pp a b).
Proof.
  constructor.
  - exists (cf a b). intros z. apply pp_waves.
  - apply pp_orth.
  - intros Hn. destruct Hdrn; [apply small0|apply small1]; auto.
Qed.
End Waves.
