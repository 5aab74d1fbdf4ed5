(** * C171: the drain spacing found for a required eta *)
From Coq Require Import Reals List Bool Arith Ascii String Lra Lia.
From Coquelicot Require Import Coquelicot.
From Verif Require Import Base SmearModel SmearBackModel.
Import ListNotations.
Local Open Scope list_scope.
Local Open Scope R_scope.

(** fsolve found a root of what it was given *)
Definition finds_root (fsolve : (R -> result (option R)) -> R -> result R) : Prop := forall f x0 x, fsolve f x0 = Ok x -> f x = Ok (Some 0).
(** eta of drains at a spacing, from its definition 2 / (re^2 (mu + muw)) *)
Definition gives_eta (f : mu_kind) (pattern : string) (rw : R) (s kap : list R) (muw sp eta : R) : Prop :=
  exists re mu, re_from_drain_spacing [sp] pattern = Ok [re] /\ mu_value f (re / rw) s kap = Ok (Some mu) /\ eta * (re ^ 2 * (mu + muw)) = 2.

(** *** mu grows with n *)
Definition num (c a b x : R) : R := x * (ln x / 2 + c - 3 / 4) + a + b / x.
Lemma mono_le (f df : R -> R) (x y : R) : (forall t, x <= t <= y -> is_derive f t (df t)) -> (forall t, x <= t <= y -> 0 <= df t) -> x <= y -> f x <= f y.
Proof.
  intros D P Hxy. destruct (MVT_gen f x y df) as (c & Hc & E).
  - intros t Ht. rewrite Rmin_left, Rmax_right in Ht by lra. apply D. lra.
  - intros t Ht. rewrite Rmin_left, Rmax_right in Ht by lra. apply continuity_pt_filterlim. apply (ex_derive_continuous (V := R_NormedModule)). exists (df t). apply D. lra.
  - rewrite Rmin_left, Rmax_right in Hc by lra. assert (0 <= df c) by (apply P; lra). assert (0 <= df c * (y - x)) by (apply Rmult_le_pos; lra). lra.
Qed.
Lemma mono_strict (f df : R -> R) (x y : R) : (forall t, x <= t <= y -> is_derive f t (df t)) -> (forall t, x <= t <= y -> 0 <= df t) -> (forall t, x < t <= y -> 0 < df t) -> x < y -> f x < f y.
Proof.
  intros D P Q Hxy. set (m := (x + y) / 2). assert (Hm : x < m < y) by (unfold m; lra). apply Rle_lt_trans with (f m).
  - apply (mono_le f df); [intros; apply D; lra|intros; apply P; lra|lra].
  - destruct (MVT_gen f m y df) as (c & Hc & E).
    + intros t Ht. rewrite Rmin_left, Rmax_right in Ht by lra. apply D. lra.
    + intros t Ht. rewrite Rmin_left, Rmax_right in Ht by lra. apply continuity_pt_filterlim. apply (ex_derive_continuous (V := R_NormedModule)). exists (df t). apply D. lra.
    + rewrite Rmin_left, Rmax_right in Hc by lra. assert (0 < df c) by (apply Q; lra). assert (0 < df c * (y - m)) by (apply Rmult_lt_0_compat; lra). lra.
Qed.
Section Grow.
Variables s kap : R.
Hypothesis Hs : 1 <= s.
Hypothesis Hk : 0 < kap.
Let c := (kap - 1) * ln s.
Let a := s ^ 2 + kap * (1 - s ^ 2).
Let b := (kap * (s ^ 4 - 1) - s ^ 4) / 4.
Definition hh (x : R) : R := x / 2 - ln x / 2 - c + 1 / 4 - a - 2 * b / x + b / x ^ 2.
Lemma ks_pos : 0 <= s ^ 2 / 2 - ln s - 3 / 4 + / s ^ 2 / 2 - / s ^ 4 / 4.
Proof using Hs.
  set (f := fun t => t ^ 2 / 2 - ln t - 3 / 4 + / t ^ 2 / 2 - / t ^ 4 / 4). assert (F1 : f 1 = 0) by (unfold f; rewrite ln_1; field). change (0 <= f s). rewrite <- F1.
  apply (mono_le f (fun t => (t - / t) * (1 - / t ^ 4))); auto.
  - intros t Ht. unfold f. assert (t ^ 2 <> 0) by (apply pow_nonzero; lra). assert (t ^ 4 <> 0) by (apply pow_nonzero; lra). auto_derive; [repeat (match goal with |- _ /\ _ => split end); auto; lra|]. field. lra.
  - intros t Ht. apply Rmult_le_pos.
    + assert (/ t <= 1) by (rewrite <- Rinv_1; apply Rinv_le_contravar; lra). lra.
    + assert (1 <= t ^ 4) by (apply pow_R1_Rle; lra). assert (/ t ^ 4 <= 1) by (rewrite <- Rinv_1; apply Rinv_le_contravar; lra). lra.
Qed.
Lemma b_low x : s ^ 2 <= x -> - (1 / 2) <= 2 * b / x ^ 2 /\ (s ^ 2 < x -> - (1 / 2) < 2 * b / x ^ 2).
Proof using Hs Hk.
  intros Hx. assert (S2 : 1 <= s ^ 2) by (apply pow_R1_Rle; lra). assert (S4 : 1 <= s ^ 4) by (apply pow_R1_Rle; lra). assert (X2 : 0 < x ^ 2) by (apply pow_lt; lra).
  assert (B : - (s ^ 4 / 4) <= b) by (unfold b; nra). assert (E : s ^ 4 = s ^ 2 * s ^ 2) by ring.
  assert (X : x ^ 2 = x * x) by ring. split; [|intros Hlt].
  - apply Rmult_le_reg_r with (x ^ 2); auto. replace (2 * b / x ^ 2 * x ^ 2) with (2 * b) by (field; lra). nra.
  - apply Rmult_lt_reg_r with (x ^ 2); auto. replace (2 * b / x ^ 2 * x ^ 2) with (2 * b) by (field; lra). nra.
Qed.
Lemma hh_start : 0 <= hh (s ^ 2).
Proof using Hs Hk.
  assert (S2 : 0 < s ^ 2) by (apply pow_lt; lra). unfold hh, c, a, b. replace (ln (s ^ 2)) with (2 * ln s) by (rewrite <- Rsqr_pow2; unfold Rsqr; rewrite ln_mult by lra; ring).
  match goal with |- 0 <= ?e => replace e with (kap * (s ^ 2 / 2 - ln s - 3 / 4 + / s ^ 2 / 2 - / s ^ 4 / 4)) by (field; lra) end. apply Rmult_le_pos; [lra|apply ks_pos].
Qed.
Lemma hh_derive x : 1 <= x -> is_derive hh x ((1 - / x) * (1 / 2 + 2 * b / x ^ 2)).
Proof using.
  intros Hx. unfold hh. auto_derive; [repeat (match goal with |- _ /\ _ => split end); try apply Rmult_integral_contrapositive_currified; auto; lra|]. field. lra.
Qed.
Lemma hh_pos x : s ^ 2 < x -> 0 < hh x.
Proof using Hs Hk.
  intros Hx. assert (S2 : 1 <= s ^ 2) by (apply pow_R1_Rle; lra). apply Rle_lt_trans with (hh (s ^ 2)); [apply hh_start|].
  apply (mono_strict hh (fun t => (1 - / t) * (1 / 2 + 2 * b / t ^ 2))); auto.
  - intros t Ht. apply hh_derive. lra.
  - intros t Ht. destruct (b_low t ltac:(lra)) as [B _]. apply Rmult_le_pos; [|lra]. assert (/ t <= 1) by (rewrite <- Rinv_1; apply Rinv_le_contravar; lra). lra.
  - intros t Ht. destruct (b_low t ltac:(lra)) as [_ B]. specialize (B ltac:(lra)). apply Rmult_lt_0_compat; [|lra]. assert (/ t < 1) by (rewrite <- Rinv_1; apply Rinv_lt_contravar; lra). lra.
Qed.
Definition mux (x : R) : R := num c a b x / (x - 1).
Lemma mux_grows x y : 1 < x -> s ^ 2 <= x -> x < y -> mux x < mux y.
Proof using Hs Hk.
  intros H1 H2 H3. apply (mono_strict mux (fun t => hh t / (t - 1) ^ 2)); auto.
  - intros t Ht. unfold mux, num, hh. auto_derive; [repeat (match goal with |- _ /\ _ => split end); auto; lra|]. field. lra.
  - intros t Ht. assert (0 < (t - 1) ^ 2) by (apply pow_lt; lra). assert (0 <= hh t) by (destruct (Rle_lt_or_eq_dec (s ^ 2) t) as [L| <-]; [lra|apply Rlt_le, hh_pos; auto|apply hh_start]). apply Rmult_le_pos; auto. apply Rlt_le, Rinv_0_lt_compat; auto.
  - intros t Ht. apply Rdiv_lt_0_compat; [apply hh_pos; lra|apply pow_lt; lra].
Qed.
Lemma mu_constant_mux n : 1 < n -> mu_constant_elem n s kap = mux (n ^ 2).
Proof using Hs.
  intros Hn. unfold mu_constant_elem, mux, num, c, a, b. rewrite ln_div by lra. replace (ln (n ^ 2)) with (2 * ln n) by (rewrite <- Rsqr_pow2; unfold Rsqr; rewrite ln_mult by lra; ring).
  assert (1 < n ^ 2) by nra. field. lra.
Qed.
(** mu_constant grows with n *)
Lemma mu_constant_grows n m : 1 < n -> s <= n -> n < m -> mu_constant_elem n s kap < mu_constant_elem m s kap.
Proof using Hs Hk. intros H1 H2 H3. rewrite !mu_constant_mux by lra. apply mux_grows; nra. Qed.
End Grow.
Lemma mu_ideal_is_constant n : mu_ideal_elem n = mu_constant_elem n 1 1.
Proof. unfold mu_ideal_elem, mu_constant_elem. cbn zeta. rewrite ln_1. unfold Rdiv. rewrite Rinv_1, Rmult_1_r. ring. Qed.
Lemma mu_ideal_grows n m : 1 < n -> n < m -> mu_ideal_elem n < mu_ideal_elem m.
Proof. intros. rewrite !mu_ideal_is_constant. apply mu_constant_grows; lra. Qed.
Lemma mu_ideal_pos n : 1 < n -> 0 < mu_ideal_elem n.
Proof.
  intros Hn. rewrite mu_ideal_is_constant, mu_constant_mux by lra. unfold mux. assert (HX : 1 < n ^ 2) by nra. apply Rdiv_lt_0_compat; [|lra]. generalize dependent (n ^ 2). clear. intros x Hx. rewrite ln_1.
  set (d := fun t => ln t / 2 - 1 / 4 + / t ^ 2 / 4).
  assert (D : forall t, 1 < t -> 0 < d t).
  { intros t Ht. replace 0 with (d 1) by (unfold d; rewrite ln_1; field). apply (mono_strict d (fun t => / t / 2 * (1 - / t ^ 2))); auto.
    - intros u Hu. unfold d. assert (u ^ 2 <> 0) by (apply pow_nonzero; lra). auto_derive; [repeat (match goal with |- _ /\ _ => split end); auto; lra|]. field. lra.
    - intros u Hu. apply Rmult_le_pos; [apply Rlt_le, Rdiv_lt_0_compat; [apply Rinv_0_lt_compat; lra|lra]|]. assert (1 <= u ^ 2) by (apply pow_R1_Rle; lra). assert (/ u ^ 2 <= 1) by (rewrite <- Rinv_1; apply Rinv_le_contravar; lra). lra.
    - intros u Hu. apply Rmult_lt_0_compat; [apply Rdiv_lt_0_compat; [apply Rinv_0_lt_compat; lra|lra]|]. assert (1 < u ^ 2) by nra. assert (/ u ^ 2 < 1) by (rewrite <- Rinv_1; apply Rinv_lt_contravar; lra). lra. }
  set (g := num ((1 - 1) * 0) (1 ^ 2 + 1 * (1 - 1 ^ 2)) ((1 * (1 ^ 4 - 1) - 1 ^ 4) / 4)). replace 0 with (g 1) by (unfold g, num; rewrite ln_1; field).
  apply (mono_strict g d); auto.
  - intros t Ht. unfold g, num, d. auto_derive; [repeat (match goal with |- _ /\ _ => split end); auto; lra|]. field. lra.
  - intros t Ht. destruct (Rle_lt_or_eq_dec 1 t) as [L| <-]; [lra|apply Rlt_le, D; auto|]. unfold d. rewrite ln_1. lra.
  - intros t Ht. apply D. lra.
Qed.

(** *** *)
Lemma radius_ok sp pattern re : radius sp pattern = Ok re -> re_from_drain_spacing [sp] pattern = Ok [re] /\ 0 < sp /\ exists c, 0 < c /\ re = c * sp /\ forall sp', 0 < sp' -> re_from_drain_spacing [sp'] pattern = Ok [c * sp'].
Proof.
  unfold radius, the_one, re_from_drain_spacing, any. cbn [existsb map]. destruct (Rleb sp 0) eqn:E; cbn [orb bind]; [discriminate|]. apply Rleb_false in E.
  destruct pattern as [|ch t]; [discriminate|]. assert (P15 : 0 < 10 ^ 15) by (apply pow_lt; lra). assert (P16 : 0 < 10 ^ 16) by (apply pow_lt; lra).
  destruct (Ascii.eqb (upper ch) "T"%char); [|destruct (Ascii.eqb (upper ch) "S"%char); [|discriminate]]; cbn [bind]; intros H; assert (H' : forall a b : R, Ok a = Ok b -> a = b) by (intros; congruence); apply H' in H; subst re; (split; [reflexivity|]; split; [lra|]);
    eexists; (split; [|split; [reflexivity|]]).
  - apply Rdiv_lt_0_compat; lra.
  - intros sp' Hp. rewrite (proj2 (Rleb_false sp' 0)) by lra. reflexivity.
  - apply Rdiv_lt_0_compat; lra.
  - intros sp' Hp. rewrite (proj2 (Rleb_false sp' 0)) by lra. reflexivity.
Qed.
Lemma radius_of sp pattern re : re_from_drain_spacing [sp] pattern = Ok [re] -> radius sp pattern = Ok re.
Proof. intros H. unfold radius. rewrite H. reflexivity. Qed.
(** what is returned, when fsolve has found a root *)
Theorem C171_spacing : forall fsolve eta pattern f rw s kap muw sp re n, finds_root fsolve -> eta <> 0 ->
  back_calc fsolve eta pattern f rw s kap muw = Ok (sp, re, n) ->
  0 < sp /\ re_from_drain_spacing [sp] pattern = Ok [re] /\ n = re / rw /\ gives_eta f pattern rw s kap muw sp eta /\
  (f <> Ideal -> f <> Overlapping -> exists sm, np_max s = Ok sm /\ sm <= n).
Proof.
  intros fsolve eta pattern f rw s kap muw sp re n HF He H. unfold back_calc in H. destruct (_ && _)%bool; [discriminate|]. destruct (np_max s) as [sm|] eqn:EM; [|discriminate]. cbn [bind] in H. cbn zeta in H.
  destruct (calc_eta eta rw s kap f pattern muw _) as [?|]; [|discriminate]. cbn [bind] in H. destruct (fsolve _ _) as [sp'|] eqn:EF; [|discriminate]. cbn [bind] in H. destruct (radius sp' pattern) as [re'|] eqn:ER; [|discriminate]. cbn [bind] in H.
  destruct (too_near f (re' / rw) sm) eqn:TN; [discriminate|]. assert (Hx : forall a b : R * R * R, Ok a = Ok b -> a = b) by (intros; congruence). apply Hx in H. assert (sp = sp' /\ re = re' /\ n = re' / rw) as (-> & -> & ->) by (injection H; auto). clear H Hx.
  destruct (radius_ok _ _ _ ER) as (E1 & E2 & c & Hc & E3 & _). split; auto. split; auto. split; auto.
  assert (Hre : 0 < re') by (rewrite E3; apply Rmult_lt_0_compat; auto).
  split.
  - apply HF in EF. unfold calc_eta in EF. rewrite ER in EF. cbn [bind] in EF. rewrite EM in EF. cbn [bind] in EF. rewrite TN in EF. destruct (mu_value f (re' / rw) s kap) as [[mu|]|] eqn:EV; try discriminate. cbn [bind drain_eta] in EF.
    exists re', mu. split; auto. split; auto. assert (Z : 2 / re' ^ 2 / (mu + muw) - eta = 0) by congruence.
    assert (NZ : mu + muw <> 0). { intros Q. rewrite Q in Z. unfold Rdiv in Z at 1. rewrite Rinv_0 in Z. lra. }
    replace eta with (2 / re' ^ 2 / (mu + muw)) by lra. field. split; lra.
  - intros N1 N2. exists sm. split; auto. destruct f; try contradiction; cbn [too_near] in TN; apply Rltb_false in TN; lra.
Qed.
(** without smear, or with smear of constant permeability, it is the only spacing with this eta *)
Theorem C171_only : forall f pattern rw s kap muw sp1 sp2 eta, f = Ideal \/ f = Constant -> 0 < rw -> 0 < eta ->
  gives_eta f pattern rw s kap muw sp1 eta -> gives_eta f pattern rw s kap muw sp2 eta -> sp1 = sp2.
Proof.
  assert (K : forall f pattern rw s kap muw sp1 sp2 eta, f = Ideal \/ f = Constant -> 0 < rw -> 0 < eta ->
    gives_eta f pattern rw s kap muw sp1 eta -> gives_eta f pattern rw s kap muw sp2 eta -> sp1 < sp2 -> False).
  { intros f pattern rw s kap muw sp1 sp2 eta Hf Hrw He (re1 & m1 & A1 & B1 & C1) (re2 & m2 & A2 & B2 & C2) L.
    apply radius_of in A1, A2. destruct (radius_ok _ _ _ A1) as (_ & P1 & c & Hc & -> & HH). destruct (radius_ok _ _ _ A2) as (A2' & P2 & _). rewrite (HH sp2 P2) in A2'. assert (re2 = c * sp2) by congruence. subst re2. clear HH A2 A2'.
    assert (L' : c * sp1 < c * sp2) by (apply Rmult_lt_compat_l; auto). assert (R1 : 0 < c * sp1) by (apply Rmult_lt_0_compat; auto). set (r1 := c * sp1) in *. set (r2 := c * sp2) in *.
    assert (N : r1 / rw < r2 / rw) by (apply Rmult_lt_compat_r; [apply Rinv_0_lt_compat; auto|auto]).
    assert (M : m1 < m2).
    { destruct Hf as [-> | ->]; unfold mu_value in B1, B2; destruct s as [|s0 [|? ?]]; try discriminate; destruct kap as [|k0 [|? ?]]; try discriminate.
      - unfold mu_ideal, any in B1, B2. cbn [existsb] in B1, B2. destruct (Rleb (r1 / rw) 1) eqn:E1; [discriminate|]. destruct (Rleb (r2 / rw) 1) eqn:E2; [discriminate|]. cbn in B1, B2. apply Rleb_false in E1.
        replace m1 with (mu_ideal_elem (r1 / rw)) by congruence. replace m2 with (mu_ideal_elem (r2 / rw)) by congruence. apply mu_ideal_grows; lra.
      - unfold mu_constant in B1, B2. destruct (Rleb (r1 / rw) 1) eqn:E1; [discriminate|]. destruct (Rltb s0 1) eqn:E2; [discriminate|]. destruct (Rleb k0 0) eqn:E3; [discriminate|]. destruct (Rltb (r1 / rw) s0) eqn:E4; [discriminate|].
        destruct (Rleb (r2 / rw) 1); [discriminate|]. destruct (Rltb (r2 / rw) s0); [discriminate|]. cbn [some bind] in B1, B2. apply Rleb_false in E1, E3. apply Rltb_false in E2, E4.
        replace m1 with (mu_constant_elem (r1 / rw) s0 k0) by congruence. replace m2 with (mu_constant_elem (r2 / rw) s0 k0) by congruence. apply mu_constant_grows; lra. }
    assert (Q1 : 0 < r1 ^ 2) by (apply pow_lt; auto). assert (Q2 : r1 ^ 2 < r2 ^ 2) by nra.
    assert (T : r1 ^ 2 * (m1 + muw) = r2 ^ 2 * (m2 + muw)) by (apply (Rmult_eq_reg_l eta); lra).
    assert (P : 0 < r1 ^ 2 * (m1 + muw)) by (apply (Rmult_lt_reg_l eta); lra). assert (P' : 0 < m1 + muw) by (apply (Rmult_lt_reg_l (r1 ^ 2)); lra).
    assert (r1 ^ 2 * (m1 + muw) < r2 ^ 2 * (m1 + muw)) by (apply Rmult_lt_compat_r; auto). assert (r2 ^ 2 * (m1 + muw) < r2 ^ 2 * (m2 + muw)) by (apply Rmult_lt_compat_l; lra). lra. }
  intros f pattern rw s kap muw sp1 sp2 eta Hf Hrw He G1 G2. destruct (Rtotal_order sp1 sp2) as [L|[E|L]]; auto; exfalso; [exact (K f pattern rw s kap muw sp1 sp2 eta Hf Hrw He G1 G2 L)|exact (K f pattern rw s kap muw sp2 sp1 eta Hf Hrw He G2 G1 L)].
Qed.
(** the first guess is beyond the smear zone, whatever the pattern *)
Theorem C171_first_guess : forall pattern rw sm re, 0 < rw -> 0 < sm -> radius (rw * sm / (1 / 2) * 2) pattern = Ok re -> 2 * sm < re / rw.
Proof.
  intros pattern rw sm re Hrw Hsm H. unfold radius, the_one, re_from_drain_spacing, any in H. cbn [existsb map] in H. destruct (Rleb _ 0); [discriminate|]. cbn [orb] in H. destruct pattern as [|ch t]; [discriminate|]. cbn [bind] in H.
  assert (E : forall k, k * (rw * sm / (1 / 2) * 2) / rw = 4 * k * sm) by (intros k; field; lra).
  assert (P15 : (10:R) ^ 15 = 1000000000000000) by (cbn; lra). assert (P16 : (10:R) ^ 16 = 10000000000000000) by (cbn; lra).
  assert (HX : forall a b : R, Ok a = Ok b -> a = b) by (intros; congruence).
  destruct (Ascii.eqb (upper ch) "T"%char); [|destruct (Ascii.eqb (upper ch) "S"%char); [|discriminate]]; cbn [bind] in H; apply HX in H; subst re; rewrite E, ?P15, ?P16; nra.
Qed.
(** several values of s or kap are refused but for the piecewise functions; so are an unknown pattern and, at once, spacings without a drain radius *)
Theorem C171_refused : forall fsolve eta pattern f rw s kap muw,
  (piecewise f = false -> (1 < List.length s)%nat \/ (1 < List.length kap)%nat -> back_calc fsolve eta pattern f rw s kap muw = Err ValueError) /\
  (forall sm, np_max s = Ok sm -> rw * sm <= 0 -> exists e, back_calc fsolve eta pattern f rw s kap muw = Err e) /\
  (s = [] -> exists e, back_calc fsolve eta pattern f rw s kap muw = Err e).
Proof.
  intros. unfold back_calc. split; [|split].
  - intros -> H. cbn [negb andb]. replace ((1 <? List.length s)%nat || (1 <? List.length kap)%nat)%bool with true; auto. symmetry. apply Bool.orb_true_iff. rewrite !Nat.ltb_lt. auto.
  - intros sm EM Hle. destruct (_ && _)%bool; eauto. rewrite EM. cbn [bind]. cbn zeta. unfold calc_eta at 1, radius at 1, the_one at 1, re_from_drain_spacing at 1, any. cbn [existsb].
    rewrite (proj2 (Rleb_true (rw * sm / (1 / 2) * 2) 0)) by lra. cbn [orb bind]. eauto.
  - intros ->. destruct (_ && _)%bool; eauto. cbn. eauto.
Qed.
(** fsolve's failure goes unnoticed: no spacing has a negative eta, yet a spacing is returned when fsolve gives its starting point back *)
Theorem C171_unreachable_refuted : exists fsolve sp re n, back_calc fsolve (-1) "Square" Ideal 1 [1] [1] 0 = Ok (sp, re, n) /\ forall sp', ~ gives_eta Ideal "Square" 1 [1] [1] 0 sp' (-1).
Proof.
  exists (fun _ x0 => Ok x0). unfold back_calc. cbn [piecewise negb List.length Nat.ltb Nat.leb orb andb np_max fold_left bind]. cbn zeta.
  assert (RA : radius (1 * 1 / (1 / 2) * 2) "Square" = Ok (5641895835477563 / 10 ^ 16 * (1 * 1 / (1 / 2) * 2))).
  { unfold radius, re_from_drain_spacing, any. cbn [existsb]. rewrite (proj2 (Rleb_false (1 * 1 / (1 / 2) * 2) 0)) by lra. reflexivity. }
  assert (P16 : (10:R) ^ 16 = 10000000000000000) by (cbn; lra).
  eexists. eexists. eexists. split.
  - unfold calc_eta. rewrite RA. cbn [bind np_max fold_left too_near]. unfold mu_value, mu_ideal, any. cbn [existsb]. rewrite (proj2 (Rleb_false _ 1)) by (rewrite P16; lra). cbn [orb map the_one some bind drain_eta]. reflexivity.
  - intros sp' (re & mu & E1 & E2 & E3). unfold mu_value, mu_ideal, any in E2. cbn [existsb] in E2. destruct (Rleb (re / 1) 1) eqn:E; [discriminate|]. apply Rleb_false in E. cbn in E2. assert (mu = mu_ideal_elem (re / 1)) by congruence. subst mu.
    assert (P := mu_ideal_pos (re / 1) ltac:(lra)). set (m := mu_ideal_elem (re / 1)) in *. assert (0 < re ^ 2) by (apply pow_lt; lra). nra.
Qed.
(** the largest s is meant, and each mu function is called with its own arguments *)
Theorem C171_largest : forall s m, np_max s = Ok m -> In m s /\ forall x, In x s -> x <= m.
Proof.
  intros [|a l] m; [discriminate|]. cbn [np_max]. intros H. assert (m = fold_left Rmax l a) by congruence. subst m. clear H. revert a. induction l as [|b l IH]; intros a; cbn [fold_left].
  - split; [left; reflexivity|]. intros x [<-|[]]. lra.
  - destruct (IH (Rmax a b)) as [I1 I2]. assert (M := I2 (Rmax a b) (or_introl eq_refl)). assert (Q1 := Rmax_l a b). assert (Q2 := Rmax_r a b). split.
    + destruct I1 as [I1|I1]; [|right; right; exact I1]. rewrite <- I1. unfold Rmax. destruct (Rle_dec a b); [right; left|left]; reflexivity.
    + intros x [<-|[<-|Hx]]; [lra|lra|]. apply I2. right. exact Hx.
Qed.
Theorem C171_functions : forall n s kap sl kl m,
  (mu_value Ideal n [s] [kap] = Ok (Some m) <-> mu_ideal [n] = Ok [m]) /\
  (mu_value Constant n [s] [kap] = Ok (Some m) <-> mu_constant n s kap = Ok m) /\
  (mu_value Overlapping n [s] [kap] = Ok (Some m) <-> mu_overlapping_linear n s kap = Ok m) /\
  (mu_value Linear n [s] [kap] = Ok (Some m) <-> mu_linear [n] [s] [kap] = Ok [m]) /\
  (mu_value Parabolic n [s] [kap] = Ok (Some m) <-> mu_parabolic n s kap = Ok (Some m)) /\
  (mu_value PiecewiseConstant n sl kl = Ok (Some m) <-> mu_piecewise_constant sl kl (Some n) None = Ok m) /\
  (mu_value PiecewiseLinear n sl kl = Ok (Some m) <-> mu_piecewise_linear sl kl (Some n) None = Ok m).
Proof.
  assert (A : forall (r : result R) m, some r = Ok (Some m) <-> r = Ok m) by (intros [x|?] m; cbn; split; congruence).
  assert (B : forall (r : result (list R)) m, the_one r = Ok m <-> r = Ok [m]) by (intros [[|x [|y l]]|?] m; cbn; split; congruence).
  intros. unfold mu_value. rewrite !A, !B. tauto.
Qed.
(** *** the hypotheses are met: a spacing is found for a drain with a smear zone *)
Theorem C171_example : exists fsolve, finds_root fsolve /\ exists eta sp re n, 0 < eta /\ back_calc fsolve eta "Square" Constant 1 [2] [3] 1 = Ok (sp, re, n).
Proof.
  exists (fun f x0 => match f x0 with Ok (Some v) => if Reqb v 0 then Ok x0 else Err ValueError | _ => Err ValueError end). split.
  { intros f x0 x H. destruct (f x0) as [[v|]|] eqn:E; try discriminate. destruct (Reqb v 0) eqn:E0; [|discriminate]. apply Reqb_true in E0. subst v. congruence. }
  assert (RA : radius (1 * 2 / (1 / 2) * 2) "Square" = Ok (5641895835477563 / 10 ^ 16 * (1 * 2 / (1 / 2) * 2))).
  { unfold radius, re_from_drain_spacing, any. cbn [existsb]. rewrite (proj2 (Rleb_false (1 * 2 / (1 / 2) * 2) 0)) by lra. reflexivity. }
  assert (P16 : (10:R) ^ 16 = 10000000000000000) by (cbn; lra). set (re := 5641895835477563 / 10 ^ 16 * (1 * 2 / (1 / 2) * 2)) in *. assert (RE : 4 < re) by (unfold re; rewrite P16; lra). clearbody re.
  set (mu := mu_constant_elem (re / 1) 2 3).
  assert (MU : 0 < mu + 1).
  { assert (0 < mu); [|lra]. unfold mu. rewrite mu_constant_mux by lra. unfold mux. assert (X : 16 < (re / 1) ^ 2) by (replace ((re / 1) ^ 2) with (re * re) by field; nra). apply Rdiv_lt_0_compat; [|lra]. unfold num. set (x := (re / 1) ^ 2) in *.
    assert (L2 : 1 / 2 < ln 2). { apply exp_lt_inv. rewrite exp_ln by lra. apply Rle_lt_trans with (exp (1 / 2)); [lra|]. assert (EE : exp (1 / 2) * exp (1 / 2) < 4). { rewrite <- exp_plus. replace (1 / 2 + 1 / 2) with 1 by field. apply Rle_lt_trans with 3; [apply exp_le_3|lra]. } assert (0 < exp (1 / 2)) by apply exp_pos. nra. }
    assert (LX : 2 < ln x). { apply Rlt_trans with (ln 16); [|apply ln_increasing; lra]. replace 16 with (2 * 2 * (2 * 2)) by ring. rewrite !ln_mult by lra. lra. }
    assert (0 < / x) by (apply Rinv_0_lt_compat; lra). assert (0 < (3 * (2 ^ 4 - 1) - 2 ^ 4) / 4 / x) by (apply Rdiv_lt_0_compat; lra). assert (16 * (5 / 4) < x * (ln x / 2 + (3 - 1) * ln 2 - 3 / 4)) by (apply Rlt_trans with (x * (5 / 4)); [lra|apply Rmult_lt_compat_l; lra]). lra. }
  exists (2 / re ^ 2 / (mu + 1)). unfold back_calc. cbn [piecewise negb List.length Nat.ltb Nat.leb orb andb np_max fold_left bind]. cbn zeta.
  assert (CE : calc_eta (2 / re ^ 2 / (mu + 1)) 1 [2] [3] Constant "Square" 1 (1 * 2 / (1 / 2) * 2) = Ok (Some 0)).
  { unfold calc_eta. rewrite RA. cbn [bind np_max fold_left too_near]. rewrite (proj2 (Rltb_false (re / 1) 2)) by lra. unfold mu_value, mu_constant. rewrite (proj2 (Rleb_false (re / 1) 1)) by lra. rewrite (proj2 (Rltb_false 2 1)) by lra. rewrite (proj2 (Rleb_false 3 0)) by lra. rewrite (proj2 (Rltb_false (re / 1) 2)) by lra.
    cbn [some bind drain_eta]. fold mu. do 2 f_equal. lra. }
  rewrite CE. cbn [bind]. rewrite (proj2 (Reqb_true 0 0)) by auto. cbn [bind]. rewrite RA. cbn [bind too_near]. rewrite (proj2 (Rltb_false (re / 1) 2)) by lra.
  eexists. eexists. eexists. split; [|reflexivity]. apply Rdiv_lt_0_compat; auto. apply Rdiv_lt_0_compat; [lra|apply pow_lt; lra].
Qed.
Print Assumptions C171_spacing.
Print Assumptions C171_only.
