(** * Proofs about the layer with properties varying with depth: amplitudes, settlement, rates of decay *)
From Coq Require Import Reals List Arith ZArith Bool Lia Lra.
From Coquelicot Require Import Coquelicot.
From Verif Require Import Base RootModel ZhuModel SpecZhu TerzaghiProofs ZhuProofs ZhuProofs2 ZhuProofs3.
Import ListNotations.
Open Scope R_scope.

(** (1-p)/(2-n) is not a negative number so small that the program takes it for zero. *)
Definition not_tiny (A : zhu) : Prop := let s := (1 - a_p A) / (2 - (a_p A - a_q A)) in 0 <= s \/ s < - / 10^8.

Section Amp.
Variables (J Y : R -> R -> R) (A : zhu).
Hypothesis Hg : sensible A.
Notation nu := (znu A).
Hypothesis HB : is_bessel J Y nu.
Hypothesis Hdrn : (a_drn A = 0 \/ a_drn A = 1)%Z.
Hypothesis Ht : not_tiny A.
Notation al := (a_alpha A). Notation p := (a_p A). Notation q := (a_q A). Notation h := (a_H A).
Notation L := (the_layer A).
Notation r := (r A). Notation s := (s A). Notation E := (E A). Notation lam := (lam A).
Notation tm := (the_mode J Y A).

Lemma plain : (plain_case A = true /\ nu = s) \/ (plain_case A = false /\ nu = - s).
Proof.
  unfold not_tiny in Ht. cbv zeta in Ht. change ((1 - p) / (2 - (p - q))) with s in Ht. unfold plain_case, allclose.
  assert (Es : (p - 1) / (2 - zn A) = - s). { unfold ZhuProofs.s. field. rewrite two_r. pose proof (r_ne A Hg). lra. }
  rewrite Es. unfold znu. change ((1 - p) / (2 - zn A)) with s.
  destruct (Rle_dec 0 s) as [P|N].
  - left. rewrite (Rabs_pos_eq s) by auto. split; [|auto]. apply Rleb_true. replace (- s - - s) with 0 by ring. rewrite Rabs_R0.
    apply Rplus_le_le_0_compat; [apply Rlt_le, Rinv_0_lt_compat, pow_lt; lra|apply Rmult_le_pos; [apply Rlt_le, Rinv_0_lt_compat, pow_lt; lra|apply Rabs_pos]].
  - right. destruct Ht as [T|T]; [lra|]. rewrite (Rabs_left1 s) by lra. split; [|auto]. apply Rleb_false. rewrite Rabs_Ropp, (Rabs_left1 s) by lra.
    replace (- - s - - s) with (2 * s) by ring. rewrite Rabs_left1 by lra. assert (/ 10^5 * - s <= - s); [|lra].
    rewrite <- (Rmult_1_l (- s)) at 2. apply Rmult_le_compat_r; [lra|]. rewrite <- Rinv_1. apply Rinv_le_contravar; lra.
Qed.

Section One.
Variable eta : R.
Hypothesis Heta : 0 < eta.
Hypothesis Hroot : char_fn J Y A eta = 0.
(** the number in the numerators *)
Definition num : R := if Z.eqb (a_drn A) 0 then
  (if plain_case A then 2 + PI * eta * pown (zb A) (1 - nu) * Zmu J Y eta (nu - 1) nu (zb A)
   else 2 - PI * eta * pown (zb A) (1 + nu) * Zmu J Y eta (1 + nu) nu (zb A)) else 2.
Definition den : R := (zb A * PI * eta * (if Z.eqb (a_drn A) 0 then Zmu J Y eta (1 + nu) nu (zb A) else Zmu J Y eta nu nu (zb A)))^2 - 4.
Lemma Cm_por_val : Cm_por J Y A eta = 2 * PI * num / - den.
Proof. unfold Cm_por, num, den. destruct (Z.eqb (a_drn A) 0); [destruct (plain_case A)|]; f_equal; ring. Qed.
Lemma Cm_doc_val : (if Z.eqb (a_drn A) 0 then 1 else 4) * Cm_doc J Y A eta = num^2 / (eta^2 * den).
Proof. unfold Cm_doc, num, den. destruct (Z.eqb (a_drn A) 0); [destruct (plain_case A); rewrite Rmult_1_l; reflexivity|]. unfold Rdiv. ring. Qed.
Lemma arg : 0 < eta * zb A. Proof. apply Rmult_lt_0_compat; [auto|apply zb_pos; auto]. Qed.
Lemma int_val : (flow (tm eta) 0 - flow (tm eta) h) / lam eta = - (a_mv0 A * h / (r * al)) * num / (PI * eta^2).
Proof.
  rewrite (flow_top J Y A Hg HB eta Heta). unfold ZhuProofs.lam. pose proof PI_RGT_0 as PP. pose proof (k0_pos A Hg) as K. pose proof (r_ne A Hg) as R0. pose proof (al_ne A Hg) as A0. pose proof (h_ne A Hg) as H0. assert (M : 0 < a_mv0 A) by apply Hg.
  assert (F : flow (tm eta) h = k0 A * (r * al / h) * ((num - 2) / PI)).
  { rewrite (flow_bot J Y A Hg eta). unfold char_fn in Hroot. unfold num. destruct Hdrn as [e|e]; rewrite e in *; cbn [Z.eqb] in *.
    - unfold drn1root. rewrite Hroot, zd_Zmu. pose proof arg as P.
      assert (Zr : zf J Y A eta (eta * zb A) = 0) by (rewrite <- zf_Zmu; exact Hroot).
      assert (P1 : pown (zb A) (1 - s) = E (- (r * s)) h * zb A). { rewrite (zbp_E A Hg), (zb_E A Hg), E_add. f_equal. ring. }
      destruct plain as [[-> Q]|[-> Q]].
      + rewrite (zd_down J Y A HB eta _ P), Zr. replace (pown (zb A) (1 - nu)) with (E (- (r * s)) h * zb A) by (rewrite Q; symmetry; exact P1). field. pose proof (zb_pos A Hg); rewrite two_r; repeat split; try lra; auto; lra.
      + rewrite (zd_up J Y A HB eta _ P), Zr. replace (pown (zb A) (1 + nu)) with (E (- (r * s)) h * zb A) by (replace (1 + nu) with (1 - s) by lra; symmetry; exact P1). field. pose proof (zb_pos A Hg); rewrite two_r; repeat split; try lra; auto; lra.
    - rewrite Hroot. field. split; lra. }
  rewrite F. field. repeat split; auto; lra.
Qed.
Lemma square_val : square_prim A nu eta (zf J Y A eta) (zd J Y A eta) h - square_prim A nu eta (zf J Y A eta) (zd J Y A eta) 0 = a_mv0 A * h / (r * al) * den / (2 * PI^2 * eta^2).
Proof.
  rewrite (square_top J Y A Hg HB eta Heta). unfold square_prim. rewrite <- (zb_E A Hg). pose proof PI_RGT_0 as PP. pose proof (r_ne A Hg) as R0. pose proof (al_ne A Hg) as A0. pose proof arg as P. pose proof (zb_pos A Hg) as Bp.
  assert (F : (zb A * zd J Y A eta (eta * zb A))^2 + ((zb A)^2 - nu^2 / eta^2) * (zf J Y A eta (eta * zb A))^2 = (den + 4) / (PI^2 * eta^2)).
  { unfold char_fn in Hroot. unfold den. destruct Hdrn as [e|e]; rewrite e in *; cbn [Z.eqb] in *.
    - assert (Zr : zf J Y A eta (eta * zb A) = 0) by (rewrite <- zf_Zmu; exact Hroot). rewrite (zd_up J Y A HB eta _ P), Zr. field. repeat split; lra.
    - unfold drn1root in Hroot. rewrite zd_Zmu, zf_Zmu in Hroot. change ((1 - p) / (2 - zn A)) with s in Hroot. rewrite zf_Zmu, nu_s.
      assert (Q : eta * (zb A * zd J Y A eta (eta * zb A)) = - s * zf J Y A eta (eta * zb A)) by lra.
      assert (Q2 : (zb A * zd J Y A eta (eta * zb A))^2 = s^2 / eta^2 * (zf J Y A eta (eta * zb A))^2).
      { apply Rmult_eq_reg_l with (eta^2); [|apply pow_nonzero; lra]. transitivity ((eta * (zb A * zd J Y A eta (eta * zb A)))^2); [ring|]. rewrite Q. field. lra. }
      rewrite Q2. field. split; lra. }
  rewrite F. field. repeat split; auto; lra.
Qed.
Lemma den_sign : 0 < a_mv0 A * h / (r * al) * den.
Proof.
  pose proof (square_pos J Y A Hg HB eta Heta) as P. rewrite square_val in P. pose proof PI_RGT_0 as PP.
  assert (Q : 0 < 2 * PI^2 * eta^2) by (apply Rmult_lt_0_compat; [apply Rmult_lt_0_compat; [lra|apply pow_lt; lra]|apply pow_lt; auto]).
  replace (a_mv0 A * h / (r * al) * den) with (a_mv0 A * h / (r * al) * den / (2 * PI^2 * eta^2) * (2 * PI^2 * eta^2)).
  2: { unfold Rdiv at 1. rewrite Rmult_assoc, Rinv_l by lra. apply Rmult_1_r. }
  apply Rmult_lt_0_compat; auto.
Qed.
Lemma den_ne : den <> 0. Proof. intros e. pose proof den_sign as P. rewrite e in P. lra. Qed.
Lemma amp_ok : projection L (a_ui A) (a_ui A * Cm_por J Y A eta) (tm eta).
Proof.
  pose proof (int_shape J Y A Hg HB eta Heta) as I1. pose proof (int_square J Y A Hg HB eta Heta) as I2. pose proof (square_pos J Y A Hg HB eta Heta) as P.
  exists ((flow (tm eta) 0 - flow (tm eta) h) / lam eta), (square_prim A nu eta (zf J Y A eta) (zd J Y A eta) h - square_prim A nu eta (zf J Y A eta) (zd J Y A eta) 0).
  split; [exact I1|]. split; [exact I2|]. split; [exact P|]. rewrite int_val, square_val, Cm_por_val. pose proof den_ne. pose proof PI_RGT_0. assert (M : 0 < a_mv0 A) by apply Hg.
  field. repeat split; try lra; try apply r_ne; try apply al_ne; try apply h_ne; auto.
Qed.
End One.

(** ** settlement *)
Lemma int_comp : q <> -1 -> weighted L (fun _ => 1) (a_mv0 A * (pown (1 + al) (1 + q) - 1) / (1 + q) * h / al).
Proof.
  intros Hq. destruct (layer_ok A Hg) as (L1 & L2 & L3). unfold weighted. change (depth L) with h.
  assert (I : is_RInt (fun z => comp L z * 1) 0 h (minus (a_mv0 A * h / (al * (1 + q)) * E (1 + q) h) (a_mv0 A * h / (al * (1 + q)) * E (1 + q) 0))).
  { apply (is_RInt_derive (fun z => a_mv0 A * h / (al * (1 + q)) * E (1 + q) z)).
    - intros z Hz. apply (bounds L L1) in Hz. pose proof (is_derive_scal _ z (a_mv0 A * h / (al * (1 + q))) _ (E_der A Hg (1 + q) z Hz)) as D. eapply (fun e => eq_ind _ (fun v => is_derive _ z v) D _ e).
      rewrite comp_E. match goal with |- ?u = ?v => change (@eq R u v) end. assert (X : E q z = E (-1) z * E (1 + q) z) by (rewrite E_add; f_equal; ring). rewrite X. field. repeat split; try apply al_ne; try apply h_ne; auto; lra.
    - intros z Hz. apply (bounds L L1) in Hz. apply (smooth_mult L (comp L) (fun _ => 1)); auto; [intros y Hy; apply L3; auto|apply smooth_const]. }
  eapply rint_val; [exact I|]. rewrite E_at0 by auto. assert (X : pown (1 + al) (1 + q) = E (1 + q) h).
  { unfold pown, Rpower, ZhuProofs.E, ZhuProofs.X. replace (1 + al * h / h) with (1 + al) by (field; apply h_ne; auto). reflexivity. }
  rewrite X. unfold minus, plus, opp. cbn -[ZhuProofs.E]. match goal with |- ?u = ?v => change (@eq R u v) end. field. repeat split; try apply al_ne; auto; lra.
Qed.
(** the share of a term in the settlement *)
Definition share (eta : R) : R := doc_factor A * Cm_doc J Y A eta.
Lemma share_val eta : 0 < eta -> char_fn J Y A eta = 0 -> q <> -1 -> pown (1 + al) (1 + q) - 1 <> 0 ->
  share eta * (a_mv0 A * (pown (1 + al) (1 + q) - 1) / (1 + q) * h / al) = Cm_por J Y A eta * ((flow (tm eta) 0 - flow (tm eta) h) / lam eta).
Proof.
  intros He Hr Hq Hne. rewrite (int_val eta He Hr), Cm_por_val. unfold share.
  assert (X : doc_factor A * Cm_doc J Y A eta = 4 * (1 + q) / ((2 - zn A) * (pown (1 + al) (1 + q) - 1)) * (num eta^2 / (eta^2 * den eta))).
  { rewrite <- Cm_doc_val. unfold doc_factor. destruct (Z.eqb (a_drn A) 0); unfold Rdiv; ring. }
  rewrite X, two_r. pose proof (den_ne eta He Hr). pose proof PI_RGT_0. field. repeat split; try apply al_ne; try apply r_ne; auto; lra.
Qed.
Lemma share_nonneg eta : 0 < eta -> char_fn J Y A eta = 0 -> q <> -1 -> pown (1 + al) (1 + q) - 1 <> 0 -> 0 <= share eta.
Proof.
  intros He Hr Hq Hne. pose proof (share_val eta He Hr Hq Hne) as X. set (S := a_mv0 A * (pown (1 + al) (1 + q) - 1) / (1 + q) * h / al) in *.
  assert (Sp : 0 < S).
  { pose proof (int_comp Hq) as I. fold S in I. destruct (layer_ok A Hg) as (L1 & L2 & L3).
    apply Rnot_le_lt. intros Q. assert (Z : 0 < RInt (fun z => comp L z * 1) 0 (depth L)); [apply RInt_gt_0; auto|].
    - intros z Hz. rewrite Rmult_1_r. apply L3. split; lra.
    - intros z Hz. apply (smooth_mult L (comp L) (fun _ => 1)); [intros y Hy; apply L3; auto|apply smooth_const|exact Hz].
    - rewrite (is_RInt_unique (V := R_CompleteNormedModule) _ _ _ _ I) in Z. lra. }
  assert (P : 0 <= share eta * S); [|apply Rmult_le_reg_r with S; lra].
  rewrite X, (int_val eta He Hr), Cm_por_val. pose proof (den_sign eta He Hr) as D. pose proof (den_ne eta He Hr) as Dn. pose proof PI_RGT_0 as PP.
  set (w := a_mv0 A * h / (r * al)) in *.
  assert (Wn : w * den eta <> 0) by lra. assert (W0 : w <> 0) by (intros e; apply Wn; rewrite e; ring).
  replace (2 * PI * num eta / - den eta * (- w * num eta / (PI * eta^2))) with (2 * (num eta / eta)^2 * w^2 * / (w * den eta)) by (field; repeat split; auto; lra).
  apply Rmult_le_pos; [|apply Rlt_le, Rinv_0_lt_compat; auto]. apply Rmult_le_pos; [|apply pow2_ge_0]. apply Rmult_le_pos; [lra|apply pow2_ge_0].
Qed.
Lemma comp_total_pos : q <> -1 -> 0 < a_mv0 A * (pown (1 + al) (1 + q) - 1) / (1 + q) * h / al.
Proof.
  intros Hq. pose proof (int_comp Hq) as I. destruct (layer_ok A Hg) as (L1 & L2 & L3).
  assert (Z : 0 < RInt (fun z => comp L z * 1) 0 (depth L)); [apply RInt_gt_0; auto|].
  - intros z Hz. rewrite Rmult_1_r. apply L3. split; lra.
  - intros z Hz. apply (smooth_mult L (comp L) (fun _ => 1)); [intros y Hy; apply L3; auto|apply smooth_const|exact Hz].
  - rewrite (is_RInt_unique (V := R_CompleteNormedModule) _ _ _ _ I) in Z. exact Z.
Qed.
(** ** the rates of decay *)
Lemma wron_const m l z1 z2 : mode_equation L m -> mode_equation L l -> rate m = rate l -> inside L z1 -> inside L z2 ->
  shape m z1 * flow l z1 - flow m z1 * shape l z1 = shape m z2 * flow l z2 - flow m z2 * shape l z2.
Proof.
  intros E1 E2 Er I1 I2. destruct (layer_ok A Hg) as (L1 & L2 & L3).
  set (W := fun z => shape m z * flow l z - flow m z * shape l z).
  assert (D : forall z, inside L z -> is_derive W z 0).
  { intros z Hz. pose proof (wronskian_der L L2 m l z E1 E2 Hz) as D. rewrite Er in D. replace ((rate l - rate l) * (comp L z * (shape m z * shape l z))) with 0 in D by ring. exact D. }
  change (W z1 = W z2).
  assert (Bd : forall w, Rmin z1 z2 <= w <= Rmax z1 z2 -> inside L w).
  { intros w Hw. destruct I1 as [A1 A2], I2 as [B1 B2]. split; [apply Rle_trans with (Rmin z1 z2); [apply Rmin_glb; lra|lra]|apply Rle_trans with (Rmax z1 z2); [lra|apply Rmax_lub; lra]]. }
  destruct (MVT_gen W z1 z2 (fun _ => 0)) as (w & Hw & Q).
  - intros w Hw. apply D, Bd. lra.
  - intros w Hw. apply continuity_pt_filterlim. apply (ex_derive_continuous (V := R_NormedModule) W w (ex_intro _ _ (D w (Bd w Hw)))).
  - lra.
Qed.
Lemma decay_rates eta : 0 < eta -> (char_fn J Y A eta = 0 <-> decay_rate L (a_drn A) (lam eta)).
Proof.
  intros He. pose proof (the_bottom J Y A Hg eta Hdrn) as HBt. split.
  - intros Hr. exists (tm eta). split; [reflexivity|]. split; [apply the_equation; auto|]. split; [apply the_top; auto|]. split; [apply HBt; auto|].
    destruct (nonzero J Y A Hg HB eta He) as (z & Hz & N). exists z. split; [split; cbn; lra|auto].
  - intros (m & Er & Em & Tm & Bm & z & Hz & Nz). apply HBt.
    pose proof (the_equation J Y A Hg HB eta He) as Et. pose proof (the_top J Y A Hg eta) as Tt. pose proof (bot_in A Hg) as Ib. pose proof (top_in A Hg) as I0.
    assert (W : shape m h * flow (tm eta) h - flow m h * shape (tm eta) h = 0).
    { rewrite (wron_const m (tm eta) h 0 Em Et Er Ib I0). unfold drained_top in *. rewrite Tm, Tt. ring. }
    (* the data of m at the bottom are not both zero *)
    assert (Z : ~ (shape m h = 0 /\ flow m h = 0)).
    { intros [S0 F0]. apply Nz.
      destruct HB as (HJ & HY & HW).
      set (mj := cyl A eta (cyf J Y nu 1 0) (cyd J Y nu 1 0)). set (my := cyl A eta (cyf J Y nu 0 1) (cyd J Y nu 0 1)).
      assert (Ej : mode_equation L mj) by (apply (cyl_equation A Hg nu eta _ _ (nu_s A) He); intros x Hx; apply (cyl_ode J Y nu 1 0 x HJ HY Hx)).
      assert (Ey : mode_equation L my) by (apply (cyl_equation A Hg nu eta _ _ (nu_s A) He); intros x Hx; apply (cyl_ode J Y nu 0 1 x HJ HY Hx)).
      pose proof (wron_const m mj z h Em Ej Er Hz Ib) as Q1. pose proof (wron_const m my z h Em Ey Er Hz Ib) as Q2. rewrite S0, F0 in Q1, Q2.
      assert (P : 0 < eta * E r z) by (apply Rmult_lt_0_compat; [auto|apply E_pos]).
      assert (D : shape mj z * flow my z - flow mj z * shape my z = k0 A * (r * al / h) * (2 / PI)).
      { unfold mj, my. cbn [shape flow cyl]. set (x := eta * E r z) in *. unfold cyf, cyd.
        pose proof (b_rec _ _ HJ _ P) as R1. pose proof (b_rec _ _ HY _ P) as R2. pose proof (HW x P) as R3.
        replace (J (nu - 1) x) with (2 * nu / x * J nu x - J (nu + 1) x) by lra. replace (Y (nu - 1) x) with (2 * nu / x * Y nu x - Y (nu + 1) x) by lra.
        assert (Ee : E (r * s) z * E (- (r * s)) z = 1) by (rewrite E_add, Rplus_opp_r; apply E_0).
        pose proof PI_RGT_0 as PP.
        transitivity (k0 A * (r * al / h) * (E (r * s) z * E (- (r * s)) z) * (x * (J (nu + 1) x * Y nu x - J nu x * Y (nu + 1) x))); [field; repeat split; try apply h_ne; auto; lra|].
        rewrite Ee, R3. field. repeat split; try apply h_ne; auto; lra. }
      assert (Dn : k0 A * (r * al / h) * (2 / PI) <> 0).
      { apply Rmult_integral_contrapositive_currified; [apply Rmult_integral_contrapositive_currified; [pose proof (k0_pos A Hg); lra|apply (ral_ne A Hg)]|]. pose proof PI_RGT_0. assert (0 < 2 / PI) by (apply Rdiv_lt_0_compat; lra). lra. }
      assert (X : shape m z * (shape mj z * flow my z - flow mj z * shape my z) = 0).
      { transitivity (shape mj z * (shape m z * flow my z - flow m z * shape my z) - shape my z * (shape m z * flow mj z - flow m z * shape mj z)); [ring|]. rewrite Q1, Q2. ring. }
      rewrite D in X. apply Rmult_integral in X. destruct X; [auto|contradiction]. }
    unfold bottom in *. change (depth L) with h in *. destruct Hdrn as [e|e]; rewrite e in *.
    + destruct Bm as [B0 _]. specialize (B0 eq_refl). rewrite B0 in W. split; [intros _|discriminate].
      assert (W' : flow m h * shape (tm eta) h = 0) by lra. apply Rmult_integral in W'. destruct W' as [W'|W']; [exfalso; auto|auto].
    + destruct Bm as [_ B0]. specialize (B0 eq_refl). rewrite B0 in W. split; [discriminate|intros _].
      assert (W' : shape m h * flow (tm eta) h = 0) by lra. apply Rmult_integral in W'. destruct W' as [W'|W']; [exfalso; auto|auto].
Qed.
End Amp.
