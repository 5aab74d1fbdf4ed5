(** * Proofs about the layer with properties varying with depth: the Bessel shapes *)
From Coq Require Import Reals List Arith ZArith Bool Lia Lra.
From Coquelicot Require Import Coquelicot.
From Verif Require Import Base RootModel ZhuModel SpecZhu TerzaghiProofs ZhuProofs ZhuProofs2.
Import ListNotations.
Open Scope R_scope.

(** a cylinder function: a J + c Y, and its derivative *)
Definition cyf (J Y : R -> R -> R) (nu a c x : R) : R := a * J nu x + c * Y nu x.
Definition cyd (J Y : R -> R -> R) (nu a c x : R) : R := a * ((J (nu - 1) x - J (nu + 1) x) / 2) + c * ((Y (nu - 1) x - Y (nu + 1) x) / 2).
Lemma bessel_ode B nu x : bessel_at B nu -> 0 < x ->
  is_derive (fun x => (B (nu - 1) x - B (nu + 1) x) / 2) x (- ((B (nu - 1) x - B (nu + 1) x) / 2) / x - (1 - nu^2 / x^2) * B nu x).
Proof.
  intros [R1 R2 R3 R4] Hx. specialize (R1 x Hx). specialize (R2 x Hx). specialize (R3 x Hx). specialize (R4 x Hx).
  set (m := B (nu - 1)) in *. set (u := B (nu + 1)) in *. set (b := B nu) in *.
  assert (X3 : ex_derive m x) by (eexists; eauto). assert (X4 : ex_derive u x) by (eexists; eauto). auto_derive; [auto|].
  change (fun x : R => m x) with m. change (fun x : R => u x) with u. rewrite (is_derive_unique _ _ _ R3), (is_derive_unique _ _ _ R4).
  assert (Q : u x = 2 * nu / x * b x - m x) by lra. rewrite Q. field. lra.
Qed.
Lemma cyl_ode J Y nu a c x : bessel_at J nu -> bessel_at Y nu -> 0 < x ->
  is_derive (cyf J Y nu a c) x (cyd J Y nu a c x) /\ is_derive (cyd J Y nu a c) x (- cyd J Y nu a c x / x - (1 - nu^2 / x^2) * cyf J Y nu a c x).
Proof.
  intros HJ HY Hx. split.
  - unfold cyf, cyd. apply (is_derive_plus (V := R_NormedModule) (fun x => a * J nu x) (fun x => c * Y nu x)); apply is_derive_scal; [apply (b_der _ _ HJ)|apply (b_der _ _ HY)]; auto.
  - pose proof (bessel_ode J nu x HJ Hx) as D1. pose proof (bessel_ode Y nu x HY Hx) as D2. unfold cyf, cyd.
    pose proof (is_derive_plus (V := R_NormedModule) _ _ x _ _ (is_derive_scal _ x a _ D1) (is_derive_scal _ x c _ D2)) as D.
    eapply (fun e => eq_ind _ (fun v => is_derive _ x v) D _ e). unfold plus. cbn. match goal with |- ?u = ?v => change (@eq R u v) end. field. lra.
Qed.

Section Bessel.
Variables (J Y : R -> R -> R) (A : zhu).
Hypothesis Hg : sensible A.
Notation nu := (znu A).
Hypothesis HB : is_bessel J Y nu.
Notation al := (a_alpha A). Notation p := (a_p A). Notation q := (a_q A). Notation h := (a_H A).
Notation L := (the_layer A).
Notation r := (r A). Notation s := (s A). Notation E := (E A). Notation lam := (lam A).

Lemma nu_s : nu^2 = s^2.
Proof. unfold znu, ZhuProofs.s. rewrite pow2_abs. reflexivity. Qed.
Lemma nu_ge : 0 <= nu. Proof. apply Rabs_pos. Qed.
Definition zf (eta x : R) : R := cyf J Y nu (Y nu eta) (- J nu eta) x.
Definition zd (eta x : R) : R := cyd J Y nu (Y nu eta) (- J nu eta) x.
Lemma zf_Zmu eta b : Zmu J Y eta nu nu b = zf eta (eta * b). Proof. unfold Zmu, zf, cyf. ring. Qed.
Lemma zd_Zmu eta b : Zmu_ J Y eta nu nu b = zd eta (eta * b). Proof. unfold Zmu_, zd, cyd. field. Qed.
Lemma zd_up eta b : 0 < eta * b -> zd eta (eta * b) = nu / (eta * b) * zf eta (eta * b) - Zmu J Y eta (1 + nu) nu b.
Proof.
  intros P. destruct HB as (HJ & HY & _). pose proof (b_rec _ _ HJ _ P) as R1. pose proof (b_rec _ _ HY _ P) as R2. unfold zd, zf, cyd, cyf, Zmu. rewrite (Rplus_comm 1 nu).
  replace (J (nu - 1) (eta * b)) with (2 * nu / (eta * b) * J nu (eta * b) - J (nu + 1) (eta * b)) by lra.
  replace (Y (nu - 1) (eta * b)) with (2 * nu / (eta * b) * Y nu (eta * b) - Y (nu + 1) (eta * b)) by lra. unfold Rdiv. field. split; intros e; rewrite e in P; lra.
Qed.
Lemma zd_down eta b : 0 < eta * b -> zd eta (eta * b) = Zmu J Y eta (nu - 1) nu b - nu / (eta * b) * zf eta (eta * b).
Proof.
  intros P. destruct HB as (HJ & HY & _). pose proof (b_rec _ _ HJ _ P) as R1. pose proof (b_rec _ _ HY _ P) as R2. unfold zd, zf, cyd, cyf, Zmu.
  replace (J (nu + 1) (eta * b)) with (2 * nu / (eta * b) * J nu (eta * b) - J (nu - 1) (eta * b)) by lra.
  replace (Y (nu + 1) (eta * b)) with (2 * nu / (eta * b) * Y nu (eta * b) - Y (nu - 1) (eta * b)) by lra. unfold Rdiv. field. split; intros e; rewrite e in P; lra.
Qed.

Section One.
Variable eta : R.
Hypothesis Heta : 0 < eta.
Lemma zf_top : zf eta eta = 0. Proof. unfold zf, cyf. ring. Qed.
Lemma zd_top : zd eta eta = - (2 / (PI * eta)).
Proof.
  destruct HB as (HJ & HY & W). specialize (W eta Heta). pose proof (zd_up eta 1 ltac:(lra)) as Z. rewrite Rmult_1_r in Z. rewrite Z, zf_top. unfold Zmu. rewrite Rmult_1_r, (Rplus_comm 1 nu). lra.
Qed.
Lemma HZ x : 0 < x -> is_derive (zf eta) x (zd eta x) /\ is_derive (zd eta) x (- zd eta x / x - (1 - nu^2 / x^2) * zf eta x).
Proof. intros Hx. destruct HB as (HJ & HY & _). apply (cyl_ode J Y nu _ _ x HJ HY Hx). Qed.
(** the shape of the term *)
Definition the_mode : mode := cyl A eta (zf eta) (zd eta).
Lemma the_equation : mode_equation L the_mode. Proof. apply (cyl_equation A Hg nu eta _ _ nu_s Heta HZ). Qed.
Lemma the_top : drained_top the_mode.
Proof. unfold drained_top. cbn [shape flow rate the_mode cyl]. rewrite !E_at0 by auto. rewrite Rmult_1_r, zf_top. ring. Qed.
Lemma flow_top : flow the_mode 0 = - (k0 A * (r * al / h) * (2 / PI)).
Proof. cbn [shape flow rate the_mode cyl]. rewrite !E_at0 by auto. rewrite !Rmult_1_r, zf_top, zd_top. pose proof PI_RGT_0. unfold Rdiv. field. repeat split; try apply h_ne; auto; lra. Qed.
Lemma ral_ne : r * al / h <> 0.
Proof. unfold Rdiv. apply Rmult_integral_contrapositive_currified; [apply Rmult_integral_contrapositive_currified; [apply r_ne|apply al_ne]|apply Rinv_neq_0_compat, h_ne]; auto. Qed.
Lemma flow_top_ne : flow the_mode 0 <> 0.
Proof.
  rewrite flow_top. apply Ropp_neq_0_compat. apply Rmult_integral_contrapositive_currified; [apply Rmult_integral_contrapositive_currified; [pose proof (k0_pos A Hg); lra|apply ral_ne]|].
  pose proof PI_RGT_0. assert (0 < 2 / PI) by (apply Rdiv_lt_0_compat; lra). lra.
Qed.
Lemma zb_pos : 0 < zb A. Proof. rewrite (zb_E A Hg). apply E_pos. Qed.
Lemma flow_bot : flow the_mode h = k0 A * (r * al / h) * E (- (r * s)) h * drn1root J Y eta nu nu (zb A) p (zn A).
Proof. cbn [shape flow rate the_mode cyl]. rewrite <- (zb_E A Hg). unfold drn1root. rewrite zf_Zmu, zd_Zmu. unfold ZhuProofs.s. ring. Qed.
Lemma shape_bot : shape the_mode h = E (r * s) h * Zmu J Y eta nu nu (zb A).
Proof. cbn [shape flow rate the_mode cyl]. rewrite <- (zb_E A Hg). rewrite zf_Zmu. reflexivity. Qed.
Lemma shape_val z : shape the_mode z = Zmu J Y eta nu nu (zy A z) * pown (zy A z) ((1 - p) / (2 - zn A)).
Proof. cbn [shape flow rate the_mode cyl]. rewrite zf_Zmu. rewrite (zyp_E A). rewrite zy_E. unfold ZhuProofs.s. ring. Qed.
Lemma the_bottom : (a_drn A = 0 \/ a_drn A = 1)%Z -> (bottom L (a_drn A) the_mode <-> char_fn J Y A eta = 0).
Proof.
  intros Hd. unfold bottom, char_fn. change (depth L) with h. rewrite shape_bot, flow_bot. pose proof (E_pos A (r * s) h) as P1. pose proof (E_pos A (- (r * s)) h) as P2. pose proof (k0_pos A Hg) as K. pose proof ral_ne as N.
  destruct Hd as [e|e]; rewrite e; cbn [Z.eqb].
  - split; [intros [Q _]; specialize (Q eq_refl); apply Rmult_integral in Q; destruct Q; [lra|auto]|intros ->; split; [intros _; ring|discriminate]].
  - split; [intros [_ Q]; specialize (Q eq_refl)|intros ->; split; [discriminate|intros _; ring]].
    apply Rmult_integral in Q. destruct Q as [Q|Q]; [|auto]. apply Rmult_integral in Q. destruct Q as [Q|Q]; [|lra]. apply Rmult_integral in Q. destruct Q as [Q|Q]; [lra|contradiction].
Qed.
Lemma rate_val : rate the_mode = a_kv0 A / (a_mv0 A * a_gamw A) * ((2 - zn A) * al / (2 * h))^2 * eta^2.
Proof. cbn [shape flow rate the_mode cyl]. unfold ZhuProofs.lam, k0. rewrite two_r. destruct Hg as (G1 & _ & _ & _ & _ & G2 & G3). field. lra. Qed.
Lemma Tm_val eta0 t : 0 < eta0 -> Tm A eta0 eta t = exp (- rate the_mode * t).
Proof. intros H0. rewrite rate_val. unfold Tm, dTv. f_equal. pose proof PI_RGT_0. destruct Hg as (G1 & _ & _ & _ & _ & G2 & G3). field. repeat split; lra. Qed.

(** integrals *)
Lemma layer_ok : 0 < depth L /\ (forall z, inside L z -> 0 < cond L z) /\ (forall z, inside L z -> 0 < comp L z /\ continuous (comp L) z).
Proof.
  split; [apply Hg|]. split; [intros; apply cond_pos; auto|]. intros z Hz. split; [apply comp_pos; auto|].
  apply (continuous_ext (fun z => a_mv0 A * E q z)); [intros; reflexivity|]. apply (continuous_scal_r (V := R_NormedModule) (a_mv0 A) (E q)). apply (ex_derive_continuous (V := R_NormedModule) _ _ (ex_intro _ _ (E_der A Hg q z Hz))).
Qed.
Lemma int_shape : weighted L (shape the_mode) ((flow the_mode 0 - flow the_mode h) / lam eta).
Proof.
  destruct layer_ok as (L1 & L2 & L3). pose proof (lam_pos A Hg eta Heta) as P. unfold weighted. change (depth L) with h.
  assert (I : is_RInt (fun z => comp L z * shape the_mode z) 0 h (minus (- / lam eta * flow the_mode h) (- / lam eta * flow the_mode 0))).
  { apply (is_RInt_derive (fun z => - / lam eta * flow the_mode z)).
    - intros z Hz. apply (bounds L L1) in Hz. destruct (the_equation z Hz) as [_ D]. pose proof (is_derive_scal _ z (- / lam eta) _ D) as D'. eapply (fun e => eq_ind _ (fun v => is_derive _ z v) D' _ e).
      change (rate the_mode) with (lam eta). match goal with |- ?u = ?v => change (@eq R u v) end. field. lra.
    - intros z Hz. apply (bounds L L1) in Hz. apply (smooth_mult L (comp L) (shape the_mode)); auto; [intros y Hy; apply L3; auto|]. apply mode_smooth. apply the_equation. }
  eapply rint_val; [exact I|]. unfold minus, plus, opp. cbn -[the_mode ZhuProofs.lam Rinv]. match goal with |- ?u = ?v => change (@eq R u v) end. field. lra.
Qed.
Lemma int_square : weighted L (fun z => (shape the_mode z)^2) (square_prim A nu eta (zf eta) (zd eta) h - square_prim A nu eta (zf eta) (zd eta) 0).
Proof.
  destruct layer_ok as (L1 & L2 & L3). unfold weighted. change (depth L) with h.
  apply (is_RInt_derive (square_prim A nu eta (zf eta) (zd eta))).
  - intros z Hz. apply (bounds L L1) in Hz. apply (square_der A Hg nu eta _ _ Heta HZ z Hz).
  - intros z Hz. apply (bounds L L1) in Hz. apply (smooth_mult L (comp L) (fun z => (shape the_mode z)^2)); auto; [intros y Hy; apply L3; auto|].
    apply (smooth_ext L (fun z => shape the_mode z * shape the_mode z)); [intros; ring|]. apply smooth_mult; apply mode_smooth; apply the_equation.
Qed.
Lemma nonzero : exists z, 0 < z < h /\ shape the_mode z <> 0.
Proof.
  destruct layer_ok as (L1 & L2 & L3). 
  assert (Dn : ~ forall z, 0 < z < h -> shape the_mode z = 0).
  { intros Q. apply flow_top_ne. apply (no_flow L L1 L2 the_mode the_equation); [exact Q|]. apply top_in; auto. }
  destruct (Classical_Prop.classic (exists z, 0 < z < h /\ shape the_mode z <> 0)) as [W|W]; [auto|]. exfalso. apply Dn. intros z Hz. destruct (Req_dec (shape the_mode z) 0) as [|N]; auto. exfalso. apply W. exists z. auto.
Qed.
Lemma square_pos : 0 < square_prim A nu eta (zf eta) (zd eta) h - square_prim A nu eta (zf eta) (zd eta) 0.
Proof.
  apply Rnot_le_lt. intros Q. destruct nonzero as (z & Hz & N). apply N. destruct layer_ok as (L1 & L2 & L3).
  assert (Z : comp L z * (shape the_mode z)^2 = 0).
  { apply (const_der (square_prim A nu eta (zf eta) (zd eta)) (fun z => comp L z * (shape the_mode z)^2) 0 h); [apply Hg| | |lra|auto].
    - intros x Hx. apply (square_der A Hg nu eta _ _ Heta HZ x). exact Hx.
    - intros x Hx. apply Rmult_le_pos; [apply Rlt_le, L3; exact Hx|apply pow2_ge_0]. }
  apply Rmult_integral in Z. destruct Z as [Z|Z]; [|destruct (Req_dec (shape the_mode z) 0) as [|X]; auto; apply pow_nonzero with (n := 2%nat) in X; lra].
  assert (I : inside L z) by (split; cbn; lra). pose proof (proj1 (L3 z I)). lra.
Qed.
Lemma square_top : square_prim A nu eta (zf eta) (zd eta) 0 = a_mv0 A * h / (r * al) * (2 / (PI^2 * eta^2)).
Proof. unfold square_prim. rewrite !E_at0 by auto. rewrite Rmult_1_r, zf_top, zd_top. pose proof PI_RGT_0. field. repeat split; try apply r_ne; try apply al_ne; auto; lra. Qed.
End One.
End Bessel.
