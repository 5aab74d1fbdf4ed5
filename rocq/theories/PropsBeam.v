(** * C148: static point loads; C150: tanh transitions *)
From Coq Require Import Reals List Arith ZArith Bool Lia Lra.
From Coquelicot Require Import Coquelicot.
From Verif Require Import Base BeamModel.
Import ListNotations.
Local Open Scope R_scope.

(** *** C148 *)
(** f has the derivatives f1, f2, f3, f4 everywhere *)
Definition four_derivatives (f f1 f2 f3 f4 : R -> R) : Prop :=
  forall x, is_derive f x (f1 x) /\ is_derive f1 x (f2 x) /\ is_derive f2 x (f3 x) /\ is_derive f3 x (f4 x).
(** w is the deflection of an infinite beam (bending stiffness EI) on springs (k per length) under the load Q at x = c:
    smooth on each side, EI w'''' + k w = 0, deflection, slope and moment continuous, the shear jumps by Q *)
Definition point_loaded (EI k Q c : R) (w : R -> R) : Prop := exists r r1 r2 r3 r4 l l1 l2 l3 l4,
  four_derivatives r r1 r2 r3 r4 /\ four_derivatives l l1 l2 l3 l4 /\ (forall x, c <= x -> w x = r x) /\ (forall x, x <= c -> w x = l x) /\
  (forall x, EI * r4 x + k * r x = 0) /\ (forall x, EI * l4 x + k * l x = 0) /\ r c = l c /\ r1 c = l1 c /\ r2 c = l2 c /\ EI * (r3 c - l3 c) = Q.
Definition decays (w : R -> R) : Prop := is_lim w p_infty 0 /\ is_lim w m_infty 0.

Lemma shape_shift x L c : point_load_static_defl_shape_function x L c = static_point_load_shape (x - c) L. Proof. reflexivity. Qed.
Definition dec (a b c L x : R) : R := exp (- (x - c) / L) * (a * cos ((x - c) / L) + b * sin ((x - c) / L)).
Definition inc (a b c L x : R) : R := exp ((x - c) / L) * (a * cos ((x - c) / L) + b * sin ((x - c) / L)).
Lemma d_dec a b c L x : L <> 0 -> is_derive (dec a b c L) x (dec ((b - a) / L) (- (a + b) / L) c L x).
Proof. intros H. unfold dec. auto_derive; auto. unfold Rdiv, Rminus. field. auto. Qed.
Lemma d_inc a b c L x : L <> 0 -> is_derive (inc a b c L) x (inc ((a + b) / L) ((b - a) / L) c L x).
Proof. intros H. unfold inc. auto_derive; auto. unfold Rdiv, Rminus. field. auto. Qed.
Lemma dec_derivs a b c L : L <> 0 -> four_derivatives (dec a b c L) (dec ((b - a) / L) (- (a + b) / L) c L) (dec (-2 * b / L ^ 2) (2 * a / L ^ 2) c L) (dec (2 * (a + b) / L ^ 3) (2 * (b - a) / L ^ 3) c L) (dec (-4 * a / L ^ 4) (-4 * b / L ^ 4) c L).
Proof.
  intros H x. split; [apply d_dec; auto|]. split; [|split].
  - assert (D := d_dec ((b - a) / L) (- (a + b) / L) c L x H). apply (eq_ind _ (fun v => is_derive _ x v) D). unfold dec. match goal with |- ?u = ?v => change (@eq R u v) end. f_equal. field. auto.
  - assert (D := d_dec (-2 * b / L ^ 2) (2 * a / L ^ 2) c L x H). apply (eq_ind _ (fun v => is_derive _ x v) D). unfold dec. match goal with |- ?u = ?v => change (@eq R u v) end. f_equal. field. auto.
  - assert (D := d_dec (2 * (a + b) / L ^ 3) (2 * (b - a) / L ^ 3) c L x H). apply (eq_ind _ (fun v => is_derive _ x v) D). unfold dec. match goal with |- ?u = ?v => change (@eq R u v) end. f_equal. field. auto.
Qed.
Lemma inc_derivs a b c L : L <> 0 -> four_derivatives (inc a b c L) (inc ((a + b) / L) ((b - a) / L) c L) (inc (2 * b / L ^ 2) (-2 * a / L ^ 2) c L) (inc (2 * (b - a) / L ^ 3) (-2 * (a + b) / L ^ 3) c L) (inc (-4 * a / L ^ 4) (-4 * b / L ^ 4) c L).
Proof.
  intros H x. split; [apply d_inc; auto|]. split; [|split].
  - assert (D := d_inc ((a + b) / L) ((b - a) / L) c L x H). apply (eq_ind _ (fun v => is_derive _ x v) D). unfold inc. match goal with |- ?u = ?v => change (@eq R u v) end. f_equal. field. auto.
  - assert (D := d_inc (2 * b / L ^ 2) (-2 * a / L ^ 2) c L x H). apply (eq_ind _ (fun v => is_derive _ x v) D). unfold inc. match goal with |- ?u = ?v => change (@eq R u v) end. f_equal. field. auto.
  - assert (D := d_inc (2 * (b - a) / L ^ 3) (-2 * (a + b) / L ^ 3) c L x H). apply (eq_ind _ (fun v => is_derive _ x v) D). unfold inc. match goal with |- ?u = ?v => change (@eq R u v) end. f_equal. field. auto.
Qed.
Lemma at_c a b c L : dec a b c L c = a /\ inc a b c L c = a.
Proof. unfold dec, inc. replace (c - c) with 0 by ring. replace (- 0 / L) with 0 by (unfold Rdiv; ring). replace (0 / L) with 0 by (unfold Rdiv; ring). rewrite exp_0, cos_0, sin_0. split; ring. Qed.
(** the deflection with its largest value Q / (2 k L), for L = (4 EI / k)^(1/4), is that under the load Q *)
Theorem C148_point_load EI k L Q c : 0 < L -> 0 < k -> L ^ 4 * k = 4 * EI -> point_loaded EI k Q c (fun x => Q / (2 * k * L) * point_load_static_defl_shape_function x L c).
Proof.
  intros HL Hk HE. set (q := Q / (2 * k * L)). assert (EE : EI = L ^ 4 * k / 4) by lra.
  exists (dec q q c L), (dec ((q - q) / L) (- (q + q) / L) c L), (dec (-2 * q / L ^ 2) (2 * q / L ^ 2) c L), (dec (2 * (q + q) / L ^ 3) (2 * (q - q) / L ^ 3) c L), (dec (-4 * q / L ^ 4) (-4 * q / L ^ 4) c L).
  exists (inc q (- q) c L), (inc ((q + - q) / L) ((- q - q) / L) c L), (inc (2 * - q / L ^ 2) (-2 * q / L ^ 2) c L), (inc (2 * (- q - q) / L ^ 3) (-2 * (q + - q) / L ^ 3) c L), (inc (-4 * q / L ^ 4) (-4 * - q / L ^ 4) c L).
  split; [apply dec_derivs; lra|]. split; [apply inc_derivs; lra|]. unfold point_load_static_defl_shape_function. repeat (match goal with |- _ /\ _ => split end).
  - intros x Hx. rewrite Rabs_right by lra. unfold dec. ring.
  - intros x Hx. rewrite Rabs_left1 by lra. unfold inc. replace (- - (x - c) / L) with ((x - c) / L) by (field; lra). replace (- (x - c) / L) with (- ((x - c) / L)) by (field; lra). rewrite cos_neg, sin_neg. ring.
  - intros x. unfold dec. rewrite EE. field. lra.
  - intros x. unfold inc. rewrite EE. field. lra.
  - rewrite !(proj1 (at_c _ _ _ _)), !(proj2 (at_c _ _ _ _)). reflexivity.
  - rewrite !(proj1 (at_c _ _ _ _)), !(proj2 (at_c _ _ _ _)). field. lra.
  - rewrite !(proj1 (at_c _ _ _ _)), !(proj2 (at_c _ _ _ _)). field. lra.
  - rewrite !(proj1 (at_c _ _ _ _)), !(proj2 (at_c _ _ _ _)). rewrite EE. unfold q. field. lra.
Qed.
Lemma cs_bound s : 0 <= s -> Rabs (exp (- s) * (cos s + sin s)) <= 1.
Proof.
  intros H. rewrite Rabs_mult, (Rabs_right (exp (- s))) by (apply Rle_ge, Rlt_le, exp_pos). assert (E := exp_ineq1_le s). assert (P := exp_pos (- s)). assert (X : exp s * exp (- s) = 1) by (rewrite <- exp_plus, Rplus_opp_r; apply exp_0).
  assert (S : Rabs (sin s) <= s). { destruct (Req_dec s 0) as [->|N]; [rewrite sin_0, Rabs_R0; lra|]. destruct (Rle_dec 1 s) as [G|G]; [assert (B := SIN_bound s); apply Rabs_le; lra|]. assert (B1 := sin_lt_x s ltac:(lra)). assert (B2 := sin_ge_0 s ltac:(lra) ltac:(assert (Z := PI_4); assert (Z2 := PI2_3_2); lra)). rewrite Rabs_right; lra. }
  assert (C : Rabs (cos s) <= 1) by (apply Rabs_le; apply COS_bound). assert (T := Rabs_triang (cos s) (sin s)). apply Rle_trans with (exp (- s) * exp s); [apply Rmult_le_compat_l; lra|]. rewrite Rmult_comm, X. lra.
Qed.
(** largest under the load, the same on both sides *)
Theorem C148_shape x L : 0 < L -> static_point_load_shape 0 L = 1 /\ Rabs (static_point_load_shape x L) <= 1 /\ static_point_load_shape (- x) L = static_point_load_shape x L.
Proof.
  intros HL. unfold static_point_load_shape. rewrite Rabs_Ropp. repeat (match goal with |- _ /\ _ => split end); auto.
  - rewrite Rabs_R0. replace (- 0 / L) with 0 by (field; lra). replace (0 / L) with 0 by (field; lra). rewrite exp_0, cos_0, sin_0. ring.
  - replace (- Rabs x / L) with (- (Rabs x / L)) by (field; lra). apply cs_bound. apply Rmult_le_pos; [apply Rabs_pos|left; apply Rinv_0_lt_compat; auto].
Qed.
Theorem C148_decays L c : 0 < L -> decays (fun x => point_load_static_defl_shape_function x L c).
Proof.
  intros HL. assert (B : forall x, Rabs (point_load_static_defl_shape_function x L c) <= 2 * exp (- (/ L * Rabs (x - c)))).
  { intros x. unfold point_load_static_defl_shape_function. rewrite Rabs_mult, (Rabs_right (exp _)) by (apply Rle_ge, Rlt_le, exp_pos). replace (- Rabs (x - c) / L) with (- (/ L * Rabs (x - c))) by (field; lra). rewrite Rmult_comm. apply Rmult_le_compat_r; [apply Rlt_le, exp_pos|].
    set (y := Rabs (x - c) / L). eapply Rle_trans; [apply Rabs_triang|]. assert (C := COS_bound y). assert (S := SIN_bound y). assert (Rabs (cos y) <= 1) by (apply Rabs_le; lra). assert (Rabs (sin y) <= 1) by (apply Rabs_le; lra). lra. }
  assert (IL : 0 < / L) by (apply Rinv_0_lt_compat; auto).
  assert (LP : is_lim (fun x => 2 * exp (- (/ L * (x - c)))) p_infty 0).
  { assert (Z : is_lim (fun x => exp (- (/ L * (x - c)))) p_infty 0); [|apply (is_lim_scal_l _ 2) in Z; cbn in Z; rewrite Rmult_0_r in Z; exact Z]. apply (is_lim_comp exp (fun x => - (/ L * (x - c))) p_infty 0 m_infty); [apply is_lim_exp_m| |exists 0; intros; discriminate].
    apply (is_lim_ext (fun x => (- / L) * x + / L * c)); [intros; ring|]. replace m_infty with (Rbar_plus m_infty (/ L * c)) by reflexivity. apply is_lim_plus with m_infty (/ L * c); [|apply is_lim_const|reflexivity].
    replace m_infty with (Rbar_mult (- / L) p_infty); [apply is_lim_scal_l, is_lim_id|]. cbn. destruct (Rle_dec 0 (- / L)) as [A|A]; [exfalso; clear - A IL; apply (Rlt_not_le _ _ IL); apply Ropp_le_cancel; rewrite Ropp_0; exact A|reflexivity]. }
  split.
  - apply (is_lim_le_le_loc (fun x => - (2 * exp (- (/ L * (x - c))))) (fun x => 2 * exp (- (/ L * (x - c))))); [|apply (is_lim_opp _ p_infty 0) in LP; cbn in LP; rewrite Ropp_0 in LP; exact LP|exact LP].
    exists c. intros x Hx. specialize (B x). rewrite (Rabs_right (x - c)) in B by lra. apply Rabs_le_between in B. lra.
  - assert (LM : is_lim (fun x => 2 * exp (- (/ L * (c - x)))) m_infty 0).
    { apply (is_lim_ext (fun x => (fun y => 2 * exp (- (/ L * (y - c)))) (- x + 2 * c))); [intros x; cbv beta; do 2 f_equal; ring|]. apply (is_lim_comp (fun y => 2 * exp (- (/ L * (y - c)))) (fun x => - x + 2 * c) m_infty 0 p_infty); [exact LP| |exists 0; intros; discriminate].
      replace p_infty with (Rbar_plus p_infty (2 * c)) by reflexivity. apply is_lim_plus with p_infty (2 * c); [|apply is_lim_const|reflexivity]. apply (is_lim_opp (fun x => x) m_infty m_infty). apply is_lim_id. }
    apply (is_lim_le_le_loc (fun x => - (2 * exp (- (/ L * (c - x))))) (fun x => 2 * exp (- (/ L * (c - x))))); [|apply (is_lim_opp _ m_infty 0) in LM; cbn in LM; rewrite Ropp_0 in LM; exact LM|exact LM].
    exists c. intros x Hx. specialize (B x). rewrite (Rabs_left (x - c)) in B by lra. replace (- (x - c)) with (c - x) in B by ring. apply Rabs_le_between in B. lra.
Qed.
(** several loads: the sum; at n evenly spaced points including both ends *)
Fixpoint load_sum (xc frel : list R) (L x : R) : R := match xc, frel with c :: xc, f :: frel => f * static_point_load_shape (x - c) L + load_sum xc frel L x | _, _ => 0 end.
Lemma fold_loads l L x : forall a, fold_left (fun w p => w + snd p * point_load_static_defl_shape_function x L (fst p)) l a = a + fold_right (fun (p : R * R) r => snd p * static_point_load_shape (x - fst p) L + r) 0 l.
Proof. induction l as [|p l IH]; intros a; cbn [fold_left fold_right]; [ring|]. rewrite IH, shape_shift. ring. Qed.
Theorem C148_superposition xc frel ws a b n L : let '(x, w) := multi_static xc frel ws (a, b) n L in
  length x = n /\ length w = n /\ (forall k, (k < n)%nat -> nth k w 0 = ws * load_sum xc frel L (nth k x 0)) /\
  ((2 <= n)%nat -> nth 0 x 0 = a /\ nth (n - 1) x 0 = b /\ forall k, (S k < n)%nat -> nth (S k) x 0 - nth k x 0 = (b - a) / INR (n - 1)).
Proof.
  unfold multi_static. cbn [fst snd]. set (x := linspace a b n). assert (LX : length x = n) by (unfold x, linspace; rewrite map_length, seq_length; reflexivity).
  split; auto. split; [rewrite map_length; auto|]. split.
  - intros k Hk. set (f := fun x0 : R => _). rewrite (nth_indep _ 0 (f 0)) by (rewrite map_length; lia). rewrite map_nth. unfold f. rewrite fold_loads. rewrite Rplus_0_l, Rmult_comm. f_equal. generalize (nth k x 0) as y. intros y. clear. revert frel. induction xc as [|c xc IH]; intros [|g frel]; try reflexivity. cbn [combine fold_right load_sum fst snd]. rewrite IH. reflexivity.
  - intros H2. assert (E : forall k, (k < n)%nat -> nth k x 0 = a + INR k * ((b - a) / (INR n - 1))).
    { intros k Hk. unfold x, linspace. destruct n as [|[|n]]; try lia. set (f := fun k0 : nat => _). rewrite (nth_indep _ 0 (f 0%nat)) by (rewrite map_length, seq_length; lia). rewrite map_nth, seq_nth by lia. reflexivity. }
    assert (N1 : INR (n - 1) = INR n - 1) by (rewrite minus_INR by lia; cbn; ring). assert (NZ : INR n - 1 <> 0) by (apply le_INR in H2; cbn in H2; lra).
    split; [rewrite E by lia; cbn; ring|]. split; [rewrite E by lia; rewrite N1; field; auto|]. intros k Hk. rewrite !E by lia. rewrite N1, S_INR. field. auto.
Qed.
Example C148_witness : point_loaded 4 1 16 3 (fun x => 16 / (2 * 1 * 2) * point_load_static_defl_shape_function x 2 3) /\ snd (multi_static [0; 0] [1; 2] 5 (0, 1) 2 1) <> [].
Proof. split; [apply C148_point_load; lra|]. cbn. discriminate. Qed.

(** *** C150 *)
Lemma tanh_exp x : tanh x = (exp x - exp (- x)) / (exp x + exp (- x)).
Proof. unfold tanh, sinh, cosh. assert (P := exp_pos x). assert (P2 := exp_pos (- x)). field. lra. Qed.
Lemma tanh_exp2 x : tanh x = 1 - 2 / (exp (2 * x) + 1).
Proof. rewrite tanh_exp. assert (E : exp (2 * x) = exp x * exp x) by (rewrite <- exp_plus; f_equal; ring). rewrite exp_Ropp, E. assert (P := exp_pos x). field. split; nra. Qed.
Lemma tanh_bound x : -1 < tanh x < 1.
Proof. rewrite tanh_exp2. assert (P := exp_pos (2 * x)). assert (Q : 0 < / (exp (2 * x) + 1)) by (apply Rinv_0_lt_compat; lra). assert (I : / (exp (2 * x) + 1) < 1) by (rewrite <- Rinv_1; apply Rinv_lt_contravar; lra). unfold Rdiv. lra. Qed.
Lemma arctanh_tanh x : arctanh (tanh x) = x.
Proof.
  unfold arctanh. assert (B := tanh_bound x). rewrite tanh_exp2 in *. assert (P := exp_pos (2 * x)). replace ((1 + (1 - 2 / (exp (2 * x) + 1))) / (1 - (1 - 2 / (exp (2 * x) + 1)))) with (exp (2 * x)) by (field; lra). rewrite ln_exp. field.
Qed.
Lemma tanh_arctanh u : -1 < u < 1 -> tanh (arctanh u) = u.
Proof.
  intros H. rewrite tanh_exp2. unfold arctanh. replace (2 * (/ 2 * ln ((1 + u) / (1 - u)))) with (ln ((1 + u) / (1 - u))) by field. rewrite exp_ln by (apply Rdiv_lt_0_compat; lra). field. lra.
Qed.
Lemma tanh_incr x y : x < y -> tanh x < tanh y.
Proof. intros H. rewrite !tanh_exp2. assert (P := exp_pos (2 * x)). assert (E : exp (2 * x) < exp (2 * y)) by (apply exp_increasing; lra). assert (Q : / (exp (2 * y) + 1) < / (exp (2 * x) + 1)) by (apply Rinv_lt_contravar; [apply Rmult_lt_0_compat; lra|lra]). unfold Rdiv. lra. Qed.
(** between 0 and 1, rising for b > 0, one half at x = 1/2 *)
Theorem C150_transition a b : 0 < b -> (forall x, 0 < tanhtran x a b < 1) /\ (forall x y, x < y -> tanhtran x a b < tanhtran y a b) /\ tanhtran (/ 2) a b = / 2.
Proof.
  intros Hb. unfold tanhtran. split; [intros x; assert (B := tanh_bound ((x - / 2) / b)); lra|]. split.
  - intros x y H. assert (T : tanh ((x - / 2) / b) < tanh ((y - / 2) / b)) by (apply tanh_incr; apply Rmult_lt_compat_r; [apply Rinv_0_lt_compat; auto|lra]). lra.
  - replace ((/ 2 - / 2) / b) with 0 by (field; lra). unfold tanh. rewrite sinh_0. unfold Rdiv. ring.
Qed.
(** with a = 1/2 (only): inverse, and the smoothing factor that makes the curve pass through a point *)
Theorem C150_inverse b : b <> 0 -> (forall x, tanhtrani (tanhtran x (/ 2) b) (/ 2) b = x) /\ (forall y, 0 < y < 1 -> tanhtran (tanhtrani y (/ 2) b) (/ 2) b = y).
Proof.
  intros Hb. unfold tanhtran, tanhtrani. split.
  - intros x. replace ((/ 2 + / 2 * tanh ((x - / 2) / b) - / 2) / / 2) with (tanh ((x - / 2) / b)) by field. rewrite arctanh_tanh. field. auto.
  - intros y Hy. replace ((b * arctanh ((y - / 2) / / 2) + / 2 - / 2) / b) with (arctanh ((y - / 2) / / 2)) by (field; auto). rewrite tanh_arctanh by (unfold Rdiv; rewrite Rinv_inv; lra). field.
Qed.
Lemma arctanh_nz u : -1 < u < 1 -> u <> 0 -> arctanh u <> 0.
Proof. intros H N E. apply N. rewrite <- (tanh_arctanh u H), E. unfold tanh. rewrite sinh_0. unfold Rdiv. ring. Qed.
Theorem C150_through x y : x <> / 2 -> 0 < y < 1 -> y <> / 2 -> tanhtran x (/ 2) (tanhtranib x y (/ 2)) = y.
Proof.
  intros Hx Hy Hn. unfold tanhtran, tanhtranib. assert (B : -1 < (y - / 2) / / 2 < 1) by (unfold Rdiv; rewrite Rinv_inv; lra). assert (Z : (y - / 2) / / 2 <> 0) by (unfold Rdiv; rewrite Rinv_inv; lra).
  assert (A := arctanh_nz _ B Z). set (t := arctanh _) in *. replace ((x - / 2) / ((x - / 2) / t)) with t by (field; split; [auto|intros Q; apply Hx; lra]). unfold t. rewrite tanh_arctanh by auto. field.
Qed.
(** *** Defect: tanhtran does not use a, so for every other a the three do not fit together *)
Theorem C150_position_refuted a b : a <> / 2 -> 0 < b -> tanhtran a a b <> / 2 /\ (forall x, tanhtran x a b = tanhtran x 0 b) /\ (forall y, 0 < y < 1 -> tanhtran (tanhtrani y a b) a b <> y) /\
  forall x y, 0 < y < 1 -> y <> / 2 -> x <> a -> tanhtran x a (tanhtranib x y a) <> y.
Proof.
  intros Ha Hb. unfold tanhtran, tanhtrani, tanhtranib. assert (INJ : forall u v, tanh u = tanh v -> u = v) by (intros u v H; rewrite <- (arctanh_tanh u), H; apply arctanh_tanh).
  repeat (match goal with |- _ /\ _ => split end).
  - intros H. assert (Z : tanh ((a - / 2) / b) = tanh 0) by (rewrite (tanh_exp 0), Ropp_0; unfold Rdiv at 2; lra). apply INJ in Z. apply Ha. apply (Rmult_eq_compat_r b) in Z. unfold Rdiv in Z. rewrite Rmult_assoc, Rinv_l in Z by lra. lra.
  - reflexivity.
  - intros y Hy H. assert (B : -1 < (y - / 2) / / 2 < 1) by (unfold Rdiv; rewrite Rinv_inv; lra). assert (T := tanh_arctanh _ B). set (t := arctanh _) in *. assert (Z : tanh ((b * t + a - / 2) / b) = tanh t) by (rewrite T; unfold Rdiv at 2; rewrite Rinv_inv; lra).
    apply INJ in Z. apply Ha. apply (Rmult_eq_compat_r b) in Z. unfold Rdiv in Z. rewrite Rmult_assoc, Rinv_l in Z by lra. lra.
  - intros x y Hy Hn Hx H. assert (B : -1 < (y - / 2) / / 2 < 1) by (unfold Rdiv; rewrite Rinv_inv; lra). assert (Z0 : (y - / 2) / / 2 <> 0) by (unfold Rdiv; rewrite Rinv_inv; lra). assert (A := arctanh_nz _ B Z0). assert (T := tanh_arctanh _ B). set (t := arctanh _) in *.
    assert (Z : tanh ((x - / 2) / ((x - a) / t)) = tanh t) by (rewrite T; unfold Rdiv at 3; rewrite Rinv_inv; lra). apply INJ in Z. replace ((x - / 2) / ((x - a) / t)) with ((x - / 2) / (x - a) * t) in Z by (field; split; [auto|intros Q; apply Hx; lra]).
    assert (Z2 : (x - / 2) / (x - a) = 1) by (apply (Rmult_eq_reg_r t); [lra|auto]). apply Ha. apply (Rmult_eq_compat_r (x - a)) in Z2. unfold Rdiv in Z2. rewrite Rmult_assoc, Rinv_l in Z2 by (intros Q; apply Hx; lra). lra.
Qed.
