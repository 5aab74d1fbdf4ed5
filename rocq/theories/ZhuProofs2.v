(** * Shapes of a layer: orthogonality, best approximation *)
From Coq Require Import Reals List Arith ZArith Bool Lia Lra.
From Coquelicot Require Import Coquelicot.
From Verif Require Import Base SpecZhu TerzaghiProofs.
Import ListNotations.
Open Scope R_scope.

(** The best multiple of the shape, as an approximation of the uniform ui. *)
Definition projection (L : layer) (ui a : R) (m : mode) : Prop := exists n d,
  weighted L (shape m) n /\ weighted L (fun z => (shape m z)^2) d /\ 0 < d /\ a = ui * (n / d).

Section Ortho.
Variable L : layer.
Hypothesis Hd : 0 < depth L.
Hypothesis Hk : forall z, inside L z -> 0 < cond L z.
Hypothesis Hm : forall z, inside L z -> 0 < comp L z /\ continuous (comp L) z.
Definition smooth (f : R -> R) : Prop := forall z, inside L z -> continuous f z.
Definition integral (f : R -> R) : R := RInt (fun z => comp L z * f z) 0 (depth L).
Lemma bounds z : Rmin 0 (depth L) <= z <= Rmax 0 (depth L) -> inside L z.
Proof. rewrite Rmin_left, Rmax_right by lra. auto. Qed.
Lemma smooth_mult f g : smooth f -> smooth g -> smooth (fun z => f z * g z).
Proof. intros Hf Hg z Hz. apply (continuous_mult (K := R_AbsRing)); [apply Hf|apply Hg]; auto. Qed.
Lemma smooth_lin f g c d : smooth f -> smooth g -> smooth (fun z => c * f z + d * g z).
Proof.
  intros Hf Hg z Hz. apply (continuous_plus (V := R_NormedModule) (fun z => c * f z) (fun z => d * g z)).
  - apply (continuous_scal_r (V := R_NormedModule) c f). apply Hf; auto.
  - apply (continuous_scal_r (V := R_NormedModule) d g). apply Hg; auto.
Qed.
Lemma smooth_const c : smooth (fun _ => c). Proof. intros z _. apply continuous_const. Qed.
Lemma smooth_ext f g : (forall z, f z = g z) -> smooth f -> smooth g.
Proof. intros E Hf z Hz. apply (continuous_ext f); auto. Qed.
Lemma smooth_comp : smooth (comp L). Proof. intros z Hz. apply Hm; auto. Qed.
Lemma smooth_int f : smooth f -> weighted L f (integral f).
Proof.
  intros Hf. apply (RInt_correct (V := R_CompleteNormedModule)). apply (ex_RInt_continuous (V := R_CompleteNormedModule)). intros z Hz. apply bounds in Hz.
  apply (smooth_mult (comp L) f); auto. apply smooth_comp.
Qed.
Lemma weighted_integral f v : smooth f -> weighted L f v <-> v = integral f.
Proof. intros Hf. split; [intros W; symmetry; apply (is_RInt_unique (V := R_CompleteNormedModule)); exact W|intros ->; apply smooth_int; auto]. Qed.
Lemma integral_lin f g c d : smooth f -> smooth g -> integral (fun z => c * f z + d * g z) = c * integral f + d * integral g.
Proof.
  intros Hf Hg. apply (is_RInt_unique (V := R_CompleteNormedModule)). apply (is_RInt_ext (fun z => plus (scal c (comp L z * f z)) (scal d (comp L z * g z)))).
  { intros z _. unfold plus, scal, mult. cbn. unfold mult. cbn. match goal with |- ?u = ?v => change (@eq R u v) end. ring. }
  apply (is_RInt_plus (V := R_NormedModule)); apply (is_RInt_scal (V := R_NormedModule)); apply smooth_int; auto.
Qed.
Lemma integral_ext f g : (forall z, f z = g z) -> integral f = integral g.
Proof. intros E. apply (RInt_ext (V := R_CompleteNormedModule)). intros z _. rewrite E. auto. Qed.
Lemma integral_nonneg f : smooth f -> (forall z, 0 <= f z) -> 0 <= integral f.
Proof.
  intros Hf Hp. apply RInt_ge_0; [lra|eexists; apply smooth_int; auto|]. intros z Hz. apply Rmult_le_pos; [|apply Hp]. apply Rlt_le, Hm. split; lra.
Qed.
Lemma mode_smooth m : mode_equation L m -> smooth (shape m).
Proof. intros E z Hz. destruct (E z Hz) as [D _]. apply (ex_derive_continuous (V := R_NormedModule) _ _ (ex_intro _ _ D)). Qed.

Variable drn : Z.
Hypothesis Hdrn : (drn = 0 \/ drn = 1)%Z.
Definition full (m : mode) : Prop := mode_equation L m /\ drained_top m /\ bottom L drn m.

Lemma wronskian_der m l z : mode_equation L m -> mode_equation L l -> inside L z ->
  is_derive (fun z => shape m z * flow l z - flow m z * shape l z) z ((rate m - rate l) * (comp L z * (shape m z * shape l z))).
Proof.
  intros E1 E2 Hz. destruct (E1 z Hz) as [D1 D2]. destruct (E2 z Hz) as [D3 D4]. pose proof (Hk z Hz) as K.
  assert (X1 : ex_derive (shape m) z) by (eexists; eauto). assert (X2 : ex_derive (flow m) z) by (eexists; eauto). assert (X3 : ex_derive (shape l) z) by (eexists; eauto). assert (X4 : ex_derive (flow l) z) by (eexists; eauto).
  auto_derive; [auto|]. change (fun x : R => shape m x) with (shape m). change (fun x : R => flow m x) with (flow m). change (fun x : R => shape l x) with (shape l). change (fun x : R => flow l x) with (flow l). rewrite (is_derive_unique _ _ _ D1), (is_derive_unique _ _ _ D2), (is_derive_unique _ _ _ D3), (is_derive_unique _ _ _ D4). field. lra.
Qed.
Lemma orthogonal m l : full m -> full l -> rate m <> rate l -> integral (fun z => shape m z * shape l z) = 0.
Proof.
  intros (E1 & T1 & B1) (E2 & T2 & B2) Hne.
  set (W := fun z => shape m z * flow l z - flow m z * shape l z).
  assert (SS : smooth (fun z => shape m z * shape l z)) by (apply smooth_mult; apply mode_smooth; auto).
  assert (I1 : is_RInt (fun z => (rate m - rate l) * (comp L z * (shape m z * shape l z))) 0 (depth L) ((rate m - rate l) * integral (fun z => shape m z * shape l z))).
  { apply (is_RInt_scal (V := R_NormedModule) (fun z => comp L z * (shape m z * shape l z))). apply smooth_int; auto. }
  assert (I2 : is_RInt (fun z => (rate m - rate l) * (comp L z * (shape m z * shape l z))) 0 (depth L) (minus (W (depth L)) (W 0))).
  { apply (is_RInt_derive W).
    - intros z Hz. apply wronskian_der; auto. apply bounds; auto.
    - intros z Hz. apply bounds in Hz. apply (continuous_scal_r (V := R_NormedModule) (rate m - rate l) (fun z => comp L z * (shape m z * shape l z))). apply (smooth_mult (comp L) (fun z => shape m z * shape l z)); auto. apply smooth_comp. }
  pose proof (is_RInt_unique (V := R_CompleteNormedModule) _ _ _ _ I1) as U1. pose proof (is_RInt_unique (V := R_CompleteNormedModule) _ _ _ _ I2) as U2. rewrite U1 in U2.
  assert (Z1 : W 0 = 0). { unfold W. unfold drained_top in *. rewrite T1, T2. ring. }
  assert (Z2 : W (depth L) = 0). { unfold W. destruct Hdrn as [e|e]; rewrite (proj1 B1 e), (proj1 B2 e) || rewrite (proj2 B1 e), (proj2 B2 e); ring. }
  change ((rate m - rate l) * integral (fun z => shape m z * shape l z) = W (depth L) - W 0) in U2. rewrite Z1, Z2, Rminus_0_r in U2. apply Rmult_integral in U2. destruct U2; [lra|auto].
Qed.

Lemma comb_smooth a ms : (forall m, In m ms -> mode_equation L m) -> smooth (combination a ms).
Proof.
  revert a. induction ms as [|m ms IH]; intros a E; destruct a as [|x a].
  1,2,3: apply (smooth_ext (fun _ => 0)); [reflexivity|apply smooth_const].
  unfold combination in *. cbn [combine map fold_right fst snd].
  intros z Hz. apply (continuous_plus (V := R_NormedModule) (fun z => x * shape m z)).
  - apply (continuous_scal_r (V := R_NormedModule) x (shape m)). apply mode_smooth; auto. apply E. left; auto.
  - apply (IH a); auto. intros; apply E; right; auto.
Qed.
Definition tot {T} (l : list T) (f : T -> R) : R := fold_right Rplus 0 (map f l).
Lemma integral_comb a ms g : (forall m, In m ms -> mode_equation L m) -> smooth g -> integral (fun z => combination a ms z * g z) = tot (combine a ms) (fun p => fst p * integral (fun z => shape (snd p) z * g z)).
Proof.
  intros E Hg. revert a E. induction ms as [|m ms IH]; intros a E; destruct a as [|x a].
  1,2,3: cbn [combine]; unfold tot; cbn [map fold_right combine]; rewrite (integral_ext _ (fun z => 0 * g z + 0 * g z)) by (intros; unfold combination; cbn; ring); rewrite integral_lin by auto; ring.
  unfold tot in *. cbn [combine map fold_right fst snd]. rewrite <- IH by (intros; apply E; right; auto).
  rewrite (integral_ext _ (fun z => x * (shape m z * g z) + 1 * (combination a ms z * g z))) by (intros; unfold combination; cbn [combine map fold_right fst snd]; ring).
  rewrite integral_lin; [ring| |].
  - apply smooth_mult; auto. apply mode_smooth, E. left; auto.
  - apply smooth_mult; auto. apply comb_smooth. intros; apply E; right; auto.
Qed.
Lemma comb_minus a c ms z : length a = length ms -> length c = length ms -> combination a ms z - combination c ms z = combination (map (fun p => fst p - snd p) (combine a c)) ms z.
Proof.
  revert a c. induction ms as [|m ms IH]; intros [|x a] [|y c] L1 L2; try discriminate; [unfold combination; cbn; ring|].
  cbn in L1, L2. unfold combination in *. cbn [combine map fold_right fst snd]. rewrite <- IH by lia. ring.
Qed.
Lemma tot_scal {T} (l : list T) c f : tot l (fun x => c * f x) = c * tot l f.
Proof. unfold tot. induction l as [|x l IH]; cbn; [ring|]. rewrite IH. ring. Qed.

Variable ui : R.
Lemma misfit_orthogonal A ms : Forall2 (projection L ui) A ms -> (forall m, In m ms -> full m) -> NoDup (map rate ms) ->
  forall m, In m ms -> integral (fun z => shape m z * (ui - combination A ms z)) = 0.
Proof.
  intros HP Hf Hn m Hin. assert (Em : forall m, In m ms -> mode_equation L m) by (intros l Hi; apply Hf; auto).
  assert (SA : smooth (combination A ms)) by (apply comb_smooth; auto). assert (Sm : smooth (shape m)) by (apply mode_smooth, Em; auto).
  rewrite (integral_ext _ (fun z => ui * shape m z + (-1) * (combination A ms z * shape m z))) by (intros; ring).
  rewrite integral_lin by (auto; apply smooth_mult; auto). rewrite integral_comb by auto.
  assert (X : tot (combine A ms) (fun p => fst p * integral (fun z => shape (snd p) z * shape m z)) = ui * integral (shape m)); [|rewrite X; ring].
  clear SA Em. induction HP as [|a l A ms P HP IH]; [destruct Hin|]. cbn [combine]. unfold tot in *. cbn [map fold_right fst snd]. cbn [map] in Hn. inversion Hn as [|? ? N1 N2]; subst.
  destruct Hin as [->|Hin].
  - assert (Z : fold_right Rplus 0 (map (fun p => fst p * integral (fun z => shape (snd p) z * shape m z)) (combine A ms)) = 0).
    { assert (Hl : forall l, In l ms -> full l /\ rate l <> rate m) by (intros l Hl; split; [apply Hf; right; auto|intros e; apply N1; rewrite <- e; apply in_map; auto]).
      assert (Fm : full m) by (apply Hf; left; auto).
      clear - Hl Fm Hd Hk Hm Hdrn. revert A. induction ms as [|l ms IH]; intros [|a A]; try reflexivity. cbn [combine map fold_right fst snd]. rewrite IH by (intros; apply Hl; right; auto). destruct (Hl l (or_introl eq_refl)) as [F1 F2]. rewrite (orthogonal l m) by auto. ring. }
    rewrite Z. destruct P as (n & d & I1 & I2 & Dp & ->). apply weighted_integral in I1; auto. apply weighted_integral in I2; [|apply (smooth_ext (fun z => shape m z * shape m z)); [intros; ring|apply smooth_mult; auto]].
    rewrite (integral_ext (fun z => shape m z * shape m z) (fun z => (shape m z)^2)) by (intros; ring). rewrite <- I1, <- I2. field. lra.
  - rewrite IH; auto; [|intros; apply Hf; right; auto]. rewrite (orthogonal l m); [ring|apply Hf; left; auto|apply Hf; right; auto|]. intros e. apply N1. rewrite e. apply in_map; auto.
Qed.
Lemma best A ms a : Forall2 (projection L ui) A ms -> (forall m, In m ms -> full m) -> NoDup (map rate ms) -> length a = length ms ->
  integral (fun z => (ui - combination A ms z)^2) <= integral (fun z => (ui - combination a ms z)^2).
Proof.
  intros HP Hf Hn La. assert (Em : forall m, In m ms -> mode_equation L m) by (intros m Hi; apply Hf; auto).
  assert (LA : length A = length ms) by (clear - HP; induction HP; cbn; auto).
  set (FA := combination A ms). set (Fa := combination a ms).
  assert (SA : smooth FA) by (apply comb_smooth; auto). assert (Sa : smooth Fa) by (apply comb_smooth; auto).
  set (D := fun z => FA z - Fa z). set (dl := map (fun p => fst p - snd p) (combine A a)).
  assert (ED : forall z, D z = combination dl ms z) by (intros z; apply comb_minus; auto).
  assert (SD : smooth D) by (apply (smooth_ext (combination dl ms)); [intros; symmetry; apply ED|apply comb_smooth; auto]).
  assert (S1 : smooth (fun z => ui - FA z)) by (apply (smooth_ext (fun z => 1 * ui + (-1) * FA z)); [intros; ring|apply (smooth_lin (fun _ => ui)); auto; apply smooth_const]).
  assert (Cross : integral (fun z => D z * (ui - FA z)) = 0).
  { rewrite (integral_ext _ (fun z => combination dl ms z * (ui - FA z))) by (intros; rewrite ED; auto). rewrite integral_comb by auto.
    unfold tot. transitivity (fold_right Rplus 0 (map (fun _ : R * mode => 0) (combine dl ms))).
    - f_equal. apply map_ext_in. intros [x m] Hin. cbn [fst snd]. unfold FA. rewrite misfit_orthogonal; auto; [ring|]. apply in_combine_r in Hin. auto.
    - clear. induction (combine dl ms); cbn; [auto|lra]. }
  rewrite (integral_ext (fun z => (ui - Fa z)^2) (fun z => 1 * ((ui - FA z) * (ui - FA z)) + 1 * (2 * (D z * (ui - FA z)) + 1 * (D z * D z)))) by (intros; unfold D; ring).
  rewrite (integral_ext (fun z => (ui - FA z)^2) (fun z => (ui - FA z) * (ui - FA z))) by (intros; ring).
  rewrite integral_lin; [|apply smooth_mult; auto|apply smooth_lin; apply smooth_mult; auto]. rewrite integral_lin by (apply smooth_mult; auto). rewrite Cross.
  assert (0 <= integral (fun z => D z * D z)); [|lra]. apply integral_nonneg; [apply smooth_mult; auto|]. intros z. pose proof (Rle_0_sqr (D z)) as Q. exact Q.
Qed.

(** A shape drained at the top that is zero everywhere has no flow anywhere. *)
Lemma const_der F f a b : a < b -> (forall x, a <= x <= b -> is_derive F x (f x)) -> (forall x, a <= x <= b -> 0 <= f x) -> F b <= F a -> forall x, a < x < b -> f x = 0.
Proof.
  intros Hab D P E x Hx.
  assert (M : forall u v, a <= u <= v -> v <= b -> F u <= F v).
  { intros u v [U1 U2] V. destruct (MVT_gen F u v f) as (w & W & Q).
    - intros w Hw. rewrite Rmin_left, Rmax_right in Hw by lra. apply D. lra.
    - intros w Hw. rewrite Rmin_left, Rmax_right in Hw by lra. apply continuity_pt_filterlim. apply (ex_derive_continuous (V := R_NormedModule) F w (ex_intro _ _ (D w ltac:(lra)))).
    - rewrite Rmin_left, Rmax_right in W by lra. assert (0 <= f w * (v - u)) by (apply Rmult_le_pos; [apply P; lra|lra]). lra. }
  assert (Q : forall y, a <= y <= b -> F y = F a) by (intros y Hy; pose proof (M a y); pose proof (M y b); lra).
  assert (D0 : is_derive F x 0).
  { apply (is_derive_ext_loc (fun _ => F a)); [|apply (is_derive_const (V := R_NormedModule))].
    assert (P0 : 0 < Rmin (x - a) (b - x)) by (apply Rmin_pos; lra). exists (mkposreal _ P0). intros y Hy. unfold ball in Hy. cbn in Hy. unfold AbsRing_ball in Hy. cbn in Hy. unfold abs, minus, plus, opp in Hy. cbn in Hy.
    pose proof (Rmin_l (x - a) (b - x)). pose proof (Rmin_r (x - a) (b - x)). apply Rabs_def2 in Hy. symmetry. apply Q. lra. }
  apply (is_derive_unique) in D0. rewrite <- D0. symmetry. apply is_derive_unique. apply D. lra.
Qed.
Lemma no_flow m : mode_equation L m -> (forall z, 0 < z < depth L -> shape m z = 0) -> forall z, inside L z -> flow m z = 0.
Proof.
  intros E Z.
  assert (In0 : forall z, 0 < z < depth L -> flow m z = 0).
  { intros z Hz. assert (I : inside L z) by (split; lra). destruct (E z I) as [D _].
    assert (D0 : is_derive (shape m) z 0).
    { apply (is_derive_ext_loc (fun _ => 0)); [|apply (is_derive_const (V := R_NormedModule))].
      assert (P0 : 0 < Rmin z (depth L - z)) by (apply Rmin_pos; lra). exists (mkposreal _ P0). intros y Hy. unfold ball in Hy. cbn in Hy. unfold AbsRing_ball in Hy. cbn in Hy. unfold abs, minus, plus, opp in Hy. cbn in Hy.
      pose proof (Rmin_l z (depth L - z)). pose proof (Rmin_r z (depth L - z)). apply Rabs_def2 in Hy. symmetry. apply Z. lra. }
    apply is_derive_unique in D0. apply is_derive_unique in D. rewrite D0 in D. pose proof (Hk z I) as K.
    assert (Q : flow m z = flow m z / cond L z * cond L z) by (field; lra). rewrite <- D in Q. lra. }
  (* by the mean value theorem the flow has zero slope inside, so it is the same at the ends *)
  assert (Same : forall z, 0 <= z <= depth L -> flow m z = flow m (depth L / 2)).
  { intros z Hz. destruct (MVT_gen (flow m) (depth L / 2) z (fun y => - rate m * comp L y * shape m y)) as (w & W & Q).
    - intros w Hw. apply E. split; [apply Rle_trans with (Rmin (depth L / 2) z); [apply Rmin_glb; lra|lra]|apply Rle_trans with (Rmax (depth L / 2) z); [lra|apply Rmax_lub; lra]].
    - intros w Hw. apply continuity_pt_filterlim. assert (I : inside L w) by (split; [apply Rle_trans with (Rmin (depth L / 2) z); [apply Rmin_glb; lra|lra]|apply Rle_trans with (Rmax (depth L / 2) z); [lra|apply Rmax_lub; lra]]). destruct (E w I) as [_ D]. apply (ex_derive_continuous (V := R_NormedModule) (flow m) w (ex_intro _ _ D)).
    - assert (Iw : inside L w) by (split; [apply Rle_trans with (Rmin (depth L / 2) z); [apply Rmin_glb; lra|lra]|apply Rle_trans with (Rmax (depth L / 2) z); [lra|apply Rmax_lub; lra]]).
      assert (Sw : shape m w = 0).
      { destruct (Req_dec w 0) as [e|N0]; [|destruct (Req_dec w (depth L)) as [e|N1]; [|apply Z; destruct Iw; lra]].
        all: apply Rle_antisym; apply Rnot_lt_le; intros Neg.
        all: assert (Cw : continuous (shape m) w) by (apply mode_smooth; auto).
        all: pose proof (Rabs_pos_lt (shape m w)) as Pw; assert (Pw' : 0 < Rabs (shape m w)) by (apply Pw; lra).
        all: apply continuity_pt_filterlim in Cw; destruct (Cw (Rabs (shape m w)) Pw') as (d & Pd & Hd').
        1,2: set (y := Rmin (d / 2) (depth L / 2)); assert (Py : 0 < y) by (apply Rmin_pos; lra); assert (Y1 : y <= d / 2) by apply Rmin_l; assert (Y2 : y <= depth L / 2) by apply Rmin_r.
        3,4: set (y0 := Rmin (d / 2) (depth L / 2)); assert (Py : 0 < y0) by (apply Rmin_pos; lra); assert (Y1 : y0 <= d / 2) by apply Rmin_l; assert (Y2 : y0 <= depth L / 2) by apply Rmin_r; set (y := depth L - y0).
        all: specialize (Hd' y); unfold R_dist, D_x, no_cond in Hd'; cbn in Hd'; unfold R_dist in Hd'; rewrite (Z y) in Hd' by first [lra|unfold y; lra]; rewrite Rminus_0_l, Rabs_Ropp in Hd'; apply (Rlt_irrefl (Rabs (shape m w))), Hd'; split; [split; [exact I|first [lra|unfold y; lra]]|first [rewrite e; apply Rabs_def1; lra|unfold y; rewrite e; apply Rabs_def1; lra]]. }
      rewrite Sw in Q. lra. }
  intros z Hz. rewrite (Same z Hz). apply In0. lra.
Qed.
End Ortho.
