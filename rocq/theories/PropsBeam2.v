(** * C151: reverse_curve_transition *)
From Coq Require Import Reals List Arith ZArith Bool Lia Lra.
From Coquelicot Require Import Coquelicot.
From Verif Require Import Base BeamModel.
Import ListNotations.
Local Open Scope R_scope.

(** (x, y) lies on the circle about (cx, cy) with radius r *)
Definition on_circle (cx cy r x y : R) : Prop := (x - cx) ^ 2 + (y - cy) ^ 2 = r ^ 2.
Definition radius (w h : R) : R := (w ^ 2 + h ^ 2) / (4 * h).
Lemma radius_eq w h : 0 < w -> 0 < h -> w / (2 * sin (2 * atan (h / w))) = radius w h.
Proof.
  intros Hw Hh. rewrite sin_2a. set (u := h / w). assert (Hu : 0 < u) by (apply Rdiv_lt_0_compat; auto).
  assert (S : sin (atan u) = u / sqrt (1 + u²)) by apply sin_atan. assert (C : cos (atan u) = 1 / sqrt (1 + u²)) by apply cos_atan. rewrite S, C. assert (Q : 0 < 1 + u²) by (assert (Z := Rle_0_sqr u); lra).
  replace (2 * (2 * (u / sqrt (1 + u²)) * (1 / sqrt (1 + u²)))) with (4 * u / (sqrt (1 + u²) * sqrt (1 + u²))) by (field; apply Rgt_not_eq; apply sqrt_lt_R0; auto). rewrite sqrt_sqrt by lra. unfold radius, u, Rsqr. field. repeat split; nra.
Qed.
(** the curve left to right: from (xa, ya) to (xb, yb) *)
Definition curve (xa ya xb yb x : R) : R :=
  let r := radius (xb - xa) (Rabs (yb - ya)) in
  if Rleb xb x then yb else if Rleb x xa then ya else
  if Rltb yb ya then (if Rltb x ((xb + xa) / 2) then sqrt (r ^ 2 - (x - xa) ^ 2) + ya - r else - sqrt (r ^ 2 - (x - xb) ^ 2) + yb + r)
  else (if Rltb x ((xb + xa) / 2) then - sqrt (r ^ 2 - (x - xa) ^ 2) + ya + r else sqrt (r ^ 2 - (x - xb) ^ 2) + yb - r).
Lemma rct_curve x1 y1 x2 y2 f : reverse_curve_transition x1 y1 x2 y2 = Ok f -> y1 <> y2 -> (x1 < x2 /\ forall x, f x = curve x1 y1 x2 y2 x) \/ (x2 < x1 /\ forall x, f x = curve x2 y2 x1 y1 x).
Proof.
  intros H Hy. unfold reverse_curve_transition in H. destruct (Reqb y1 y2) eqn:E1; [apply Reqb_true in E1; contradiction|]. destruct (Reqb x1 x2) eqn:E2; [discriminate|]. apply Reqb_false in E2. destruct (Rltb x1 x2) eqn:E3; [apply Rltb_true in E3|apply Rltb_false in E3].
  - left. split; auto. injection H as <-. intros x. unfold curve. rewrite (Rabs_right (x2 - x1)) by lra. rewrite radius_eq by (try lra; apply Rabs_pos_lt; lra). reflexivity.
  - right. assert (x2 < x1) by (destruct (Req_dec x1 x2); [contradiction|lra]). split; auto. injection H as <-. intros x. unfold curve. rewrite (Rabs_right (x1 - x2)) by lra. rewrite radius_eq by (try lra; apply Rabs_pos_lt; lra). replace (x1 + x2) with (x2 + x1) by ring. reflexivity.
Qed.
Theorem C151_errors x1 y1 x2 y2 : (y1 = y2 -> reverse_curve_transition x1 y1 x2 y2 = Ok (fun _ => y1)) /\ (y1 <> y2 -> x1 = x2 -> reverse_curve_transition x1 y1 x2 y2 = Err ValueError) /\ (x1 <> x2 -> exists f, reverse_curve_transition x1 y1 x2 y2 = Ok f).
Proof.
  unfold reverse_curve_transition. split; [intros H; apply Reqb_true in H; rewrite H; reflexivity|]. split.
  - intros H1 H2. apply Reqb_false in H1. apply Reqb_true in H2. rewrite H1, H2. reflexivity.
  - intros H. apply Reqb_false in H. rewrite H. destruct (Reqb y1 y2); [eauto|]. destruct (Rltb x1 x2); eauto.
Qed.
(** the start and the end of the curve may be given in either order *)
Theorem C151_swap x1 y1 x2 y2 f g : reverse_curve_transition x1 y1 x2 y2 = Ok f -> reverse_curve_transition x2 y2 x1 y1 = Ok g -> forall x, f x = g x.
Proof.
  intros H1 H2 x. destruct (Req_dec y1 y2) as [->|N].
  - assert (E := proj1 (C151_errors x1 y2 x2 y2) eq_refl). assert (E2 := proj1 (C151_errors x2 y2 x1 y2) eq_refl). rewrite E in H1. rewrite E2 in H2. injection H1 as <-. injection H2 as <-. reflexivity.
  - destruct (rct_curve _ _ _ _ _ H1 N) as [[A E]|[A E]]; destruct (rct_curve _ _ _ _ _ H2 (not_eq_sym N)) as [[A' E']|[A' E']]; try lra; rewrite E, E'; reflexivity.
Qed.
(** horizontal outside *)
Theorem C151_outside x1 y1 x2 y2 f : reverse_curve_transition x1 y1 x2 y2 = Ok f -> x1 < x2 -> (forall x, x <= x1 -> f x = y1) /\ (forall x, x2 <= x -> f x = y2).
Proof.
  intros H HX. destruct (Req_dec y1 y2) as [->|N].
  - assert (E := proj1 (C151_errors x1 y2 x2 y2) eq_refl). rewrite E in H. injection H as <-. split; reflexivity.
  - destruct (rct_curve _ _ _ _ _ H N) as [[_ E]|[A _]]; [|lra]. unfold curve in E. split; intros x Hx; rewrite E.
    + destruct (Rleb x2 x) eqn:E1; [apply Rleb_true in E1; lra|]. destruct (Rleb x x1) eqn:E2; auto. apply Rleb_false in E2. lra.
    + destruct (Rleb x2 x) eqn:E1; auto. apply Rleb_false in E1. lra.
Qed.
Lemma radius_ge w h : 0 < w -> 0 < h -> w / 2 <= radius w h /\ 0 < radius w h.
Proof.
  intros Hw Hh. assert (P : w / 2 <= radius w h); [|lra]. unfold radius. apply (Rmult_le_reg_r (4 * h)); [lra|]. unfold Rdiv. rewrite (Rmult_assoc _ (/ (4 * h))), Rinv_l by lra. assert (Z := pow2_ge_0 (w - h)). nra.
Qed.
(** between the ends: on two circles of the same radius, one tangent to each horizontal line *)
Theorem C151_circles x1 y1 x2 y2 f : reverse_curve_transition x1 y1 x2 y2 = Ok f -> x1 < x2 -> y1 <> y2 -> exists r, 0 < r /\
  (forall x, x1 < x < (x1 + x2) / 2 -> on_circle x1 (if Rltb y2 y1 then y1 - r else y1 + r) r x (f x)) /\
  (forall x, (x1 + x2) / 2 <= x < x2 -> on_circle x2 (if Rltb y2 y1 then y2 + r else y2 - r) r x (f x)).
Proof.
  intros H HX N. destruct (rct_curve _ _ _ _ _ H N) as [[_ E]|[A _]]; [|lra]. set (h := Rabs (y2 - y1)). assert (Hh : 0 < h) by (apply Rabs_pos_lt; lra). destruct (radius_ge (x2 - x1) h ltac:(lra) Hh) as [RG RP]. exists (radius (x2 - x1) h). split; auto.
  unfold curve in E. fold h in E. set (r := radius (x2 - x1) h) in *. unfold on_circle. split; intros x Hx; rewrite E.
  - destruct (Rleb x2 x) eqn:E1; [apply Rleb_true in E1; lra|]. destruct (Rleb x x1) eqn:E2; [apply Rleb_true in E2; lra|]. destruct (Rltb x ((x2 + x1) / 2)) eqn:E3; [|apply Rltb_false in E3; lra].
    assert (Q : 0 <= r ^ 2 - (x - x1) ^ 2) by nra. assert (S := sqrt_sqrt _ Q). destruct (Rltb y2 y1); nra.
  - destruct (Rleb x2 x) eqn:E1; [apply Rleb_true in E1; lra|]. destruct (Rleb x x1) eqn:E2; [apply Rleb_true in E2; lra|]. destruct (Rltb x ((x2 + x1) / 2)) eqn:E3; [apply Rltb_true in E3; lra|].
    assert (Q : 0 <= r ^ 2 - (x - x2) ^ 2) by nra. assert (S := sqrt_sqrt _ Q). destruct (Rltb y2 y1); nra.
Qed.
(** the value at the middle, and the limit from the left, whatever the size *)
Lemma root_mid w h : 0 < w -> 0 < h -> radius w h ^ 2 - (w / 2) ^ 2 = ((w ^ 2 - h ^ 2) / (4 * h)) ^ 2.
Proof. intros Hw Hh. unfold radius. field. lra. Qed.
Lemma sqrt_mid w h : 0 < w -> 0 < h -> sqrt (radius w h ^ 2 - (w / 2) ^ 2) = Rabs (w ^ 2 - h ^ 2) / (4 * h).
Proof. intros Hw Hh. rewrite root_mid by auto. rewrite <- Rsqr_pow2, sqrt_Rsqr_abs. rewrite Rabs_div by lra. rewrite (Rabs_right (4 * h)) by lra. reflexivity. Qed.
(** *** no higher than long: rises (or falls) from y1 to y2, continuous, half way up in the middle *)
Lemma half_up xa xb ya yb : xa < xb -> ya < yb -> yb - ya <= xb - xa -> let r := radius (xb - xa) (yb - ya) in
  - sqrt (r ^ 2 - ((xb + xa) / 2 - xa) ^ 2) + ya + r = (ya + yb) / 2 /\ sqrt (r ^ 2 - ((xb + xa) / 2 - xb) ^ 2) + yb - r = (ya + yb) / 2.
Proof.
  intros H1 H2 H3 r. set (w := xb - xa) in *. set (h := yb - ya) in *. assert (S := sqrt_mid w h ltac:(unfold w; lra) ltac:(unfold h; lra)). fold r in S. rewrite Rabs_right in S by (apply Rle_ge; replace (w ^ 2 - h ^ 2) with ((w - h) * (w + h)) by ring; apply Rmult_le_pos; unfold w, h in *; lra).
  replace ((xb + xa) / 2 - xa) with (w / 2) by (unfold w; field). replace ((xb + xa) / 2 - xb) with (- (w / 2)) by (unfold w; field). replace ((- (w / 2)) ^ 2) with ((w / 2) ^ 2) by ring. rewrite S. assert (RH : r - (w ^ 2 - h ^ 2) / (4 * h) = h / 2) by (unfold r, radius; field; unfold h; lra).
  unfold h in RH at 2 3. fold h in RH. split; unfold h in *; lra.
Qed.
Lemma sqrt_le_mono a b : 0 <= a <= b -> sqrt a <= sqrt b. Proof. intros H. apply sqrt_le_1; lra. Qed.
Definition up (xa ya xb yb x : R) : Prop := ya <= curve xa ya xb yb x <= yb.
Lemma rising xa ya xb yb : xa < xb -> ya < yb -> yb - ya <= xb - xa -> forall x x', x <= x' -> curve xa ya xb yb x <= curve xa ya xb yb x'.
Proof.
  intros H1 H2 H3. destruct (half_up xa xb ya yb H1 H2 H3) as [M1 M2]. destruct (radius_ge (xb - xa) (yb - ya) ltac:(lra) ltac:(lra)) as [RG RP]. assert (AB : Rabs (yb - ya) = yb - ya) by (apply Rabs_right; lra). set (r := radius (xb - xa) (yb - ya)) in *.
  assert (LT : Rltb yb ya = false) by (apply Rltb_false; lra).
  assert (LE : forall x, xa <= x <= (xb + xa) / 2 -> ya <= - sqrt (r ^ 2 - (x - xa) ^ 2) + ya + r <= (ya + yb) / 2).
  { intros x Hx. split; [assert (sqrt (r ^ 2 - (x - xa) ^ 2) <= sqrt (r ^ 2)) by (apply sqrt_le_mono; nra); rewrite sqrt_pow2 in H by lra; lra|]. rewrite <- M1. assert (sqrt (r ^ 2 - ((xb + xa) / 2 - xa) ^ 2) <= sqrt (r ^ 2 - (x - xa) ^ 2)) by (apply sqrt_le_mono; nra). lra. }
  assert (RI : forall x, (xb + xa) / 2 <= x <= xb -> (ya + yb) / 2 <= sqrt (r ^ 2 - (x - xb) ^ 2) + yb - r <= yb).
  { intros x Hx. split; [|assert (sqrt (r ^ 2 - (x - xb) ^ 2) <= sqrt (r ^ 2)) by (apply sqrt_le_mono; nra); rewrite sqrt_pow2 in H by lra; lra]. rewrite <- M2. assert (sqrt (r ^ 2 - ((xb + xa) / 2 - xb) ^ 2) <= sqrt (r ^ 2 - (x - xb) ^ 2)) by (apply sqrt_le_mono; nra). lra. }
  intros x x' Hx. unfold curve. rewrite AB, LT. fold r.
  destruct (Rleb xb x) eqn:E1; [apply Rleb_true in E1|apply Rleb_false in E1].
  { destruct (Rleb xb x') eqn:E2; [lra|apply Rleb_false in E2; lra]. }
  destruct (Rleb xb x') eqn:E2; [apply Rleb_true in E2|apply Rleb_false in E2].
  { destruct (Rleb x xa) eqn:E3; [lra|apply Rleb_false in E3]. destruct (Rltb x ((xb + xa) / 2)) eqn:E4; [apply Rltb_true in E4; assert (Z := LE x ltac:(lra)); lra|apply Rltb_false in E4; assert (Z := RI x ltac:(lra)); lra]. }
  destruct (Rleb x xa) eqn:E3; [apply Rleb_true in E3|apply Rleb_false in E3].
  { destruct (Rleb x' xa) eqn:E4; [lra|apply Rleb_false in E4]. destruct (Rltb x' ((xb + xa) / 2)) eqn:E5; [apply Rltb_true in E5; assert (Z := LE x' ltac:(lra)); lra|apply Rltb_false in E5; assert (Z := RI x' ltac:(lra)); lra]. }
  destruct (Rleb x' xa) eqn:E4; [apply Rleb_true in E4; lra|apply Rleb_false in E4].
  destruct (Rltb x ((xb + xa) / 2)) eqn:E5; [apply Rltb_true in E5|apply Rltb_false in E5]; destruct (Rltb x' ((xb + xa) / 2)) eqn:E6; [apply Rltb_true in E6|apply Rltb_false in E6|apply Rltb_true in E6; lra|apply Rltb_false in E6].
  - assert (sqrt (r ^ 2 - (x' - xa) ^ 2) <= sqrt (r ^ 2 - (x - xa) ^ 2)) by (apply sqrt_le_mono; nra). lra.
  - assert (Z := LE x ltac:(lra)). assert (Z2 := RI x' ltac:(lra)). lra.
  - assert (sqrt (r ^ 2 - (x - xb) ^ 2) <= sqrt (r ^ 2 - (x' - xb) ^ 2)) by (apply sqrt_le_mono; nra). lra.
Qed.
(** falling is rising upside down *)
Lemma mirror xa ya xb yb x : ya <> yb -> curve xa ya xb yb x = - curve xa (- ya) xb (- yb) x.
Proof.
  intros N. unfold curve. replace (- yb - - ya) with (- (yb - ya)) by ring. rewrite Rabs_Ropp. destruct (Rleb xb x); [ring|]. destruct (Rleb x xa); [ring|]. destruct (Rltb yb ya) eqn:E1; [apply Rltb_true in E1|apply Rltb_false in E1]; destruct (Rltb (- yb) (- ya)) eqn:E2; [apply Rltb_true in E2; lra|apply Rltb_false in E2|apply Rltb_true in E2|apply Rltb_false in E2; lra]; destruct (Rltb x ((xb + xa) / 2)); ring.
Qed.
Theorem C151_monotone x1 y1 x2 y2 f : reverse_curve_transition x1 y1 x2 y2 = Ok f -> x1 < x2 -> Rabs (y2 - y1) <= x2 - x1 ->
  (y1 <= y2 -> forall x x', x <= x' -> f x <= f x') /\ (y2 <= y1 -> forall x x', x <= x' -> f x' <= f x).
Proof.
  intros H HX HH. destruct (Req_dec y1 y2) as [->|N].
  { assert (E := proj1 (C151_errors x1 y2 x2 y2) eq_refl). rewrite E in H. injection H as <-. split; intros; lra. }
  destruct (rct_curve _ _ _ _ _ H N) as [[_ E]|[A _]]; [|lra]. split; intros HY x x' Hx; rewrite !E.
  - apply rising; auto; [lra|]. rewrite Rabs_right in HH by lra. lra.
  - rewrite !(mirror x1 y1 x2 y2) by auto. apply Ropp_le_contravar. apply rising; auto; [lra|]. rewrite Rabs_left in HH by lra. lra.
Qed.
Theorem C151_between x1 y1 x2 y2 f x : reverse_curve_transition x1 y1 x2 y2 = Ok f -> x1 < x2 -> Rabs (y2 - y1) <= x2 - x1 -> Rmin y1 y2 <= f x <= Rmax y1 y2.
Proof.
  intros H HX HH. destruct (C151_monotone _ _ _ _ _ H HX HH) as [M1 M2]. destruct (C151_outside _ _ _ _ _ H HX) as [O1 O2]. set (lo := Rmin x x1). set (hi := Rmax x x2).
  assert (A1 : f lo = y1) by (apply O1; unfold lo; apply Rmin_r). assert (A2 : f hi = y2) by (apply O2; unfold hi; apply Rmax_r). assert (B1 : lo <= x) by (unfold lo; apply Rmin_l). assert (B2 : x <= hi) by (unfold hi; apply Rmax_l).
  destruct (Rle_dec y1 y2) as [Y|Y].
  - rewrite Rmin_left, Rmax_right by auto. rewrite <- A1 at 1. rewrite <- A2. split; apply M1; auto.
  - rewrite Rmin_right, Rmax_left by lra. rewrite <- A2 at 1. rewrite <- A1. split; apply M2; auto; lra.
Qed.
Theorem C151_middle x1 y1 x2 y2 f : reverse_curve_transition x1 y1 x2 y2 = Ok f -> x1 < x2 -> Rabs (y2 - y1) <= x2 - x1 -> f ((x1 + x2) / 2) = (y1 + y2) / 2.
Proof.
  intros H HX HH. destruct (Req_dec y1 y2) as [->|N].
  { assert (E := proj1 (C151_errors x1 y2 x2 y2) eq_refl). rewrite E in H. injection H as <-. field. }
  destruct (rct_curve _ _ _ _ _ H N) as [[_ E]|[A _]]; [|lra]. rewrite E.
  assert (G : forall ya yb, ya < yb -> yb - ya <= x2 - x1 -> curve x1 ya x2 yb ((x1 + x2) / 2) = (ya + yb) / 2).
  { intros ya yb Y1 Y2. destruct (half_up x1 x2 ya yb HX Y1 Y2) as [_ M]. unfold curve. rewrite (Rabs_right (yb - ya)) by lra. replace ((x1 + x2) / 2) with ((x2 + x1) / 2) by field. destruct (Rleb x2 ((x2 + x1) / 2)) eqn:E1; [apply Rleb_true in E1; lra|]. destruct (Rleb ((x2 + x1) / 2) x1) eqn:E2; [apply Rleb_true in E2; lra|].
    destruct (Rltb yb ya) eqn:E3; [apply Rltb_true in E3; lra|]. destruct (Rltb ((x2 + x1) / 2) ((x2 + x1) / 2)) eqn:E4; [apply Rltb_true in E4; lra|]. exact M. }
  destruct (Rlt_dec y1 y2) as [Y|Y].
  - apply G; auto. rewrite Rabs_right in HH by lra. lra.
  - rewrite mirror by auto. rewrite G; [field|lra|]. rewrite Rabs_left in HH by lra. lra.
Qed.
(** *** Defect: higher than long, the curve jumps in the middle *)
Theorem C151_jump_refuted x1 y1 x2 y2 f : reverse_curve_transition x1 y1 x2 y2 = Ok f -> x1 < x2 -> x2 - x1 < y2 - y1 ->
  let w := x2 - x1 in let h := y2 - y1 in
  f ((x1 + x2) / 2) = y2 - w ^ 2 / (2 * h) /\ (forall x, x < (x1 + x2) / 2 -> f x <= y1 + w ^ 2 / (2 * h)) /\ y1 + w ^ 2 / (2 * h) < y2 - w ^ 2 / (2 * h).
Proof.
  intros H HX HH w h. assert (N : y1 <> y2) by lra. destruct (rct_curve _ _ _ _ _ H N) as [[_ E]|[A _]]; [|lra]. assert (Hw : 0 < w) by (unfold w; lra). assert (Hh : w < h) by (unfold w, h; lra). destruct (radius_ge w h ltac:(lra) ltac:(lra)) as [RG RP].
  assert (S := sqrt_mid w h ltac:(lra) ltac:(lra)). rewrite Rabs_left in S by nra. assert (AB : Rabs (y2 - y1) = h) by (unfold h; apply Rabs_right; lra). unfold curve in E. rewrite AB in E. fold w in E. set (r := radius w h) in *.
  assert (RH : r - - (w ^ 2 - h ^ 2) / (4 * h) = w ^ 2 / (2 * h)) by (unfold r, radius; field; lra). assert (LT : Rltb y2 y1 = false) by (apply Rltb_false; lra).
  split; [|split].
  - rewrite E. destruct (Rleb x2 ((x1 + x2) / 2)) eqn:E1; [apply Rleb_true in E1; lra|]. destruct (Rleb ((x1 + x2) / 2) x1) eqn:E2; [apply Rleb_true in E2; lra|]. rewrite LT. destruct (Rltb ((x1 + x2) / 2) ((x2 + x1) / 2)) eqn:E4; [apply Rltb_true in E4; lra|].
    replace (((x1 + x2) / 2 - x2) ^ 2) with ((w / 2) ^ 2) by (unfold w; field). rewrite S. lra.
  - intros x Hx. assert (P : 0 < w ^ 2 / (2 * h)) by (apply Rdiv_lt_0_compat; nra). rewrite E. destruct (Rleb x2 x) eqn:E1; [apply Rleb_true in E1; lra|]. destruct (Rleb x x1) eqn:E2; [lra|apply Rleb_false in E2]. rewrite LT. destruct (Rltb x ((x2 + x1) / 2)) eqn:E4; [apply Rltb_true in E4|apply Rltb_false in E4; lra].
    assert (Q : sqrt (r ^ 2 - (w / 2) ^ 2) <= sqrt (r ^ 2 - (x - x1) ^ 2)) by (apply sqrt_le_mono; unfold w in *; nra). lra.
  - assert (P : w ^ 2 / (2 * h) < h / 2); [|unfold h in *; lra]. apply (Rmult_lt_reg_r (2 * h)); [lra|]. unfold Rdiv. rewrite Rmult_assoc, Rinv_l by lra. nra.
Qed.
Example C151_witness : exists f g, reverse_curve_transition 0 1 4 3 = Ok f /\ f 2 = 2 /\ reverse_curve_transition 0 0 1 2 = Ok g /\ g (/ 2) = 7 / 4.
Proof.
  destruct (proj2 (proj2 (C151_errors 0 1 4 3)) ltac:(lra)) as (f & Hf). destruct (proj2 (proj2 (C151_errors 0 0 1 2)) ltac:(lra)) as (g & Hg). exists f, g. split; auto. split; [|split; auto].
  - assert (M := C151_middle _ _ _ _ _ Hf ltac:(lra) ltac:(rewrite Rabs_right; lra)). replace ((0 + 4) / 2) with 2 in M by field. rewrite M. field.
  - destruct (C151_jump_refuted _ _ _ _ _ Hg ltac:(lra) ltac:(lra)) as [J _]. replace ((0 + 1) / 2) with (/ 2) in J by field. rewrite J. field.
Qed.
(** *** and continuous *)
Definition clamp (a b x : R) : R := Rmax a (Rmin b x).
Lemma rmin_abs (b y : R) : Rmin b y = (b + y - Rabs (b - y)) / 2.
Proof. unfold Rmin. destruct Rle_dec; [rewrite Rabs_left1 by lra|rewrite Rabs_right by lra]; field. Qed.
Lemma rmax_abs (b y : R) : Rmax b y = (b + y + Rabs (b - y)) / 2.
Proof. unfold Rmax. destruct Rle_dec; [rewrite Rabs_left1 by lra|rewrite Rabs_right by lra]; field. Qed.
Lemma clamp_cont a b x : continuous (clamp a b) x.
Proof.
  apply (continuous_ext (fun x => (a + (b + x - Rabs (b - x)) / 2 + Rabs (a - (b + x - Rabs (b - x)) / 2)) / 2)).
  - intros y. unfold clamp. rewrite rmax_abs, rmin_abs. reflexivity.
  - apply continuity_pt_filterlim. reg; apply Rcontinuity_abs.
Qed.
Lemma rising_cont xa ya xb yb x : xa < xb -> ya < yb -> yb - ya <= xb - xa -> continuous (curve xa ya xb yb) x.
Proof.
  intros H1 H2 H3. destruct (half_up xa xb ya yb H1 H2 H3) as [M1 M2]. assert (AB : Rabs (yb - ya) = yb - ya) by (apply Rabs_right; lra). destruct (radius_ge (xb - xa) (yb - ya) ltac:(lra) ltac:(lra)) as [RG RP]. set (r := radius (xb - xa) (yb - ya)) in *. set (m := (xb + xa) / 2) in *.
  set (A := fun t => - sqrt (r ^ 2 - (t - xa) ^ 2) + ya + r). set (B := fun t => sqrt (r ^ 2 - (t - xb) ^ 2) + yb - r).
  assert (SQ : sqrt (r ^ 2) = r) by (apply sqrt_pow2; lra).
  assert (A0 : A xa = ya) by (unfold A; replace (r ^ 2 - (xa - xa) ^ 2) with (r ^ 2) by ring; rewrite SQ; ring). assert (B1 : B xb = yb) by (unfold B; replace (r ^ 2 - (xb - xb) ^ 2) with (r ^ 2) by ring; rewrite SQ; ring). assert (A1 : A m = (ya + yb) / 2) by exact M1. assert (B0 : B m = (ya + yb) / 2) by exact M2.
  apply (continuous_ext (fun x => A (clamp xa m x) + B (clamp m xb x) - (ya + yb) / 2)).
  - intros y. unfold curve. rewrite AB. fold r. fold m. assert (Rltb yb ya = false) as -> by (apply Rltb_false; lra). unfold clamp. assert (Hm : xa < m < xb) by (unfold m; lra).
    destruct (Rleb xb y) eqn:E1; [apply Rleb_true in E1|apply Rleb_false in E1].
    { rewrite (Rmin_left m y), (Rmin_left xb y), (Rmax_right xa m), (Rmax_right m xb) by lra. rewrite A1, B1. match goal with |- ?u = ?v => change (@eq R u v) end. field. }
    destruct (Rleb y xa) eqn:E2; [apply Rleb_true in E2|apply Rleb_false in E2].
    { rewrite (Rmin_right m y), (Rmin_right xb y), (Rmax_left xa y), (Rmax_left m y) by lra. rewrite A0, B0. match goal with |- ?u = ?v => change (@eq R u v) end. field. }
    destruct (Rltb y m) eqn:E3; [apply Rltb_true in E3|apply Rltb_false in E3].
    { rewrite (Rmin_right m y), (Rmin_right xb y), (Rmax_right xa y), (Rmax_left m y) by lra. rewrite B0. unfold A. match goal with |- ?u = ?v => change (@eq R u v) end. field. }
    rewrite (Rmin_left m y), (Rmin_right xb y), (Rmax_right xa m), (Rmax_right m y) by lra. rewrite A1. unfold B. match goal with |- ?u = ?v => change (@eq R u v) end. field.
  - assert (CA : forall t, continuous A t).
    { intros t. unfold A. apply (continuous_plus (V := R_NormedModule) (fun t => - sqrt (r ^ 2 - (t - xa) ^ 2) + ya) (fun _ => r)); [|apply continuous_const]. apply (continuous_plus (V := R_NormedModule) (fun t => - sqrt (r ^ 2 - (t - xa) ^ 2)) (fun _ => ya)); [|apply continuous_const].
      apply (continuous_opp (V := R_NormedModule) (fun t => sqrt (r ^ 2 - (t - xa) ^ 2))). apply (continuous_comp (fun t => r ^ 2 - (t - xa) ^ 2) sqrt); [|apply continuous_sqrt]. apply (ex_derive_continuous (K := R_AbsRing) (V := R_NormedModule)). auto_derive. auto. }
    assert (CB : forall t, continuous B t).
    { intros t. unfold B. apply (continuous_plus (V := R_NormedModule) (fun t => sqrt (r ^ 2 - (t - xb) ^ 2) + yb) (fun _ => - r)); [|apply continuous_const]. apply (continuous_plus (V := R_NormedModule) (fun t => sqrt (r ^ 2 - (t - xb) ^ 2)) (fun _ => yb)); [|apply continuous_const].
      apply (continuous_comp (fun t => r ^ 2 - (t - xb) ^ 2) sqrt); [|apply continuous_sqrt]. apply (ex_derive_continuous (K := R_AbsRing) (V := R_NormedModule)). auto_derive. auto. }
    apply (continuous_plus (V := R_NormedModule) (fun x => A (clamp xa m x) + B (clamp m xb x)) (fun _ => - ((ya + yb) / 2))); [|apply continuous_const]. apply (continuous_plus (V := R_NormedModule) (fun x => A (clamp xa m x)) (fun x => B (clamp m xb x))).
    + apply (continuous_comp (clamp xa m) A); [apply clamp_cont|apply CA].
    + apply (continuous_comp (clamp m xb) B); [apply clamp_cont|apply CB].
Qed.
Theorem C151_continuous x1 y1 x2 y2 f x : reverse_curve_transition x1 y1 x2 y2 = Ok f -> x1 < x2 -> Rabs (y2 - y1) <= x2 - x1 -> continuous f x.
Proof.
  intros H HX HH. destruct (Req_dec y1 y2) as [->|N].
  { assert (E := proj1 (C151_errors x1 y2 x2 y2) eq_refl). rewrite E in H. injection H as <-. apply continuous_const. }
  destruct (rct_curve _ _ _ _ _ H N) as [[_ E]|[A _]]; [|lra]. apply (continuous_ext (curve x1 y1 x2 y2)); [intros; symmetry; apply E|]. destruct (Rlt_dec y1 y2) as [Y|Y].
  - apply rising_cont; auto. rewrite Rabs_right in HH by lra. lra.
  - apply (continuous_ext (fun x => - curve x1 (- y1) x2 (- y2) x)); [intros; symmetry; apply mirror; auto|]. apply (continuous_opp (V := R_NormedModule) (curve x1 (- y1) x2 (- y2))). apply rising_cont; auto; [lra|]. rewrite Rabs_left in HH by lra. lra.
Qed.
