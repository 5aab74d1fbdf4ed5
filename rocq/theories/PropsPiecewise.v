(** * Properties C01-C09, C11-C17 (piecewise linear lines). Statements only. *)
From Coq Require Import Reals List ZArith QArith Bool Arith Lia Lra Sorted PrimFloat.
From Coquelicot Require Import Coquelicot.
From Verif Require Import Base PiecewiseModel SpecPiecewise SpecPiecewiseApi.
From Verif Require Import PiecewiseProofs2 PiecewiseProofs3 PiecewiseProofs4 PiecewiseProofs5.
Import ListNotations.
Open Scope R_scope.

(** A stepped line used for the non-vacuity examples: steps at 1 (stacked) and at 3. *)
Definition ex_x : list R := [0; 1; 1; 1; 3; 3; 4].
Definition ex_y : list R := [0; 2; 5; 1; 1; 4; 0].
Example ex_ok : length ex_x = length ex_y /\ nondecr ex_x /\ ex_x <> [] /\ (2 <= length ex_x)%nat /\
  at_ ex_x 0 < at_ ex_x (length ex_x - 1).
Proof.
  split; [reflexivity|]. split.
  - intros i Hi. cbn in Hi. do 6 (destruct i as [|i]; [cbn; lra|]). lia.
  - split; [discriminate|]. cbn. split; [lia|lra].
Qed.

(** C01 *)
Theorem C01_interp_on_polyline : forall (x y xi : list R) (choose_max : bool),
  length x = length y -> nondecr x -> x <> [] ->
  exists ys, interp_x_y x y xi choose_max = Ok ys /\ length ys = length xi /\
  forall k, (k < length xi)%nat ->
    (forall i, (S i < length x)%nat -> at_ x i < at_ xi k < at_ x (S i) ->
       at_ ys k = chord x y i (at_ xi k)) /\
    (at_ xi k < at_ x 0 -> at_ x 0 < at_ x (length x - 1) -> at_ ys k = at_ y 0) /\
    (at_ x (length x - 1) < at_ xi k -> at_ ys k = at_ y (length y - 1)).
Proof. exact interp_x_y_polyline. Qed.
Print Assumptions C01_interp_on_polyline.

(** C02 (no monotonicity needed). *)
Theorem C02_interp_no_overshoot : forall (x y xi : list R) choose_max m M ys k,
  x <> [] -> within m M y -> interp_x_y x y xi choose_max = Ok ys -> (k < length xi)%nat ->
  m <= at_ ys k <= M.
Proof. exact interp_x_y_within. Qed.
Print Assumptions C02_interp_no_overshoot.
Example C02_witness : within 0 5 ex_y.
Proof. intros e He. cbn in He. repeat destruct He as [<-|He]; try lra; try contradiction. Qed.

(** C03: at a breakpoint v = x[i+1] closing a positive-width segment, choose_max=False
    gives y[i+1] (before any step at v); at v = x[i] opening one, choose_max=True gives
    y[i] (after any step at v). *)
Theorem C03_choose_min_before_step : forall (x y : list R) v i,
  length x = length y -> nondecr x -> (S i < length x)%nat ->
  at_ x i < at_ x (S i) -> at_ x (S i) = v ->
  interp_x_y x y [v] false = Ok [at_ y (S i)].
Proof. exact interp_before_step. Qed.
Print Assumptions C03_choose_min_before_step.
Theorem C03_choose_max_after_step : forall (x y : list R) v i,
  length x = length y -> nondecr x -> (S i < length x)%nat ->
  at_ x i < at_ x (S i) -> at_ x i = v ->
  interp_x_y x y [v] true = Ok [at_ y i].
Proof. exact interp_after_step. Qed.
Print Assumptions C03_choose_max_after_step.
Example C03_witness : interp_x_y ex_x ex_y [1] false = Ok [2] /\ interp_x_y ex_x ex_y [1] true = Ok [1].
Proof.
  destruct ex_ok as (H1 & H2 & _). split.
  - apply (C03_choose_min_before_step ex_x ex_y 1 0); auto; cbn; try lra; lia.
  - apply (C03_choose_max_after_step ex_x ex_y 1 3); auto; cbn; try lra; lia.
Qed.

(** C04 (any x, monotone or not). *)
Theorem C04_segment_search : forall (x xi : list R) choose_max,
  exists r, segment_containing_xi x xi (all_segs x) choose_max = Ok r /\ length r = length xi /\
  forall k, (k < length xi)%nat ->
    (nth k r [] = [] /\ forall i, ~ in_segment x (at_ xi k) i) \/
    (exists i, nth k r [] = [i] /\ in_segment x (at_ xi k) i /\
       forall j, in_segment x (at_ xi k) j -> if choose_max then (j <= i)%nat else (i <= j)%nat).
Proof. exact segment_containing_xi_spec. Qed.
Print Assumptions C04_segment_search.

(** C05 (any x). *)
Theorem C05_segments_before : forall (x xi : list R) or_equal_to,
  exists r, segments_less_than_xi x xi (all_segs x) or_equal_to = Ok r /\ length r = length xi /\
  forall k, (k < length xi)%nat ->
    StronglySorted lt (nth k r []) /\
    forall i, In i (nth k r []) <->
      ((S i < length x)%nat /\
       if or_equal_to then at_ x (S i) <= at_ xi k else at_ x (S i) < at_ xi k).
Proof. exact segments_less_than_xi_spec. Qed.
Print Assumptions C05_segments_before.

(** C06 *)
Theorem C06_between_tiles : forall (x xi xj : list R),
  nondecr x -> (2 <= length x)%nat -> length xi = length xj ->
  (forall k, (k < length xi)%nat ->
     at_ x 0 <= at_ xi k /\ at_ xi k < at_ xj k /\ at_ xj k <= at_ x (length x - 1)) ->
  exists r, segments_between_xi_and_xj x xi xj = Ok r /\ length r = length xi /\
  forall k d, (k < length xi)%nat ->
    chain (at_ xi k) (at_ xj k) (pieces x (at_ xi k) (at_ xj k) (nth k r d)).
Proof. exact segments_between_spec. Qed.
Print Assumptions C06_between_tiles.

(** C07 *)
Theorem C07_integral : forall (x y : list R) choose_max f xi xj,
  length x = length y -> nondecr x -> (2 <= length x)%nat ->
  at_ x 0 <= xi -> xi < xj -> xj <= at_ x (length x - 1) ->
  interpolant x y choose_max xi xj f ->
  exists I, integrate_x_y_between_xi_xj x y [xi] [xj] = Ok [I] /\ is_RInt f xi xj I.
Proof. exact integrate_is_integral. Qed.
Print Assumptions C07_integral.
Example C07_witness : exists f, interpolant ex_x ex_y true (1/2) 4 f.
Proof. destruct ex_ok as (H1 & _ & H3 & _). apply interpolant_exists; auto. Qed.

(** C07, degenerate interval xi = xj: the code does not return 0 on an interior vertex. *)
Theorem C07_empty_interval_refuted :
  exists x y, nondecr x /\ length x = length y /\ at_ x 0 <= 1 <= at_ x (length x - 1) /\
   exists I, integrate_x_y_between_xi_xj x y [1] [1] = Ok [I] /\ I <> 0.
Proof. exact integrate_point_cex. Qed.
Print Assumptions C07_empty_interval_refuted.
Theorem C07_empty_interval_value : forall (x y : list R) v i,
  length x = length y -> nondecr x -> (S (S i) < length x)%nat ->
  at_ x i < at_ x (S i) < at_ x (S (S i)) -> v = at_ x (S i) ->
  integrate_x_y_between_xi_xj x y [v] [v] = Ok [trap x y (S i) + trap x y i].
Proof. exact integrate_degenerate. Qed.
Print Assumptions C07_empty_interval_value.

(** C08 *)
Theorem C08_additive : forall (x y : list R) a b c,
  length x = length y -> nondecr x -> (2 <= length x)%nat ->
  at_ x 0 <= a -> a < b -> b < c -> c <= at_ x (length x - 1) ->
  exists I J K, integrate_x_y_between_xi_xj x y [a] [b] = Ok [I] /\
                integrate_x_y_between_xi_xj x y [b] [c] = Ok [J] /\
                integrate_x_y_between_xi_xj x y [a] [c] = Ok [K] /\ I + J = K.
Proof. exact integrate_additive. Qed.
Print Assumptions C08_additive.
Example C08_witness : at_ ex_x 0 <= 0 /\ 0 < 1 /\ 1 < 4 /\ 4 <= at_ ex_x (length ex_x - 1).
Proof. cbn; lra. Qed.

(** C09 *)
Theorem C09_average : forall (x y : list R) xi xj m M,
  length x = length y -> nondecr x -> (2 <= length x)%nat -> within m M y ->
  at_ x 0 <= xi -> xi < xj -> xj <= at_ x (length x - 1) ->
  exists I r, integrate_x_y_between_xi_xj x y [xi] [xj] = Ok [I] /\
            avg_x_y_between_xi_xj x y [xi] [xj] = Ok [r] /\
            r * (xj - xi) = I /\ m <= r <= M.
Proof. exact avg_bounds. Qed.
Print Assumptions C09_average.

(** C11 *)
Theorem C11_layers_roundtrip : forall (l : list (layer R)),
  contiguous l -> thick l -> l <> [] ->
  exists p, convert_x1_x2_y1_y2_to_x_y l = Ok p /\ convert_x_y_to_x1_x2_y1_y2 p = l.
Proof. exact layers_roundtrip. Qed.
Print Assumptions C11_layers_roundtrip.
Example C11_witness :
  let l := [mkLayer 0 1 5 6; mkLayer 1 3 6 2; mkLayer 3 4 7 7]%R in contiguous l /\ thick l.
Proof.
  cbn. split.
  - intros i d Hi. cbn in Hi. do 2 (destruct i as [|i]; [reflexivity|]). lia.
  - intros a Ha. cbn in Ha. repeat destruct Ha as [<-|Ha]; cbn; try lra; try contradiction.
Qed.

(** C12: exact arithmetic, when every non-zero gap is larger than len(x)*eps. *)
Theorem C12_force_strictly_increasing : forall (x y : list R) keep_end_points eps x' y',
  0 < eps ->
  (forall i, (S i < length x)%nat -> at_ x i <> at_ x (S i) ->
     INR (length x) * eps < Rabs (at_ x (S i) - at_ x i)) ->
  force_strictly_increasing x y keep_end_points eps = Ok (x', y') ->
  strictly_increasing x' = true.
Proof. exact force_strictly_increasing_exact. Qed.
Print Assumptions C12_force_strictly_increasing.
(** No point moves by more than len(x)*eps, y is only reversed together with x. *)
Theorem C12_points_hardly_move : forall (x y : list R) keep_end_points eps x' y',
  0 < eps -> force_strictly_increasing x y keep_end_points eps = Ok (x', y') ->
  (y' = y /\ Forall2 (fun a b => Rabs (b - a) <= INR (length x) * eps) x x') \/
  (non_increasing x = true /\ y' = rev y /\ Forall2 (fun a b => Rabs (b - a) <= INR (length x) * eps) (rev x) x').
Proof. exact force_strictly_increasing_moves. Qed.
Print Assumptions C12_points_hardly_move.
(** A result exactly for monotone input (ValueError otherwise). *)
Theorem C12_returns_iff_monotone : forall (x y : list R) keep_end_points eps,
  (exists r, force_strictly_increasing x y keep_end_points eps = Ok r) <->
  (non_decreasing x = true \/ non_increasing x = true).
Proof. exact force_strictly_increasing_returns. Qed.
Print Assumptions C12_returns_iff_monotone.
Example C12_witness : non_decreasing ex_x = true /\
  (forall i, (S i < length ex_x)%nat -> at_ ex_x i <> at_ ex_x (S i) ->
     INR (length ex_x) * (1/100) < Rabs (at_ ex_x (S i) - at_ ex_x i)).
Proof.
  split.
  - apply non_decreasing_nondecr. apply ex_ok.
  - intros i Hi. cbn in Hi. cbn [length ex_x].
    replace (INR 7) with 7 by (cbn; lra).
    do 6 (destruct i as [|i]; [cbn; intros; rewrite Rabs_right; lra|]). lia.
Qed.
(** In binary64 the shift by 1e-15 is absorbed: x = [0,100,100,200] keeps its step. *)
Theorem C12_force_strictly_increasing_refuted :
  exists x x' y', @force_strictly_increasing _ NumF x x true eps15 = Ok (x', y') /\
     @non_decreasing _ NumF x = true /\ @strictly_increasing _ NumF x' = false.
Proof. exact force_strictly_increasing_float_cex. Qed.
Print Assumptions C12_force_strictly_increasing_refuted.
(** The caller's array is changed in place. *)
Theorem C12_argument_mutated_refuted :
  exists x : list Q, @force_strictly_increasing_caller_x _ NumQ x true (1 # 1000000000000000)
     = [0; (999999999999999 # 1000000000000000); 1; 2]%Q /\ x = [0; 1; 1; 2]%Q.
Proof. exact force_strictly_increasing_mutates_cex. Qed.
Print Assumptions C12_argument_mutated_refuted.
(** In general: whenever some point had to be moved, the caller's own float array now holds the moved
    points, in the caller's order. *)
Theorem C12_argument_after : forall (x y : list R) keep_end_points eps x' y',
  force_strictly_increasing x y keep_end_points eps = Ok (x', y') ->
  (strictly_increasing x = true \/ strictly_decreasing x = true ->
     force_strictly_increasing_caller_x x keep_end_points eps = x) /\
  (strictly_increasing x = false -> strictly_decreasing x = false ->
     force_strictly_increasing_caller_x x keep_end_points eps = if non_increasing x then rev x' else x').
Proof.
  intros x y k eps x' y' H. unfold force_strictly_increasing in H. unfold force_strictly_increasing_caller_x.
  split.
  - intros [->| ->]; auto. destruct (strictly_increasing x); auto.
  - intros E1 E2. rewrite E1, E2 in H |- *. destruct (non_increasing x).
    + destruct (negb (non_decreasing (rev x))); [discriminate|]. congruence.
    + destruct (negb (non_decreasing x)); [discriminate|]. congruence.
Qed.
Print Assumptions C12_argument_after.

(** C13 *)
Theorem C13_force_non_decreasing : forall (x y : list R),
  (non_decreasing x = true /\ force_non_decreasing x y = Ok (x, y)) \/
  (non_decreasing x = false /\ non_increasing x = true /\
     force_non_decreasing x y = Ok (rev x, rev y) /\ non_decreasing (rev x) = true) \/
  (non_decreasing x = false /\ non_increasing x = false /\ force_non_decreasing x y = Err ValueError).
Proof. exact force_non_decreasing_cases. Qed.
Print Assumptions C13_force_non_decreasing.

(** C14: lines without doubled points. *)
Theorem C14_classification : forall (x y : list R),
  length x = length y ->
  (forall i, (S i < length x)%nat -> ~ (at_ x i = at_ x (S i) /\ at_ y i = at_ y (S i))) ->
  exists r c s, ramps_constants_steps x y = Ok (r, c, s) /\
    (StronglySorted lt r /\ StronglySorted lt c /\ StronglySorted lt s) /\
    forall i,
      (In i s <-> (S i < length x)%nat /\ at_ x i = at_ x (S i)) /\
      (In i c <-> (S i < length x)%nat /\ at_ x i <> at_ x (S i) /\ at_ y i = at_ y (S i)) /\
      (In i r <-> (S i < length x)%nat /\ at_ x i <> at_ x (S i) /\ at_ y i <> at_ y (S i)).
Proof. exact classification_partial. Qed.
Print Assumptions C14_classification.
Example C14_witness : forall i, (S i < length ex_x)%nat ->
  ~ (at_ ex_x i = at_ ex_x (S i) /\ at_ ex_y i = at_ ex_y (S i)).
Proof.
  intros i Hi. cbn in Hi. do 6 (destruct i as [|i]; [cbn; lra|]). lia.
Qed.
Theorem C14_classification_refuted :
  exists x y : list Q, @ramps_constants_steps _ NumQ x y = Ok ([0%nat], [1%nat], [1%nat]) /\
    x = [0; 1; 1; 2; 2]%Q /\ y = [0; 1; 1; 1; 2]%Q.
Proof. exact classification_cex. Qed.
Print Assumptions C14_classification_refuted.

(** C15 *)
Theorem C15_initially_increasing : forall (x : list R),
  (2 <= length x)%nat -> at_ x 0 <> at_ x 1 ->
  exists b, is_initially_increasing x = Ok b /\ (b = true <-> at_ x 0 < at_ x 1).
Proof. exact is_initially_increasing_partial. Qed.
Print Assumptions C15_initially_increasing.
(** After an initial repeated value the answer is True whatever the direction. *)
Theorem C15_initially_increasing_refuted : forall (x : list R),
  (2 <= length x)%nat -> at_ x 0 = at_ x 1 ->
  (exists i, (S i < length x)%nat /\ at_ x i <> at_ x (S i)) ->
  is_initially_increasing x = Ok true.
Proof. exact is_initially_increasing_step. Qed.
Print Assumptions C15_initially_increasing_refuted.
Example C15_witness : is_initially_increasing [5; 5; 4] = Ok true.
Proof.
  apply C15_initially_increasing_refuted; [cbn; lia|reflexivity|].
  exists 1%nat. cbn. split; [lia|lra].
Qed.

(** C16 *)
Theorem C16_monotone_parts : forall (x : list R),
  (exists i, (S i < length x)%nat /\ at_ x i <> at_ x (S i)) ->
  exists ps, non_increasing_and_non_decreasing_parts x false = Ok ps /\
    non_increasing_and_non_decreasing_parts x true = Ok (map endpt ps) /\
    concat ps = seq 0 (length x - 1) /\
    List.Forall (fun p => p <> [] /\
      ((forall k, In k p -> at_ x k <= at_ x (S k)) \/
       (forall k, In k p -> at_ x (S k) <= at_ x k))) ps.
Proof. exact parts_spec. Qed.
Print Assumptions C16_monotone_parts.

(** C17 *)
Theorem C17_strictly_increasing : forall x : list R, strictly_increasing x = true <->
  forall i j, (i < j)%nat -> (j < length x)%nat -> at_ x i < at_ x j.
Proof. exact strictly_increasing_iff. Qed.
Print Assumptions C17_strictly_increasing.
Theorem C17_strictly_decreasing : forall x : list R, strictly_decreasing x = true <->
  forall i j, (i < j)%nat -> (j < length x)%nat -> at_ x j < at_ x i.
Proof. exact strictly_decreasing_iff. Qed.
Print Assumptions C17_strictly_decreasing.
Theorem C17_non_decreasing : forall x : list R, non_decreasing x = true <->
  forall i j, (i < j)%nat -> (j < length x)%nat -> at_ x i <= at_ x j.
Proof. exact non_decreasing_iff. Qed.
Print Assumptions C17_non_decreasing.
Theorem C17_non_increasing : forall x : list R, non_increasing x = true <->
  forall i j, (i < j)%nat -> (j < length x)%nat -> at_ x j <= at_ x i.
Proof. exact non_increasing_iff. Qed.
Print Assumptions C17_non_increasing.
Theorem C17_has_steps : forall x : list R, has_steps x = true <->
  exists i, (S i < length x)%nat /\ at_ x i = at_ x (S i).
Proof. exact has_steps_iff. Qed.
Print Assumptions C17_has_steps.
