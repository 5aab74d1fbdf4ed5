(** * C55, C56, C57, C60 *)
From Coq Require Import List Ascii ZArith Reals Bool Arith Lia Lra Permutation.
From Verif Require Import Base StemModel SpecStem StemProofs PlotModel SpecPlot PlotProofs.
Import ListNotations.
Open Scope R_scope.

(** ** C55: elapsed times.  The text shows hours, minutes (two digits, below 60) and seconds (two
    digits, two decimals); it is within half a hundredth of the duration; hours and minutes are the
    whole ones contained in it.  The seconds are below 60, or shown as 60.00. *)
Theorem C55_hms : forall sec, 0 <= sec -> exists h m s c, shows (hms_string sec) h m s c /\
  (0 <= h)%Z /\ (0 <= m < 60)%Z /\ (0 <= s)%Z /\ (0 <= c < 100)%Z /\
  Rabs (3600 * IZR h + 60 * IZR m + IZR s + IZR c / 100 - sec) <= 1 / 200 /\
  (3600 * IZR h + 60 * IZR m <= sec < 3600 * IZR h + 60 * IZR m + 60) /\
  ((s < 60)%Z \/ (s = 60%Z /\ c = 0%Z /\ 3600 * IZR h + 60 * IZR m + 59.995 <= sec)).
Proof.
  intros sec Hs. destruct (mod_range sec (60 * 60) ltac:(lra)) as [[A1 A2] A3]. set (r := mod_ sec (60 * 60)) in *. set (h := floor (sec / (60 * 60))) in *.
  destruct (mod_range r 60 ltac:(lra)) as [[B1 B2] B3]. set (m := floor (r / 60)) in *. set (s := mod_ r 60) in *.
  assert (Es : mod_ sec 60 = s).
  { unfold mod_ at 1. rewrite (floor_unique (sec / 60) (60 * h + m)); [|rewrite plus_IZR, mult_IZR]. { rewrite plus_IZR, mult_IZR. lra. }
    split; [apply Rmult_le_reg_r with 60; [lra|]; unfold Rdiv; rewrite Rmult_assoc, Rinv_l; lra|apply Rmult_lt_reg_r with 60; [lra|]; unfold Rdiv; rewrite Rmult_assoc, Rinv_l; lra]. }
  assert (H0 : (0 <= h)%Z) by (apply floor_nonneg; apply Rmult_le_pos; [lra|left; apply Rinv_0_lt_compat; lra]).
  assert (M0 : (0 <= m)%Z) by (apply floor_nonneg; apply Rmult_le_pos; [lra|left; apply Rinv_0_lt_compat; lra]).
  assert (M1 : (m < 60)%Z) by (apply floor_lt; apply Rmult_lt_reg_r with 60; [lra|]; unfold Rdiv; rewrite Rmult_assoc, Rinv_l; lra).
  set (c := round_even (s * 100)). destruct (round_even_spec (s * 100)) as [C1 C2]. fold c in C1, C2.
  assert (K0 : (0 <= c)%Z) by (assert (IZR (-1) < IZR c) by lra; apply lt_IZR in H; lia).
  assert (K1 : (c <= 6000)%Z) by (assert (IZR c < IZR 6001) by lra; apply lt_IZR in H; lia).
  assert (D := Z.div_mod c 100 ltac:(lia)). assert (D2 := Z.mod_pos_bound c 100 ltac:(lia)). set (q := (c / 100)%Z) in *. set (p := (c mod 100)%Z) in *. assert (Q0 : (0 <= q <= 60)%Z) by lia.
  exists h, m, q, p. split; [|split; [exact H0|split; [lia|split; [lia|split; [lia|]]]]].
  - unfold hms_string. fold r h m. rewrite Es. fold c q p. destruct (two_digits m ltac:(lia)) as [m1 m2]. destruct (two_digits q ltac:(lia)) as [q1 q2]. destruct (two_digits p ltac:(lia)) as [p1 p2].
    exists (digits h), (pad 2 (digits m)), (pad 2 (digits q)), (pad 2 (digits p)). split; [|split; [|auto]].
    + do 4 f_equal. unfold pad at 1. rewrite app_length. cbn [length app]. rewrite p2. unfold pad at 2. rewrite <- app_assoc. do 2 f_equal. cbn [app length]. lia.
    + destruct (digits_spec h H0) as (d1 & d2 & d3). split; [exact d1|]. destruct (digits h) as [|x l]; [congruence|]. cbn [length Nat.max] in *. split; [lia|]. destruct d2 as [d2|d2]; [right; exact d2|left; lia].
  - assert (Ec : IZR c = 100 * IZR q + IZR p) by (rewrite D, plus_IZR, mult_IZR; reflexivity). split; [|split; [lra|]].
    + apply Rabs_le. lra.
    + destruct (Z.lt_ge_cases q 60) as [L|L]; [left; exact L|right]. assert (E1 : q = 60%Z) by lia. assert (E2 : p = 0%Z) by lia. split; [exact E1|split; [exact E2|]]. rewrite E1, E2 in Ec. lra.
Qed.
(** Just under a minute is shown as 60 seconds. *)
Theorem C55_below_60_refuted : hms_string 59.999 = ["0"; ":"; "0"; "0"; ":"; "6"; "0"; "."; "0"; "0"]%char.
Proof.
  assert (F1 : floor (59.999 / (60 * 60)) = 0%Z) by (apply floor_unique; cbn [IZR]; lra).
  assert (F2 : floor (59.999 / 60) = 0%Z) by (apply floor_unique; lra).
  unfold hms_string, mod_. rewrite F1, F2. replace (59.999 - 60 * 60 * 0) with 59.999 by lra. rewrite F2. replace (59.999 - 60 * 0) with 59.999 by lra.
  assert (F3 : floor (59.999 * 100) = 5999%Z) by (apply floor_unique; lra).
  unfold round_even. rewrite F3. destruct (Rltb (59.999 * 100 - 5999) (1 / 2)) eqn:E1; [apply Rltb_true in E1; lra|]. destruct (Rltb (1 / 2) (59.999 * 100 - 5999)) eqn:E2; [|apply Rltb_false in E2; lra]. reflexivity.
Qed.
Example hms_instance : hms_string 3723.5 = ["1"; ":"; "0"; "2"; ":"; "0"; "3"; "."; "5"; "0"]%char.
Proof.
  unfold hms_string, mod_. rewrite (floor_unique (3723.5 / (60 * 60)) 1) by lra. replace (3723.5 - 60 * 60 * 1) with 123.5 by lra. rewrite (floor_unique (123.5 / 60) 2) by lra.
  rewrite (floor_unique (3723.5 / 60) 62) by lra. replace (3723.5 - 60 * 62) with 3.5 by lra. unfold round_even. rewrite (floor_unique (3.5 * 100) 350) by lra.
  destruct (Rltb (3.5 * 100 - 350) (1 / 2)) eqn:E1; [reflexivity|apply Rltb_false in E1; lra].
Qed.

(** ** C56: colours *)
Lemma factor_ok f : 0 <= f <= 1 -> Rltb f 0 || Rltb 1 f = false.
Proof. intros H. apply orb_false_iff. split; apply Rltb_false; lra. Qed.
Lemma colour_cases (rgb : list R) : (length rgb = 3%nat \/ length rgb = 4%nat) -> (exists a b c, rgb = [a; b; c]) \/ (exists a b c d, rgb = [a; b; c; d]).
Proof. destruct rgb as [|a [|b [|c [|d [|e l]]]]]; cbn; intros [H|H]; try discriminate; [left|right]; eauto 6. Qed.
(** Shading and tinting a colour gives a colour of the same kind with the same opacity, on either
    scale; each component moves the fraction asked for towards black / white. *)
Theorem C56_shade : forall top rgb f, colour top rgb -> 0 <= f <= 1 -> exists new, rgb_shade rgb f = Ok new /\
  colour top new /\ opacity new = opacity rgb /\ length new = length rgb /\ forall i v, (i < 3)%nat -> nth_error rgb i = Some v -> nth_error new i = Some (f * v).
Proof.
  intros top rgb f [L C] F. unfold rgb_shade. rewrite factor_ok by auto. destruct (colour_cases rgb L) as [(a & b & c & ->)|(a & b & c & d & ->)]; cbn [firstn map app] in *; (eexists; split; [reflexivity|]);
  (inversion C as [|? ? Ca C1]; inversion C1 as [|? ? Cb C2]; inversion C2 as [|? ? Cc C3]; subst);
  (split; [split; [cbn; auto|cbn [firstn]; repeat (apply Forall_cons; [split; nra|]); apply Forall_nil]|split; [reflexivity|split; [reflexivity|]]]);
  intros [|[|[|i]]] v Hi E; try lia; injection E as <-; cbn [nth_error]; f_equal; ring.
Qed.
Theorem C56_tint : forall (scaled : bool) rgb f, let top := if scaled then 1 else 255 in colour top rgb -> 0 <= f <= 1 -> exists new, rgb_tint rgb f scaled = Ok new /\
  colour top new /\ opacity new = opacity rgb /\ length new = length rgb /\ forall i v, (i < 3)%nat -> nth_error rgb i = Some v -> nth_error new i = Some ((1 - f) * v + f * top).
Proof.
  intros scaled rgb f top [L C] F. unfold rgb_tint. rewrite factor_ok by auto. fold top. clearbody top. destruct (colour_cases rgb L) as [(a & b & c & ->)|(a & b & c & d & ->)]; cbn [firstn map app] in *; (eexists; split; [reflexivity|]);
  (inversion C as [|? ? Ca C1]; inversion C1 as [|? ? Cb C2]; inversion C2 as [|? ? Cc C3]; subst);
  (split; [split; [cbn; auto|cbn [firstn]; repeat (apply Forall_cons; [split; nra|]); apply Forall_nil]|split; [reflexivity|split; [reflexivity|]]]);
  intros [|[|[|i]]] v Hi E; try lia; injection E as <-; cbn [nth_error]; f_equal; ring.
Qed.
(** The extremes: nothing happens, or black / white. *)
Theorem C56_extremes : forall top rgb, colour top rgb -> (exists a b c o, rgb = a :: b :: c :: o /\
  rgb_shade rgb 1 = Ok rgb /\ rgb_shade rgb 0 = Ok (0 :: 0 :: 0 :: o) /\
  forall scaled : bool, rgb_tint rgb 0 scaled = Ok rgb /\ rgb_tint rgb 1 scaled = Ok ((if scaled then 1 else 255) :: (if scaled then 1 else 255) :: (if scaled then 1 else 255) :: o)).
Proof.
  intros top rgb [L _]. destruct (colour_cases rgb L) as [(a & b & c & ->)|(a & b & c & d & ->)]; do 4 eexists; (split; [reflexivity|]); unfold rgb_shade, rgb_tint; rewrite !factor_ok by lra;
  cbn [firstn map app]; (split; [repeat f_equal; ring|split; [repeat f_equal; ring|]]); intros sc; split; repeat f_equal; ring.
Qed.
(** A factor outside [0, 1] is refused, whatever the colour. *)
Theorem C56_bad_factor : forall rgb f scaled, (f < 0 \/ 1 < f) -> rgb_shade rgb f = Err ValueError /\ rgb_tint rgb f scaled = Err ValueError.
Proof.
  intros rgb f sc H. assert (E : Rltb f 0 || Rltb 1 f = true) by (apply orb_true_iff; destruct H; [left|right]; apply Rltb_true; auto). unfold rgb_shade, rgb_tint. rewrite E. auto.
Qed.
Example colour_instance : colour 1 [0.4; 0.76; 0.64; 0.9] /\ rgb_shade [0.4; 0.76; 0.64; 0.9] (1 / 2) = Ok [0.4 * (1 / 2); 0.76 * (1 / 2); 0.64 * (1 / 2); 0.9].
Proof. split; [split; [cbn; auto|cbn [firstn]; repeat (apply Forall_cons; [split; lra|]); apply Forall_nil]|]. unfold rgb_shade. rewrite factor_ok by lra. reflexivity. Qed.

(** ** C60: reduced levels *)
Theorem C60_levels : forall z H, depth_to_reduced_level z H None = z * H /\
  forall rl, depth_to_reduced_level 0 H (Some rl) = rl /\ depth_to_reduced_level 1 H (Some rl) = rl - H /\
    (** the level is the datum minus the depth, and the depth is the datum minus the level *)
    depth_to_reduced_level z H (Some rl) = rl - depth_to_reduced_level z H None /\
    (H <> 0 -> (rl - depth_to_reduced_level z H (Some rl)) / H = z) /\
    (** deeper is lower *)
    (forall z', 0 < H -> z < z' -> depth_to_reduced_level z' H (Some rl) < depth_to_reduced_level z H (Some rl)) /\
    (** proportional: halfway down is halfway between the levels *)
    (forall z' t, depth_to_reduced_level ((1 - t) * z + t * z') H (Some rl) = (1 - t) * depth_to_reduced_level z H (Some rl) + t * depth_to_reduced_level z' H (Some rl)).
Proof.
  intros z H. unfold depth_to_reduced_level. split; [reflexivity|]. intros rl. split; [ring|split; [ring|split; [reflexivity|split; [intros N; field; exact N|split; [intros z' P L; nra|intros z' t; ring]]]]].
Qed.
Example level_instance : depth_to_reduced_level 0.25 8 (Some 2) = 0. Proof. unfold depth_to_reduced_level. lra. Qed.

(** ** C57: subplot order *)
Open Scope nat_scope.
(** With steps 1 and -1 (fewer than dimensions, or none, mean 1): the entry for a place is the place
    of the index seen from the far end in the reversed dimensions; with transpose the places are
    those of the transposed grid. *)
Theorem C57_map : forall shape steps (transpose : bool), unit_steps steps -> length steps <= length shape -> exists l,
  row_major_order_reverse_map shape (Some steps) transpose = Ok l /\ length l = places shape /\
  forall idx, inside shape idx ->
    nth_error l (if transpose then place (rev shape) (rev idx) else place shape idx) = Some (place shape (reversed shape steps idx)).
Proof.
  intros shape steps tr U L. unfold row_major_order_reverse_map. destruct (source_unit shape steps U L) as (fs & E & A). rewrite E. cbn [bind]. destruct tr; (eexists; split; [reflexivity|]); rewrite map_length, indices_length; (split; [try apply places_rev; reflexivity|]); intros idx H.
  - erewrite map_nth_error by (apply nth_indices; apply rev_inside in H; exact H). cbv beta. rewrite rev_involutive, A by auto. rewrite ravel_place by (apply reversed_inside; auto). reflexivity.
  - erewrite map_nth_error by (apply nth_indices; exact H). cbv beta. rewrite A by auto. rewrite ravel_place by (apply reversed_inside; auto). reflexivity.
Qed.
Lemma map_NoDup_in {A B} (f : A -> B) l : (forall a b, In a l -> In b l -> f a = f b -> a = b) -> NoDup l -> NoDup (map f l).
Proof.
  intros I N. induction N as [|a l Ha N IH]; [constructor|]. cbn [map]. constructor.
  - intros H. apply in_map_iff in H. destruct H as (b & E & Hb). apply Ha. rewrite <- (I b a); auto; [right; auto|left; auto].
  - apply IH. intros x y Hx Hy. apply I; right; auto.
Qed.
(** It is a permutation of the places. *)
Theorem C57_permutation : forall shape steps transpose l, unit_steps steps -> length steps <= length shape ->
  row_major_order_reverse_map shape (Some steps) transpose = Ok l -> Permutation l (seq 0 (places shape)).
Proof.
  intros shape steps tr l U L. unfold row_major_order_reverse_map. destruct (source_unit shape steps U L) as (fs & E & A). rewrite E. cbn [bind].
  assert (P : Permutation (map (fun idx => ravel shape (applies fs idx)) (indices shape)) (seq 0 (places shape))).
  { erewrite map_ext_in by (intros idx Hi; apply indices_spec in Hi; rewrite A, ravel_place by (try apply reversed_inside; auto); reflexivity).
    rewrite <- map_place, <- (map_map (reversed shape steps) (place shape)). apply Permutation_map. apply NoDup_Permutation.
    - apply map_NoDup_in; [|apply indices_NoDup]. intros a b Ha Hb Eq. apply indices_spec in Ha. apply indices_spec in Hb. rewrite <- (reversed_twice shape steps a Ha), <- (reversed_twice shape steps b Hb), Eq. reflexivity.
    - apply indices_NoDup.
    - intros x. rewrite in_map_iff. split.
      + intros (y & <- & Hy). apply indices_spec. apply reversed_inside, indices_spec, Hy.
      + intros Hx. apply indices_spec in Hx. exists (reversed shape steps x). split; [apply reversed_twice, Hx|apply indices_spec, reversed_inside, Hx]. }
  destruct tr; intros Q; injection Q as <-; [|exact P]. etransitivity; [|exact P].
  rewrite <- (map_map (@rev nat) (fun idx => ravel shape (applies fs idx))). apply Permutation_map. apply NoDup_Permutation.
  - apply map_NoDup_in; [|apply indices_NoDup]. intros a b _ _ Eq. rewrite <- (rev_involutive a), Eq. apply rev_involutive.
  - apply indices_NoDup.
  - intros x. rewrite in_map_iff. split.
    + intros (y & <- & Hy). apply indices_spec in Hy. apply indices_spec. apply rev_inside in Hy. rewrite rev_involutive in Hy. exact Hy.
    + intros Hx. exists (rev x). split; [apply rev_involutive|]. apply indices_spec. apply rev_inside. rewrite !rev_involutive. apply indices_spec, Hx.
Qed.
(** Nothing reversed, not transposed: the identity. *)
Theorem C57_identity : forall shape, row_major_order_reverse_map shape None false = Ok (seq 0 (places shape)).
Proof.
  intros shape.
  unfold row_major_order_reverse_map. destruct (source_unit shape (map (fun _ => 1%Z) shape)) as (fs & E & A); [apply Forall_forall; intros s Hs; apply in_map_iff in Hs; destruct Hs as (? & <- & _); auto|rewrite map_length; auto|].
  rewrite E. cbn [bind]. f_equal. rewrite <- map_place. apply map_ext_in. intros idx Hi. apply indices_spec in Hi. rewrite A by auto.
  assert (R : forall (sh : list nat) idx, reversed sh (map (fun _ => 1%Z) sh) idx = idx) by (induction sh as [|n r IH]; intros [|i t]; cbn; auto; rewrite IH; reflexivity).
  rewrite R. apply ravel_place, Hi.
Qed.
(** Not transposed, looking up twice gives the place one started from. *)
Theorem C57_involution : forall shape steps l k, unit_steps steps -> length steps <= length shape ->
  row_major_order_reverse_map shape (Some steps) false = Ok l -> k < places shape -> exists j, nth_error l k = Some j /\ nth_error l j = Some k.
Proof.
  intros shape steps l k U L H K. destruct (C57_map shape steps false U L) as (l' & E & _ & A). rewrite H in E. injection E as <-. rewrite <- indices_length in K. apply nth_error_Some in K. destruct (nth_error (indices shape) k) as [idx|] eqn:Ei; [|congruence].
  assert (Hi : inside shape idx) by (apply indices_spec; eapply nth_error_In; eauto).
  assert (Ek : place shape idx = k).
  { assert (Q := map_nth_error (place shape) _ _ Ei). rewrite map_place in Q. assert (k < places shape) by (rewrite <- indices_length; apply nth_error_Some; congruence). rewrite (nth_error_nth' _ 0), seq_nth in Q; try rewrite seq_length; auto. injection Q as <-. reflexivity. }
  exists (place shape (reversed shape steps idx)). rewrite <- Ek. split; [apply A, Hi|]. rewrite A by (apply reversed_inside, Hi). rewrite reversed_twice by auto. reflexivity.
Qed.
(** Other steps: an error, except that a dimension cut to one entry is repeated, so places occur
    twice. *)
Theorem C57_step_refuted : row_major_order_reverse_map [2; 2] (Some [2; 1]%Z) false = Ok [0; 1; 0; 1].
Proof. reflexivity. Qed.
Example map_instance : row_major_order_reverse_map [2; 3] (Some [-1; 1]%Z) true = Ok [3; 0; 4; 1; 5; 2]. Proof. reflexivity. Qed.
Print Assumptions C55_hms.
Print Assumptions C56_tint.
Print Assumptions C57_map.
Print Assumptions C57_permutation.
Print Assumptions C57_identity.
Print Assumptions C60_levels.
