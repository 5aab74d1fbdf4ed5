(** * C152: vehicles (MovingPointLoads) *)
From Coq Require Import Reals List Arith ZArith Bool Lia Lra.
From Verif Require Import Base BeamModel PropsBeam.
Import ListNotations.
Local Open Scope R_scope.

(** The documented movement of an axle at distance a from the reference point.  Forwards (v > 0) the reference
    point is at x0 at time t0, the axle at x0 + a; backwards (v < 0) the vehicle is mirrored and enters at the right end x0 + L. *)
Definition axle_at (v L t0 x0 a t : R) : R := if Rltb v 0 then x0 + L - a + v * (t - t0) else x0 + a + v * (t - t0).
Definition enters (v L x0 : R) : R := if Rltb v 0 then x0 + L else x0.
Definition leaves (v L x0 : R) : R := if Rltb v 0 then x0 else x0 + L.
Definition is_on (v L t0 x0 a t : R) : Prop := x0 <= axle_at v L t0 x0 a t <= x0 + L.

Lemma split_nth {A B} (l : list (A * B)) i d d' : nth i (fst (split l)) d = fst (nth i l (d, d')) /\ nth i (snd (split l)) d' = snd (nth i l (d, d')).
Proof. revert i. induction l as [|[a b] l IH]; intros [|i]; cbn [split]; auto; destruct (split l) eqn:E; cbn [fst snd nth]; auto; apply IH. Qed.
Lemma nth_map1 (f : R -> R) l i : (i < length l)%nat -> nth i (map f l) 0 = f (nth i l 0).
Proof. intros H. rewrite (nth_indep _ 0 (f 0)) by (rewrite map_length; auto). apply map_nth. Qed.
Lemma div_both a b v t : v <> 0 -> ((if Rltb v 0 then b <= v * (t - a) else v * (t - a) <= b) <-> t <= a + b / v) /\ ((if Rltb v 0 then v * (t - a) <= b else b <= v * (t - a)) <-> a + b / v <= t).
Proof.
  intros Hv. set (z := t - (a + b / v)). assert (Y : v * (t - a) - b = v * z) by (unfold z; field; auto). assert (Z : t - (a + b / v) = z) by reflexivity. clearbody z.
  destruct (Rltb v 0) eqn:S; [apply Rltb_true in S|apply Rltb_false in S; assert (0 < v) by lra]; split; split; intros H'.
  all: match goal with |- _ <= _ + _ / _ => assert (z <= 0) by nra; lra | |- _ + _ / _ <= _ => assert (0 <= z) by nra; lra | H : _ <= _ + _ / _ |- _ => assert (z <= 0) by lra; nra | H : _ + _ / _ <= _ |- _ => assert (0 <= z) by lra; nra end.
Qed.
Lemma div_le a b v t : v <> 0 -> (if Rltb v 0 then b <= v * (t - a) else v * (t - a) <= b) <-> t <= a + b / v. Proof. intros H. apply div_both. auto. Qed.
Lemma div_ge a b v t : v <> 0 -> (if Rltb v 0 then v * (t - a) <= b else b <= v * (t - a)) <-> a + b / v <= t. Proof. intros H. apply div_both. auto. Qed.

(** *** positions and passing times *)
Theorem C152_positions o t v0 t0 x0 i : (i < length (mxt o))%nat ->
  let o' := axle_positions o t v0 t0 x0 in length (xnow o') = length (mxt o) /\ nth i (xnow o') 0 = (if Rltb v0 0 then - nth i (mxt o) 0 else nth i (mxt o) 0) + x0 + v0 * (t - t0) /\
  mxt o' = mxt o /\ mp o' = mp o /\ mv_ o' = mv_ o /\ mL o' = mL o /\ mt0 o' = mt0 o /\ mx0 o' = mx0 o /\ start_time o' = start_time o /\ end_time o' = end_time o.
Proof.
  intros Hi o'. unfold o', axle_positions, set_xnow. cbn [xnow mxt mp mv_ mL mt0 mx0 start_time end_time]. repeat (match goal with |- _ /\ _ => split; auto end); [unfold positions; apply map_length|].
  unfold positions. rewrite nth_map1 by auto. destruct (Rltb v0 0); ring.
Qed.
Theorem C152_passing o x v0 t0 x0 i : v0 <> 0 -> (i < length (mxt o))%nat -> length (time_axles_pass_point o x v0 t0 x0) = length (mxt o) /\
  forall t, nth i (xnow (axle_positions o t v0 t0 x0)) 0 = x <-> t = nth i (time_axles_pass_point o x v0 t0 x0) 0.
Proof.
  intros Hv Hi. split; [unfold time_axles_pass_point; apply map_length|]. intros t. rewrite (proj1 (proj2 (C152_positions o t v0 t0 x0 i Hi))). unfold time_axles_pass_point.
  rewrite nth_map1 by auto. set (a := nth i (mxt o) 0).
  split; [intros <- |intros ->]; destruct (Rltb v0 0); field; auto.
Qed.
Theorem C152_passing_beam o x v L ts i : mv_ o = Some v -> mL o = Some L -> time_axles_pass_beam_point o x = Ok ts -> (i < length (mxt o))%nat ->
  length ts = length (mxt o) /\ forall t, axle_at v L (mt0 o) (mx0 o) (nth i (mxt o) 0) t = x <-> t = nth i ts 0.
Proof.
  intros EV EL H Hi. unfold time_axles_pass_beam_point in H. rewrite EV, EL in H. unfold axle_at. destruct (Rltb 0 v) eqn:E1.
  - apply Rltb_true in E1. injection H as <-. destruct (C152_passing o x v (mt0 o) (mx0 o) i ltac:(lra) Hi) as [A B]. split; auto. intros t. rewrite <- B. rewrite (proj1 (proj2 (C152_positions o t v (mt0 o) (mx0 o) i Hi))). replace (Rltb v 0) with false by (symmetry; apply Rltb_false; lra). split; intros <-; ring.
  - destruct (Rltb v 0) eqn:E2; [|discriminate]. apply Rltb_true in E2. injection H as <-. destruct (C152_passing o x v (mt0 o) (L + mx0 o) i ltac:(lra) Hi) as [A B]. split; auto. intros t. rewrite <- B. rewrite (proj1 (proj2 (C152_positions o t v (mt0 o) (L + mx0 o) i Hi))). replace (Rltb v 0) with true by (symmetry; apply Rltb_true; lra). split; intros <-; ring.
Qed.
(** *** the loads for SpecBeam *)
Theorem C152_convert o v L t0 x0 lines op : convert_to_specbeam o (Some v) (Some L) (Some t0) (Some x0) = Ok (lines, op) -> length (mp o) = length (mxt o) ->
  v <> 0 /\ length lines = length (mxt o) /\ length op = length (mxt o) /\ forall i, (i < length (mxt o))%nat ->
  let a := nth i (mxt o) 0 in exists s e, nth i lines ([], []) = ([s; s; e; e], [0; nth i (mp o) 0; nth i (mp o) 0; 0]) /\
  axle_at v L t0 x0 a s = enters v L x0 /\ axle_at v L t0 x0 a e = leaves v L x0 /\ (forall t, is_on v L t0 x0 a t <-> s <= t <= e) /\
  forall t, fst (nth i op (0, 0)) * t + snd (nth i op (0, 0)) = axle_at v L t0 x0 a t.
Proof.
  unfold convert_to_specbeam. intros H HL. destruct (Reqb v 0) eqn:EV; [discriminate|]. apply Reqb_false in EV. set (one := fun q : R * R => _) in H. injection H as H. assert (SL := split_length_l (map one (combine (mxt o) (mp o)))). assert (SR := split_length_r (map one (combine (mxt o) (mp o)))). rewrite H in SL, SR. cbn [fst snd] in SL, SR. rewrite map_length, combine_length, HL, Nat.min_id in SL, SR.
  split; auto. split; auto. split; auto. intros i Hi. set (a := nth i (mxt o) 0).
  assert (N := split_nth (map one (combine (mxt o) (mp o))) i ([], []) (0, 0)). rewrite H in N. cbn [fst snd] in N. destruct N as [N1 N2].
  assert (E : nth i (map one (combine (mxt o) (mp o))) (([], []), (0, 0)) = one (a, nth i (mp o) 0)).
  { rewrite (nth_indep _ _ (one (0, 0))) by (rewrite map_length, combine_length, HL; lia). rewrite map_nth. rewrite combine_nth by auto. reflexivity. }
  rewrite E in N1, N2. rewrite N1, N2. unfold one. unfold is_on, axle_at, enters, leaves. destruct (Rltb 0 v) eqn:E1.
  - apply Rltb_true in E1. assert (V0 : Rltb v 0 = false) by (apply Rltb_false; lra). rewrite V0. cbn [fst snd]. exists (t0 + (0 - a) / v), (t0 + (L - a) / v). split; auto. split; [field; auto|]. split; [field; auto|]. split; [|intros t; ring].
    intros t. assert (D1 := div_ge t0 (0 - a) v t EV). assert (D2 := div_le t0 (L - a) v t EV). rewrite V0 in D1, D2. rewrite <- D1, <- D2. lra.
  - assert (V1 : v < 0) by (apply Rltb_false in E1; lra). assert (V0 : Rltb v 0 = true) by (apply Rltb_true; auto). rewrite V0. cbn [fst snd]. exists (t0 - a * -1 / v), (t0 - (L + a * -1) / v). split; auto. split; [field; auto|]. split; [field; auto|]. split; [|intros t; ring].
    intros t. replace (t0 - a * -1 / v) with (t0 + a / v) by (field; auto). replace (t0 - (L + a * -1) / v) with (t0 + (a - L) / v) by (field; auto). assert (D1 := div_ge t0 a v t EV). assert (D2 := div_le t0 (a - L) v t EV). rewrite V0 in D1, D2. rewrite <- D1, <- D2. lra.
Qed.
Theorem C152_convert_errors o t0 x0 L : convert_to_specbeam o (Some 0) (Some L) t0 x0 = Err ValueError /\ (mv_ o = None -> convert_to_specbeam o None (Some L) t0 x0 = Err TypeError).
Proof. unfold convert_to_specbeam. split; [destruct (Reqb 0 0) eqn:E; auto; apply Reqb_false in E; lra|intros ->; auto]. Qed.
(** what is left out is taken from the object *)
Theorem C152_defaults o v L : mv_ o = Some v -> mL o = Some L -> convert_to_specbeam o None None None None = convert_to_specbeam o (Some v) (Some L) (Some (mt0 o)) (Some (mx0 o)).
Proof. unfold convert_to_specbeam. intros -> ->. reflexivity. Qed.
(** *** the constructed object *)
Theorem C152_constructor x p off v L t0 x0 o : mpl_init x p off (Some v) (Some L) t0 x0 = Ok o -> v <> 0 ->
  mxt o = map (fun a => a + off) x /\ mp o = p /\ mv_ o = Some v /\ mL o = Some L /\ mt0 o = t0 /\ mx0 o = x0 /\
  exists st et, start_time o = Some st /\ end_time o = Some et /\ length st = length x /\ length et = length x /\
  forall i, (i < length x)%nat -> forall t, is_on v L t0 x0 (nth i (mxt o) 0) t <-> nth i st 0 <= t <= nth i et 0.
Proof.
  unfold mpl_init, setv. cbn [mL mxt mt0]. intros H HV. injection H as <-. cbn [mxt mp mv_ mL mt0 mx0 start_time end_time]. repeat (match goal with |- _ /\ _ => split; auto end). eexists. eexists. split; [reflexivity|]. split; [reflexivity|].
  split; [destruct (Rltb 0 v); rewrite !map_length; auto|]. split; [destruct (Rltb 0 v); rewrite !map_length; auto|]. intros i Hi t. set (l := map (fun a => a + off) x). assert (HL : (i < length l)%nat) by (unfold l; rewrite map_length; auto).
  assert (M : forall f : R -> R, nth i (map f l) 0 = f (nth i l 0)) by (intros f; rewrite (nth_indep _ 0 (f 0)) by (rewrite map_length; auto); apply map_nth). set (a := nth i l 0) in *. unfold is_on, axle_at.
  destruct (Rltb 0 v) eqn:E1; rewrite !M; fold a.
  - apply Rltb_true in E1. assert (V0 : Rltb v 0 = false) by (apply Rltb_false; lra). rewrite V0. assert (D1 := div_ge t0 (0 - a) v t HV). assert (D2 := div_le t0 (L - a) v t HV). rewrite V0 in D1, D2. rewrite <- D1, <- D2. lra.
  - assert (V1 : v < 0) by (apply Rltb_false in E1; lra). assert (V0 : Rltb v 0 = true) by (apply Rltb_true; auto). rewrite V0. replace (t0 - -1 * a / v) with (t0 + a / v) by (field; auto). replace (t0 - (L + -1 * a) / v) with (t0 + (a - L) / v) by (field; auto). assert (D1 := div_ge t0 a v t HV). assert (D2 := div_le t0 (a - L) v t HV). rewrite V0 in D1, D2. rewrite <- D1, <- D2. lra.
Qed.
Theorem C152_constructor_errors x p off v t0 x0 : mpl_init x p off (Some v) None t0 x0 = Err TypeError /\ (exists o, mpl_init x p off None None t0 x0 = Ok o).
Proof. unfold mpl_init, setv. cbn [mL]. eauto. Qed.
(** *** the loads at one time: correct if the vehicle starts at time 0 and, backwards, if the beam begins at 0 *)
Theorem C152_loads x p off v L x0 o t o' : mpl_init x p off (Some v) (Some L) 0 x0 = Ok o -> v <> 0 -> (v < 0 -> x0 = 0) -> length p = length x -> point_loads_on_beam o t = Ok o' ->
  length (xnow o') = length x /\ length (pnow o') = length x /\ forall i, (i < length x)%nat -> let a := nth i x 0 + off in nth i (xnow o') 0 = axle_at v L 0 x0 a t /\
  (is_on v L 0 x0 a t -> nth i (pnow o') 0 = nth i p 0) /\ (~ is_on v L 0 x0 a t -> nth i (pnow o') 0 = 0).
Proof.
  intros HI HV HX HL H. destruct (C152_constructor _ _ _ _ _ _ _ _ HI HV) as (A1 & A2 & A3 & A4 & A5 & A6 & st & et & S1 & S2 & S3 & S4 & S5). unfold point_loads_on_beam in H. rewrite A3, A4, S1, S2 in H.
  assert (PN : length (pnow o) = length x) by (unfold mpl_init, setv in HI; cbn [mL] in HI; injection HI as <-; cbn [pnow]; rewrite !map_length; auto). rewrite A2, PN, HL, Nat.eqb_refl in H. cbn [bind] in H. injection H as <-. cbn [xnow pnow].
  assert (LX : length (mxt o) = length x) by (rewrite A1, map_length; auto). split; [unfold axle_positions, set_xnow, positions; cbn [xnow]; rewrite map_length; auto|]. split; [rewrite map_length, !combine_length; lia|].
  intros i Hi. set (a := nth i x 0 + off). assert (EA : nth i (mxt o) 0 = a) by (rewrite A1; apply (nth_map1 (fun a => a + off)); auto). specialize (S5 i Hi t). rewrite EA in S5.
  split. { transitivity (nth i (xnow (axle_positions o t v 0 (if Rleb 0 v then mx0 o else L))) 0); [reflexivity|]. rewrite (proj1 (proj2 (C152_positions o t v 0 (if Rleb 0 v then mx0 o else L) i ltac:(lia)))), EA, A6. unfold axle_at. destruct (Rltb v 0) eqn:E2; [apply Rltb_true in E2|apply Rltb_false in E2].
    - assert (E3 : Rleb 0 v = false) by (apply Rleb_false; lra). rewrite E3, (HX E2). ring.
    - assert (E3 : Rleb 0 v = true) by (apply Rleb_true; lra). rewrite E3. ring. }
  assert (N : nth i (map (fun q => if Rltb t (fst (snd q)) || Rltb (snd (snd q)) t then 0 else fst q) (combine p (combine st et))) 0 = if Rltb t (nth i st 0) || Rltb (nth i et 0) t then 0 else nth i p 0).
  { set (f := fun q : R * (R * R) => _). rewrite (nth_indep _ 0 (f (0, (0, 0)))) by (rewrite map_length, !combine_length; lia). rewrite map_nth. rewrite combine_nth by (rewrite combine_length; lia). rewrite combine_nth by lia. reflexivity. }
  rewrite N. split; intros HO.
  - apply S5 in HO. destruct (Rltb t (nth i st 0)) eqn:X1; [apply Rltb_true in X1; lra|]. destruct (Rltb (nth i et 0) t) eqn:X2; [apply Rltb_true in X2; lra|]. reflexivity.
  - destruct (Rltb t (nth i st 0)) eqn:X1; [reflexivity|]. destruct (Rltb (nth i et 0) t) eqn:X2; [reflexivity|]. exfalso. apply HO, S5. apply Rltb_false in X1. apply Rltb_false in X2. lra.
Qed.
(** *** otherwise the position is wrong: t0 is dropped *)
Theorem C152_start_time_refuted : exists o o', mpl_init [0] [1] 0 (Some 1) (Some 10) 5 0 = Ok o /\ point_loads_on_beam o 5 = Ok o' /\ xnow o' = [5] /\ pnow o' = [1] /\ axle_at 1 10 5 0 0 5 = 0.
Proof.
  unfold mpl_init, setv. cbn [mL]. eexists. eexists. split; [reflexivity|]. unfold point_loads_on_beam. cbn [mv_ mL start_time end_time mp pnow map length Nat.eqb bind mxt]. split; [reflexivity|]. unfold axle_positions, set_xnow, positions, axle_at. cbn [xnow pnow map mxt mx0 combine fst snd mt0].
  assert (E1 : Rltb 1 0 = false) by (apply Rltb_false; lra). assert (E2 : Rltb 0 1 = true) by (apply Rltb_true; lra). assert (E3 : Rleb 0 1 = true) by (apply Rleb_true; lra). rewrite E1, E2, E3. cbn [map combine fst snd]. split; [f_equal; ring|]. split; [|ring].
  replace (Rltb 5 (5 + (0 - (0 + 0)) / 1)) with false by (symmetry; apply Rltb_false; lra). replace (Rltb (5 + (10 - (0 + 0)) / 1) 5) with false by (symmetry; apply Rltb_false; lra). reflexivity.
Qed.
(** ... and, backwards, x0 *)
Theorem C152_backwards_refuted : exists o o', mpl_init [0] [1] 0 (Some (-1)) (Some 10) 0 3 = Ok o /\ point_loads_on_beam o 0 = Ok o' /\ xnow o' = [10] /\ axle_at (-1) 10 0 3 0 0 = 13.
Proof.
  unfold mpl_init, setv. cbn [mL]. eexists. eexists. split; [reflexivity|]. unfold point_loads_on_beam. cbn [mv_ mL start_time end_time mp pnow map length Nat.eqb bind mxt]. split; [reflexivity|]. unfold axle_positions, set_xnow, positions, axle_at. cbn [xnow pnow map mxt mx0 combine fst snd mt0].
  assert (E1 : Rltb (-1) 0 = true) by (apply Rltb_true; lra). assert (E3 : Rleb 0 (-1) = false) by (apply Rleb_false; lra). rewrite E1, E3. cbn [map]. split; [f_equal; ring|ring].
Qed.
(** a length assigned later does not change the times *)
Definition assign_L (o : mpl) (L : R) : mpl := mkM (mx o) (mp o) (moffset o) (mxt o) (Some L) (mt0 o) (mv_ o) (mx0 o) (start_time o) (end_time o) (xnow o) (pnow o).
Theorem C152_assigned_length_refuted : exists o o', mpl_init [0] [1] 0 (Some 1) (Some 10) 0 0 = Ok o /\ point_loads_on_beam (assign_L o 20) 15 = Ok o' /\ xnow o' = [15] /\ pnow o' = [0] /\ is_on 1 20 0 0 0 15.
Proof.
  unfold mpl_init, setv. cbn [mL]. eexists. eexists. split; [reflexivity|]. unfold point_loads_on_beam, assign_L. cbn [mv_ mL start_time end_time mp pnow map length Nat.eqb bind mxt]. split; [reflexivity|]. unfold axle_positions, set_xnow, positions, is_on, axle_at. cbn [xnow pnow map mxt mx0 combine fst snd mt0].
  assert (E1 : Rltb 1 0 = false) by (apply Rltb_false; lra). assert (E2 : Rltb 0 1 = true) by (apply Rltb_true; lra). assert (E3 : Rleb 0 1 = true) by (apply Rleb_true; lra). rewrite E1, E2, E3. cbn [map combine fst snd]. split; [f_equal; ring|]. split; [|lra].
  replace (Rltb (0 + (10 - (0 + 0)) / 1) 15) with true by (symmetry; apply Rltb_true; lra). rewrite orb_true_r. reflexivity.
Qed.
(** a two axle vehicle going backwards *)
Theorem C152_witness : exists o lines op, mpl_init [-1; -3] [5; 7] 0 (Some (-2)) (Some 10) 4 0 = Ok o /\ convert_to_specbeam o None None None None = Ok (lines, op) /\
  lines = [([4.5; 4.5; 9.5; 9.5], [0; 5; 5; 0]); ([5.5; 5.5; 10.5; 10.5], [0; 7; 7; 0])] /\ op = [(-2, 19); (-2, 21)].
Proof.
  unfold mpl_init, setv. cbn [mL]. eexists. eexists. eexists. split; [reflexivity|]. unfold convert_to_specbeam. cbn [mv_ mL mt0 mx0 mxt mp map combine]. destruct (Reqb (-2) 0) eqn:E; [apply Reqb_true in E; lra|]. assert (E2 : Rltb 0 (-2) = false) by (apply Rltb_false; lra). rewrite E2. cbn [split]. split; [reflexivity|]. split; repeat (apply f_equal2; [repeat (apply f_equal2; [repeat (apply f_equal2; try lra)|]); try reflexivity; try lra|]); reflexivity.
Qed.
