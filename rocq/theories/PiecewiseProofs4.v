(** * API-level (array of query points) versions, concrete witnesses. *)
From Coq Require Import Reals List ZArith QArith Bool Arith Lia Lra Sorted PrimFloat.
From Coquelicot Require Import Coquelicot.
From Verif Require Import Base PiecewiseModel SpecPiecewise SpecPiecewiseApi PiecewiseProofs PiecewiseProofs2 PiecewiseProofs3.
Import ListNotations.
Open Scope R_scope.

Lemma mapM_total {S T} (f : S -> result T) (l : list S) :
  (forall a, In a l -> exists b, f a = Ok b) ->
  exists r, mapM f l = Ok r /\ length r = length l.
Proof.
  induction l as [|a t IH]; intros H; [exists []; auto|].
  destruct (H a (or_introl eq_refl)) as [b Hb].
  destruct IH as [r [Hr Hlen]]; [intros c Hc; apply H; right; auto|].
  exists (b :: r). cbn. rewrite Hb, Hr. cbn. auto.
Qed.

Lemma mapM_nth {S T} (f : S -> result T) (l : list S) (r : list T) k d e :
  mapM f l = Ok r -> (k < length l)%nat -> f (nth k l d) = Ok (nth k r e).
Proof.
  revert r k; induction l as [|a t IH]; intros r k Hm Hk; cbn in *; [lia|].
  destruct (f a) as [b|] eqn:Hb; [|discriminate]. cbn in Hm.
  destruct (mapM f t) as [bs|] eqn:Ht; [|discriminate]. cbn in Hm. inversion Hm; subst.
  destruct k; cbn; auto. apply IH; auto. lia.
Qed.

Lemma interp_x_y_polyline (x y xi : list R) cm :
  length x = length y -> nondecr x -> x <> [] ->
  exists ys, interp_x_y x y xi cm = Ok ys /\ length ys = length xi /\
  forall k, (k < length xi)%nat ->
    (forall i, (S i < length x)%nat -> at_ x i < at_ xi k < at_ x (S i) ->
       at_ ys k = chord x y i (at_ xi k)) /\
    (at_ xi k < at_ x 0 -> at_ x 0 < at_ x (length x - 1) -> at_ ys k = at_ y 0) /\
    (at_ x (length x - 1) < at_ xi k -> at_ ys k = at_ y (length y - 1)).
Proof.
  intros Hl Hn Hx. unfold interp_x_y.
  replace (Nat.eqb (length x) (length y)) with true by (symmetry; apply Nat.eqb_eq; auto). cbn [negb].
  destruct (mapM_total (interp1 x y cm) xi) as [ys [Hys Hlen]].
  { intros a _. apply interp1_ok; auto. }
  exists ys. split; auto. split; auto. intros k Hk.
  assert (Hv : interp1 x y cm (at_ xi k) = Ok (at_ ys k)) by (apply (mapM_nth _ _ _ k 0 0 Hys); auto).
  split; [|split].
  - intros i Hi Hlt. rewrite (interp1_inside x y cm _ i) in Hv; auto. inversion Hv; auto.
  - intros H1 H2. rewrite (interp1_left x y cm) in Hv; auto. inversion Hv; auto.
  - intros H1. rewrite (interp1_right x y cm) in Hv; auto. inversion Hv; auto.
Qed.

Lemma interp_x_y_within (x y xi : list R) cm m M ys k :
  x <> [] -> within m M y -> interp_x_y x y xi cm = Ok ys -> (k < length xi)%nat ->
  m <= at_ ys k <= M.
Proof.
  intros Hx Hw Hi Hk. unfold interp_x_y in Hi.
  destruct (Nat.eqb_spec (length x) (length y)) as [Hl|]; cbn in Hi; [|discriminate].
  apply (interp1_within x y cm (at_ xi k)); auto. apply (mapM_nth _ _ _ k 0 0 Hi); auto.
Qed.

Lemma segment_containing_xi_spec (x xi : list R) cm :
  exists r, segment_containing_xi x xi (all_segs x) cm = Ok r /\ length r = length xi /\
  forall k, (k < length xi)%nat ->
    (nth k r [] = [] /\ forall i, ~ in_segment x (at_ xi k) i) \/
    (exists i, nth k r [] = [i] /\ in_segment x (at_ xi k) i /\
       forall j, in_segment x (at_ xi k) j -> if cm then (j <= i)%nat else (i <= j)%nat).
Proof.
  unfold segment_containing_xi.
  destruct (mapM_total (segment_containing1 x (all_segs x) cm) xi) as [r [Hr Hlen]].
  { intros a _. rewrite segment_containing1_eq. eauto. }
  exists r. repeat split; auto. intros k Hk.
  assert (Hv : segment_containing1 x (all_segs x) cm (at_ xi k) = Ok (nth k r []))
    by (apply (mapM_nth _ _ _ k 0 [] Hr); auto).
  destruct (segment_containing1_spec x cm (at_ xi k)) as [[H1 H2]|[i (H1 & H2 & H3)]].
  - left. split; auto. congruence.
  - right. exists i. repeat split; auto; try apply H2. congruence.
Qed.

Lemma segments_less_than_xi_spec (x xi : list R) oe :
  exists r, segments_less_than_xi x xi (all_segs x) oe = Ok r /\ length r = length xi /\
  forall k, (k < length xi)%nat ->
    StronglySorted lt (nth k r []) /\
    forall i, In i (nth k r []) <->
      ((S i < length x)%nat /\ if oe then at_ x (S i) <= at_ xi k else at_ x (S i) < at_ xi k).
Proof.
  unfold segments_less_than_xi.
  destruct (mapM_total (segments_less_than1 x (all_segs x) oe) xi) as [r [Hr Hlen]].
  { intros a _. rewrite segments_less_than1_eq. eauto. }
  exists r. split; [auto|]. split; [auto|]. intros k Hk.
  assert (Hv : segments_less_than1 x (all_segs x) oe (at_ xi k) = Ok (nth k r []))
    by (apply (mapM_nth _ _ _ k 0 [] Hr); auto).
  rewrite segments_less_than1_eq in Hv. injection Hv as Hv'. rewrite <- Hv'. split.
  - assert (G : forall (p : nat -> bool) n a, StronglySorted lt (filter p (seq a n))).
    { intros p n. induction n as [|n IH]; intros a; cbn; [constructor|].
      destruct (p a); [|apply IH]. constructor; [apply IH|].
      apply Forall_forall. intros j Hj. apply filter_In in Hj. destruct Hj as [Hj _].
      apply in_seq in Hj. lia. }
    apply G.
  - intros i. rewrite filter_In. unfold all_segs. rewrite in_seq.
    destruct oe; [rewrite Rleb_true|rewrite Rltb_true]; split; intros [H1 H2]; split; auto; lia.
Qed.

Lemma segments_between_spec (x xi xj : list R) :
  nondecr x -> (2 <= length x)%nat -> length xi = length xj ->
  (forall k, (k < length xi)%nat ->
     at_ x 0 <= at_ xi k /\ at_ xi k < at_ xj k /\ at_ xj k <= at_ x (length x - 1)) ->
  exists r, segments_between_xi_and_xj x xi xj = Ok r /\ length r = length xi /\
  forall k d, (k < length xi)%nat ->
    chain (at_ xi k) (at_ xj k) (pieces x (at_ xi k) (at_ xj k) (nth k r d)).
Proof.
  intros Hn Hlen Hij Hr.
  unfold segments_between_xi_and_xj.
  assert (Hc : forall k, (k < length xi)%nat -> nth k (combine xi xj) (0, 0) = (at_ xi k, at_ xj k)).
  { intros k Hk. rewrite combine_nth by auto. reflexivity. }
  assert (Hcl : length (combine xi xj) = length xi) by (rewrite combine_length; lia).
  destruct (mapM_total (fun p => segments_between1 x (fst p) (snd p)) (combine xi xj)) as [r [Hm Hl]].
  { intros p Hp. destruct (In_nth _ _ (0, 0) Hp) as [k [Hk Hnth]]. rewrite Hcl in Hk.
    rewrite Hc in Hnth by auto. destruct (Hr k Hk) as (A1 & A2 & A3).
    destruct (segments_between1_tile x (at_ xi k) (at_ xj k)) as [q [Hq _]]; auto.
    exists q. rewrite <- Hnth. exact Hq. }
  exists r. split; auto. split; [lia|]. intros k d Hk. destruct (Hr k Hk) as (A1 & A2 & A3).
  destruct (segments_between1_tile x (at_ xi k) (at_ xj k)) as [q [Hq Hch]]; auto.
  pose proof (mapM_nth _ _ _ k (0, 0) d Hm ltac:(lia)) as Hv. rewrite Hc in Hv by auto. cbn in Hv.
  rewrite Hq in Hv. inversion Hv as [Hv']. rewrite <- Hv'. exact Hch.
Qed.

Lemma interpolant_1 x y cm a b f t : length x = length y ->
  interpolant x y cm a b f -> a <= t <= b -> interp1 x y cm t = Ok (f t).
Proof.
  intros Hl Hf Ht. specialize (Hf t Ht). unfold interp_x_y in Hf.
  rewrite Hl, Nat.eqb_refl in Hf. cbn in Hf.
  destruct (interp1 x y cm t); cbn in Hf; [|discriminate]. inversion Hf; auto.
Qed.

Lemma interpolant_exists (x y : list R) cm a b : length x = length y -> x <> [] ->
  exists f, interpolant x y cm a b f.
Proof.
  intros Hl Hx. destruct (interp_fun_exists x y cm Hl Hx) as [f Hf].
  exists f. intros t _. unfold interp_x_y. rewrite Hl, Nat.eqb_refl. cbn. rewrite Hf. reflexivity.
Qed.

Lemma integrate_api (x y : list R) xi xj I : length x = length y ->
  integrate1 x y xi xj = Ok I -> integrate_x_y_between_xi_xj x y [xi] [xj] = Ok [I].
Proof.
  intros Hl H. unfold integrate_x_y_between_xi_xj. rewrite Hl, Nat.eqb_refl. cbn. rewrite H. reflexivity.
Qed.

Lemma interp_api (x y : list R) cm v r : length x = length y ->
  interp1 x y cm v = Ok r -> interp_x_y x y [v] cm = Ok [r].
Proof.
  intros Hl H. unfold interp_x_y. rewrite Hl, Nat.eqb_refl. cbn. rewrite H. reflexivity.
Qed.

Lemma interp_before_step (x y : list R) v i :
  length x = length y -> nondecr x -> (S i < length x)%nat ->
  at_ x i < at_ x (S i) -> at_ x (S i) = v ->
  interp_x_y x y [v] false = Ok [at_ y (S i)].
Proof. intros. apply interp_api; auto. apply interp1_before_step; auto. Qed.
Lemma interp_after_step (x y : list R) v i :
  length x = length y -> nondecr x -> (S i < length x)%nat ->
  at_ x i < at_ x (S i) -> at_ x i = v ->
  interp_x_y x y [v] true = Ok [at_ y i].
Proof. intros. apply interp_api; auto. apply interp1_after_step; auto. Qed.

Lemma integrate_additive (x y : list R) a b c :
  length x = length y -> nondecr x -> (2 <= length x)%nat ->
  at_ x 0 <= a -> a < b -> b < c -> c <= at_ x (length x - 1) ->
  exists I J K, integrate_x_y_between_xi_xj x y [a] [b] = Ok [I] /\
                integrate_x_y_between_xi_xj x y [b] [c] = Ok [J] /\
                integrate_x_y_between_xi_xj x y [a] [c] = Ok [K] /\ I + J = K.
Proof.
  intros. destruct (integrate1_additive x y a b c) as (I & J & K & HI & HJ & HK & E); auto.
  exists I, J, K. repeat split; auto; apply integrate_api; auto.
Qed.

Lemma avg_bounds (x y : list R) vi vj m M :
  length x = length y -> nondecr x -> (2 <= length x)%nat -> within m M y ->
  at_ x 0 <= vi -> vi < vj -> vj <= at_ x (length x - 1) ->
  exists I r, integrate_x_y_between_xi_xj x y [vi] [vj] = Ok [I] /\
            avg_x_y_between_xi_xj x y [vi] [vj] = Ok [r] /\
            r * (vj - vi) = I /\ m <= r <= M.
Proof.
  intros Hl Hn Hlen Hw H0 Hlt H1.
  destruct (avg1_bounds x y vi vj m M) as (I & r & HI & Hr & E & B); auto.
  exists I, r. repeat split; auto; try apply B; try (apply integrate_api; auto).
  unfold avg_x_y_between_xi_xj. rewrite Hl, Nat.eqb_refl. cbn. rewrite Hr. reflexivity.
Qed.

Lemma integrate_degenerate (x y : list R) v i :
  length x = length y -> nondecr x -> (S (S i) < length x)%nat ->
  at_ x i < at_ x (S i) < at_ x (S (S i)) -> v = at_ x (S i) ->
  integrate_x_y_between_xi_xj x y [v] [v] = Ok [trap x y (S i) + trap x y i].
Proof. intros. apply integrate_api; auto. apply integrate1_degenerate; auto. Qed.

Lemma integrate_is_integral (x y : list R) cm f xi xj :
  length x = length y -> nondecr x -> (2 <= length x)%nat ->
  at_ x 0 <= xi -> xi < xj -> xj <= at_ x (length x - 1) ->
  interpolant x y cm xi xj f ->
  exists I, integrate_x_y_between_xi_xj x y [xi] [xj] = Ok [I] /\ is_RInt f xi xj I.
Proof.
  intros Hl Hn Hlen H0 Hlt H1 Hf.
  destruct (integrate1_RInt x y f xi xj) as [I [HI HR]]; auto.
  { intros t Ht. exists cm. eapply interpolant_1; eauto. }
  exists I. split; auto. apply integrate_api; auto.
Qed.

(** Binary64 value of the default eps = 1e-15. *)
Definition eps15 : PrimFloat.float := 0x1.203af9ee75616p-50%float.

Lemma force_strictly_increasing_float_cex :
  exists x x' y', @force_strictly_increasing _ NumF x x true eps15 = Ok (x', y') /\
     @non_decreasing _ NumF x = true /\ @strictly_increasing _ NumF x' = false.
Proof.
  exists [0; 100; 100; 200]%float. do 2 eexists. vm_compute. repeat split; reflexivity.
Qed.

Lemma force_strictly_increasing_mutates_cex :
  exists x : list Q, @force_strictly_increasing_caller_x _ NumQ x true (1 # 1000000000000000)
     = [0; (999999999999999 # 1000000000000000); 1; 2]%Q /\ x = [0; 1; 1; 2]%Q.
Proof. exists [0; 1; 1; 2]%Q. split; vm_compute; reflexivity. Qed.

(** ramp, null segment, constant, step: indices are deleted by position, so the null
    segment 1 is reported both as a constant and as a step while the real constant 2
    and the real step 3 are lost; with a shorter line it is an IndexError. *)
Lemma classification_cex :
  exists x y : list Q, @ramps_constants_steps _ NumQ x y = Ok ([0%nat], [1%nat], [1%nat]) /\
    x = [0; 1; 1; 2; 2]%Q /\ y = [0; 1; 1; 1; 2]%Q.
Proof. exists [0; 1; 1; 2; 2]%Q, [0; 1; 1; 1; 2]%Q. split; [vm_compute; reflexivity|auto]. Qed.
Lemma classification_cex2 :
  @ramps_constants_steps _ NumQ [0; 1; 1; 2]%Q [0; 1; 1; 1]%Q = Err IndexError.
Proof. vm_compute; reflexivity. Qed.

Lemma integrate_point_cex :
  exists x y, nondecr x /\ length x = length y /\ at_ x 0 <= 1 <= at_ x (length x - 1) /\
   exists I, integrate_x_y_between_xi_xj x y [1] [1] = Ok [I] /\ I <> 0.
Proof.
  exists [0; 1; 2], [1; 1; 1].
  assert (Hn : nondecr [0; 1; 2]).
  { intros [|[|[|i]]] Hi; cbn in *; try lra; lia. }
  split; auto. split; [reflexivity|]. split; [cbn; lra|].
  eexists. split.
  - apply integrate_api; [reflexivity|].
    apply (integrate1_degenerate [0; 1; 2] [1; 1; 1] 1 0); auto; cbn; lra || lia.
  - unfold trap. cbn. lra.
Qed.
