(** * Property theorems: time-dependent loads (C29, C30, C67) *)
From Coq Require Import Reals List Arith Lia Lra Bool.
From Coquelicot Require Import Coquelicot.
From Verif Require Import Base PiecewiseModel SpectralModel SpecSpectral LoadModel SpecPiecewise SpecLoad
  PiecewiseProofs LayersProofs SpectralProofs SpectralProofs4 LoadProofs LoadProofs2 LoadProofs3.
Import ListNotations.
Open Scope R_scope.

Lemma rows_spec {T} {P : R -> R -> R -> Prop} (sets : R -> result T) (ent : R -> T -> R -> result R) (eigs tvals : list R) :
  (forall t, In t tvals -> exists s, sets t = Ok s /\ forall lam, In lam eigs -> exists v, ent t s lam = Ok v /\ P t lam v) ->
  exists A, mapM (fun t => s <- sets t ;; mapM (ent t s) eigs) tvals = Ok A /\ length A = length tvals /\
    (forall i j, (i < length tvals)%nat -> (j < length eigs)%nat -> P (nth i tvals 0) (nth j eigs 0) (entry A i j)).
Proof.
  intros H. induction tvals as [|t tv IH].
  - exists []. cbn. repeat split; auto. intros; lia.
  - destruct IH as (A & E & L & HA); [intros; apply H; right; auto|].
    destruct (H t (or_introl eq_refl)) as (s & Es & Hs).
    assert (R : exists row, mapM (ent t s) eigs = Ok row /\ forall j, (j < length eigs)%nat -> P t (nth j eigs 0) (nth j row 0)).
    { clear - Hs. induction eigs as [|lam eg IH].
      - exists []. cbn. split; auto. intros; lia.
      - destruct IH as (row & E & Hrow); [intros; apply Hs; right; auto|].
        destruct (Hs lam (or_introl eq_refl)) as (v & Ev & Pv). exists (v :: row). cbn [mapM]. rewrite Ev. cbn [bind]. rewrite E. split; auto.
        intros [|j] Hj; cbn; auto. apply Hrow. cbn in Hj. lia. }
    destruct R as (row & Er & Hrow). exists (row :: A). cbn [mapM]. rewrite Es. cbn [bind]. rewrite Er. cbn [bind]. rewrite E.
    split; [reflexivity|]. split; [cbn; auto|]. intros [|i] j Hi Hj; cbn [nth entry]; [apply Hrow; auto|]. apply HA; auto. cbn in Hi. lia.
Qed.

Lemma clip_until x t : clip x t (SpecPiecewise.at_ x (length x - 1)) = until x t.
Proof. reflexivity. Qed.

(** C29 *)
Theorem C29_Eload_linear : forall im loadtim loadmag eigs tvals dT load,
  nondecr loadtim -> (1 <= length loadtim)%nat -> length loadtim = length loadmag ->
  no_doubled_points loadtim loadmag -> load_is loadtim loadmag load ->
  (forall lam, In lam eigs -> dT * lam <> 0) ->
  exists A, Eload_linear im loadtim loadmag eigs tvals dT = Ok A /\ length A = length tvals /\
    forall i j, (i < length tvals)%nat -> (j < length eigs)%nat ->
      is_RInt (fun tau => load tau * exp (- dT * nth j eigs 0 * (nth i tvals 0 - tau)))
        (SpecPiecewise.at_ loadtim 0) (until loadtim (nth i tvals 0)) (entry A i j).
Proof.
  intros im x y eigs tvals dT f Hn Hl1 Hl Hd Hf Hlam. unfold Eload_linear.
  apply (rows_spec (P := fun t lam v => is_RInt (fun tau => f tau * exp (- dT * lam * (t - tau))) (SpecPiecewise.at_ x 0) (until x t) v)).
  intros t _. destruct (containing_sets x y t Hl Hd) as (rc & cc & E & _). eexists. split; [exact E|].
  intros lam Hin. eexists. split; [apply Eload_entry_eq; auto|].
  rewrite <- clip_until. unfold all_segs. apply pieces_RInt; auto; [|lia].
  intros k a b Hk Hlt Ha Hab Hb.
  eapply is_RInt_ext; [|apply RInt_HE; auto].
  intros z. rewrite Rmin_left, Rmax_right by lra. intros Hz. rewrite (Hf k z Hk) by lra. unfold chord.
  match goal with |- ?u = ?v => change (@eq R u v) end. field. lra.
Qed.
Print Assumptions C29_Eload_linear.

Lemma sum_jumps_eq x y dT lam t :
  sumn (map (jump x y dT lam t) (all_segs x)) = sum_jumps x y t (fun s => exp (- dT * lam * (t - s))).
Proof.
  unfold sum_jumps, all_segs. generalize (seq 0 (length x - 1)). intros l. induction l as [|k l IH]; auto.
  cbn [map sumn fold_right nadd NumR]. rewrite IH. f_equal. unfold jump, stepb, lessb.
  destruct (Req_EM_T (SpecPiecewise.at_ x k) (SpecPiecewise.at_ x (S k))) as [e|n].
  - rewrite (proj2 (Reqb_true _ _) e). cbn [andb]. destruct (Rle_dec (SpecPiecewise.at_ x k) t) as [r|r].
    + rewrite (proj2 (Rleb_true _ _)) by lra. ring.
    + rewrite (proj2 (Rleb_false _ _)) by lra. reflexivity.
  - rewrite (proj2 (Reqb_false _ _) n). reflexivity.
Qed.

(** C30 *)
Theorem C30_EDload_linear : forall im loadtim loadmag eigs tvals dT rate,
  nondecr loadtim -> (1 <= length loadtim)%nat -> length loadtim = length loadmag ->
  no_doubled_points loadtim loadmag -> load_rate_is loadtim loadmag rate ->
  (forall lam, In lam eigs -> dT * lam <> 0) ->
  exists A, EDload_linear im loadtim loadmag eigs tvals dT = Ok A /\ length A = length tvals /\
    forall i j, (i < length tvals)%nat -> (j < length eigs)%nat -> exists I,
      is_RInt (fun tau => rate tau * exp (- dT * nth j eigs 0 * (nth i tvals 0 - tau)))
        (SpecPiecewise.at_ loadtim 0) (until loadtim (nth i tvals 0)) I /\
      entry A i j = sum_jumps loadtim loadmag (nth i tvals 0)
                      (fun ts => exp (- dT * nth j eigs 0 * (nth i tvals 0 - ts))) + I.
Proof.
  intros im x y eigs tvals dT f Hn Hl1 Hl Hd Hf Hlam. unfold EDload_linear.
  apply (rows_spec (P := fun t lam v => exists I, is_RInt (fun tau => f tau * exp (- dT * lam * (t - tau))) (SpecPiecewise.at_ x 0) (until x t) I /\
     v = sum_jumps x y t (fun ts => exp (- dT * lam * (t - ts))) + I)).
  intros t _. destruct (containing_sets x y t Hl Hd) as (rc & cc & E & _). eexists. split; [exact E|].
  intros lam Hin. eexists. split; [apply EDload_entry_eq; auto|].
  eexists. split; [|rewrite sum_jumps_eq; reflexivity].
  rewrite <- clip_until. unfold all_segs. apply pieces_RInt; auto; [|lia].
  intros k a b Hk Hlt Ha Hab Hb.
  eapply is_RInt_ext; [|apply RInt_HE; auto].
  intros z. rewrite Rmin_left, Rmax_right by lra. intros Hz. rewrite (Hf k z Hk) by lra.
  match goal with |- ?u = ?v => change (@eq R u v) end. ring.
Qed.
Print Assumptions C30_EDload_linear.

(** A load with a ramp, a jump, a constant part and an unload. *)
Definition ex_t : list R := [0; 1; 1; 3; 4].
Definition ex_y : list R := [0; 2; 5; 5; 1].
Example C29_C30_hypotheses : nondecr ex_t /\ length ex_t = length ex_y /\ no_doubled_points ex_t ex_y /\
  (exists f, load_is ex_t ex_y f) /\ (exists f, load_rate_is ex_t ex_y f).
Proof.
  split; [|split; [reflexivity|split]].
  - intros i Hi. cbn in Hi. destruct i as [|[|[|[|i]]]]; cbn; try lra; lia.
  - intros i Hi. cbn in Hi. destruct i as [|[|[|[|i]]]]; cbn; try lra; lia.
  - split.
    + exists (fun v => if Rlt_dec v 1 then chord ex_t ex_y 0 v else if Rlt_dec v 3 then chord ex_t ex_y 2 v else chord ex_t ex_y 3 v).
      intros k v Hk Hv. cbn in Hk. destruct k as [|[|[|[|k]]]]; try lia; cbn in Hv; destruct (Rlt_dec v 1), (Rlt_dec v 3); auto; lra.
    + exists (fun v => if Rlt_dec v 1 then 2 else if Rlt_dec v 3 then 0 else -4).
      intros k v Hk Hv. cbn in Hk. destruct k as [|[|[|[|k]]]]; try lia; cbn in Hv |- *; destruct (Rlt_dec v 1), (Rlt_dec v 3); lra.
Qed.

(** C67: integration by parts.  With L(t) the load at time t (just after any jump at t):
    EDload + (dT eig) Eload = L(t) - L(first) exp(-dT eig (t - first)). *)
Theorem C67_Eload_EDload_consistent : forall im im' loadtim loadmag eigs tvals dT A D i j k,
  nondecr loadtim -> (1 <= length loadtim)%nat -> length loadtim = length loadmag ->
  no_doubled_points loadtim loadmag -> (forall lam, In lam eigs -> dT * lam <> 0) ->
  Eload_linear im loadtim loadmag eigs tvals dT = Ok A ->
  EDload_linear im' loadtim loadmag eigs tvals dT = Ok D ->
  (i < length tvals)%nat -> (j < length eigs)%nat ->
  let t := nth i tvals 0 in let lam := nth j eigs 0 in
  (S k < length loadtim)%nat -> SpecPiecewise.at_ loadtim k <= t < SpecPiecewise.at_ loadtim (S k) ->
  entry D i j + dT * lam * entry A i j =
    chord loadtim loadmag k t - SpecPiecewise.at_ loadmag 0 * exp (- dT * lam * (t - SpecPiecewise.at_ loadtim 0)).
Proof.
  intros im im' x y eigs tvals dT A D i j k Hn Hl1 Hl Hd Hlam EA ED Hi Hj t lam Hk Ht.
  assert (RA : exists A, Eload_linear im x y eigs tvals dT = Ok A /\ length A = length tvals /\
     (forall i j, (i < length tvals)%nat -> (j < length eigs)%nat ->
       (fun t lam v => v = sumn (map (piece x (segG x y dT lam t) t) (all_segs x))) (nth i tvals 0) (nth j eigs 0) (entry A i j))).
  { unfold Eload_linear. apply (rows_spec (P := fun t lam v => v = sumn (map (piece x (segG x y dT lam t) t) (all_segs x)))).
    intros t0 _. destruct (containing_sets x y t0 Hl Hd) as (rc & cc & E & _). eexists. split; [exact E|].
    intros l0 Hin. eexists. split; [apply Eload_entry_eq; auto|]. reflexivity. }
  assert (RD : exists A, EDload_linear im' x y eigs tvals dT = Ok A /\ length A = length tvals /\
     (forall i j, (i < length tvals)%nat -> (j < length eigs)%nat ->
       (fun t lam v => v = sumn (map (jump x y dT lam t) (all_segs x)) + sumn (map (piece x (segGD x y dT lam t) t) (all_segs x))) (nth i tvals 0) (nth j eigs 0) (entry A i j))).
  { unfold EDload_linear. apply (rows_spec (P := fun t lam v => v = sumn (map (jump x y dT lam t) (all_segs x)) + sumn (map (piece x (segGD x y dT lam t) t) (all_segs x)))).
    intros t0 _. destruct (containing_sets x y t0 Hl Hd) as (rc & cc & E & _). eexists. split; [exact E|].
    intros l0 Hin. eexists. split; [apply EDload_entry_eq; auto|]. reflexivity. }
  destruct RA as (A' & EA' & _ & HA). destruct RD as (D' & ED' & _ & HD).
  assert (A' = A) by congruence. assert (D' = D) by congruence. subst A' D'.
  rewrite (HA i j Hi Hj), (HD i j Hi Hj). fold t lam.
  rewrite <- (tot_split x y dT lam t). apply tot_all; auto. apply Hlam, nth_In; auto.
Qed.
Print Assumptions C67_Eload_EDload_consistent.
Example C67_witness : exists A D, Eload_linear scalar ex_t ex_y [1; 2] [1/2; 1; 7/2] 1 = Ok A /\
  EDload_linear vectorized ex_t ex_y [1; 2] [1/2; 1; 7/2] 1 = Ok D /\
  entry D 1 1 + 1 * 2 * entry A 1 1 = 5.
Proof.
  destruct C29_C30_hypotheses as (H1 & H2 & H3 & (f & Hf) & (g & Hg)).
  assert (HL : forall lam, In lam [1; 2] -> 1 * lam <> 0) by (intros lam [<-|[<-|[]]]; lra).
  destruct (C29_Eload_linear scalar ex_t ex_y [1; 2] [1/2; 1; 7/2] 1 f) as (A & EA & _); auto; [cbn; lia|].
  destruct (C30_EDload_linear vectorized ex_t ex_y [1; 2] [1/2; 1; 7/2] 1 g) as (D & ED & _); auto; [cbn; lia|].
  exists A, D. repeat split; auto.
  pose proof (C67_Eload_EDload_consistent scalar vectorized ex_t ex_y [1; 2] [1/2; 1; 7/2] 1 A D 1 1 2) as H.
  cbn [nth length ex_t ex_y] in H. rewrite H; auto; try lia; unfold chord; cbn; try lra.
Qed.

(** A point listed twice (same time, same load) makes the segment classification lose the
    following constant segment (see C14), and Eload_linear then misses its contribution. *)
Ltac dec := repeat match goal with
  | |- context [Reqb ?a ?b] => first [rewrite (proj2 (Reqb_true a b)) by lra | rewrite (proj2 (Reqb_false a b)) by lra]
  | |- context [Rleb ?a ?b] => first [rewrite (proj2 (Rleb_true a b)) by lra | rewrite (proj2 (Rleb_false a b)) by lra]
  | |- context [Rltb ?a ?b] => first [rewrite (proj2 (Rltb_true a b)) by lra | rewrite (proj2 (Rltb_false a b)) by lra]
  end.
Lemma doubled_sets : containing_also_less1 [0; 1; 1; 2; 2] [0; 1; 1; 1; 2] true false false 3 = Ok ([0%nat], [1%nat], [1%nat], [], []).
Proof.
  assert (E : ramps_constants_steps [0; 1; 1; 2; 2] [0; 1; 1; 1; 2] = Ok ([0%nat], [1%nat], [1%nat])).
  { unfold ramps_constants_steps, start_index_of_ramps. cbn. dec. cbn. reflexivity. }
  unfold containing_also_less1. rewrite E. cbn [bind]. unfold segments_less_than1. cbn [filterM get nth_error bind]. cbn [nltb nleb NumR]. dec. cbn [bind].
  rewrite segment_containing1_eq. unfold all_segs, maskb. cbn [length Nat.sub seq filter SpecPiecewise.at_ nth].
  unfold Rabs. repeat (destruct (Rcase_abs _); try lra). all: dec; cbn [andb]; reflexivity.
Qed.
Theorem C29_doubled_point_refuted : exists load A,
  load_is [0; 1; 1; 2; 2] [0; 1; 1; 1; 2] load /\
  Eload_linear vectorized [0; 1; 1; 2; 2] [0; 1; 1; 1; 2] [1] [3] 1 = Ok A /\
  ~ is_RInt (fun tau => load tau * exp (- 1 * 1 * (3 - tau))) 0 2 (entry A 0 0).
Proof.
  set (load v := if Rlt_dec v 1 then 0 + 1 * v else 1).
  assert (HA : exists A, Eload_linear vectorized [0; 1; 1; 2; 2] [0; 1; 1; 1; 2] [1] [3] 1 = Ok A /\
    entry A 0 0 = HE 0 1 1 1 3 1 - HE 0 1 1 1 3 0).
  { unfold Eload_linear. cbn [mapM]. rewrite doubled_sets. cbn [bind]. unfold Eload_entry.
    cbn [mapM with2 with3 with4 get nth_error bind app].
    unfold with3, with4. cbn [get nth_error bind app].
    eexists. split; [reflexivity|]. cbn [entry nth sumn app nadd n0 NumR].
    rewrite const_less_v, ramp_less_v by lra.
    replace ((1 - 0) / (1 - 0)) with 1 by field. rewrite Rmult_0_r, Rminus_0_r. ring. }
  destruct HA as (A & EA & HA). exists load, A. split; [|split; auto].
  - intros k v Hk Hv. unfold load. destruct k as [|[|[|[|k]]]]; cbn in Hk, Hv; try lia; try lra;
      destruct (Rlt_dec v 1); try lra; unfold chord; cbn; field.
  - rewrite HA. intros H.
    assert (H0 : is_RInt (fun tau => load tau * exp (- 1 * 1 * (3 - tau))) 0 2
       (plus (HE 0 1 1 1 3 1 - HE 0 1 1 1 3 0) (HE 1 0 1 1 3 2 - HE 1 0 1 1 3 1))).
    { apply (is_RInt_Chasles (V := R_NormedModule) _ 0 1 2).
      - eapply is_RInt_ext; [|apply RInt_HE; lra]. intros z. rewrite Rmin_left, Rmax_right by lra. intros Hz. cbv beta.
        unfold load. destruct (Rlt_dec z 1); [|lra]. match goal with |- ?u = ?v => change (@eq R u v) end. reflexivity.
      - eapply is_RInt_ext; [|apply RInt_HE; lra]. intros z. rewrite Rmin_left, Rmax_right by lra. intros Hz. cbv beta.
        unfold load. destruct (Rlt_dec z 1); [lra|]. change (-1) with (Ropp 1). match goal with |- ?u = ?v => change (@eq R u v) end. ring. }
    apply (is_RInt_unique (V := R_CompleteNormedModule)) in H. apply (is_RInt_unique (V := R_CompleteNormedModule)) in H0.
    rewrite H in H0. unfold plus in H0; cbn in H0. unfold HE in H0. change (Ropp 1) with (-1) in H0.
    assert (exp (- 1 * 1 * (3 - 1)) < exp (- 1 * 1 * (3 - 2))) by (apply exp_increasing; lra). lra.
Qed.
Print Assumptions C29_doubled_point_refuted.
