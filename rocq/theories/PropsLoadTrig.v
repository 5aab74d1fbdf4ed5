(** * Property theorems: loads modulated by a cosine or a sine (C93-C96) *)
From Coq Require Import Reals List Arith Lia Lra Bool.
From Coquelicot Require Import Coquelicot.
From Verif Require Import Base PiecewiseModel SpectralModel SpecSpectral LoadModel SpecPiecewise SpecLoad
  PiecewiseProofs LayersProofs SpectralProofs SpectralProofs4 LoadProofs LoadProofs2 LoadProofs3 PropsLoad
  LoadTrigModel LoadTrigProofs LoadTrigProofs2 LoadTrigProofs3.
Import ListNotations.
Open Scope R_scope.

(** C93 *)
Theorem C93_Eload_coslinear : forall im loadtim loadmag omega phase eigs tvals dT load,
  nondecr loadtim -> (1 <= length loadtim)%nat -> length loadtim = length loadmag ->
  no_doubled_points loadtim loadmag -> load_is loadtim loadmag load ->
  (forall lam, In lam eigs -> dT * lam <> 0) ->
  exists A, Eload_coslinear im loadtim loadmag omega phase eigs tvals dT = Ok A /\ length A = length tvals /\
    forall i j, (i < length tvals)%nat -> (j < length eigs)%nat ->
      is_RInt (fun tau => load tau * cos (omega * tau + phase) * exp (- dT * nth j eigs 0 * (nth i tvals 0 - tau)))
        (SpecPiecewise.at_ loadtim 0) (until loadtim (nth i tvals 0)) (entry A i j).
Proof.
  intros im x y om ph eigs tvals dT f Hn Hl1 Hl Hd Hf Hlam. unfold Eload_coslinear.
  apply (rows_spec (P := fun t lam v => is_RInt (fun tau => f tau * cos (om * tau + ph) * exp (- dT * lam * (t - tau))) (SpecPiecewise.at_ x 0) (until x t) v)).
  intros t _. destruct (containing_sets x y t Hl Hd) as (rc & cc & E & _). eexists. split; [exact E|].
  intros lam Hin. eexists. split; [apply Eload_cos_entry_eq; auto|].
  rewrite <- clip_until. unfold all_segs. apply pieces_RInt; auto; [|lia].
  intros k a b Hk Hlt Ha Hab Hb. unfold segH.
  eapply is_RInt_ext; [|apply RInt_HC; auto].
  intros z. rewrite Rmin_left, Rmax_right by lra. intros Hz. rewrite (Hf k z Hk) by lra. unfold chord.
  match goal with |- ?u = ?v => change (@eq R u v) end. field. lra.
Qed.
Print Assumptions C93_Eload_coslinear.

Lemma sum_cjumps_eq x y om ph dT lam t :
  sumn (map (cjump x y om ph dT lam t) (all_segs x)) = sum_jumps x y t (fun s => cos (om * s + ph) * exp (- dT * lam * (t - s))).
Proof.
  unfold sum_jumps, all_segs. generalize (seq 0 (length x - 1)). intros l. induction l as [|k l IH]; auto.
  cbn [map sumn fold_right nadd NumR]. rewrite IH. f_equal. unfold cjump, stepb, lessb.
  destruct (Req_EM_T (SpecPiecewise.at_ x k) (SpecPiecewise.at_ x (S k))) as [e|n].
  - rewrite (proj2 (Reqb_true _ _) e). cbn [andb]. destruct (Rle_dec (SpecPiecewise.at_ x k) t) as [r|r].
    + rewrite (proj2 (Rleb_true _ _)) by lra. ring.
    + rewrite (proj2 (Rleb_false _ _)) by lra. reflexivity.
  - rewrite (proj2 (Reqb_false _ _) n). reflexivity.
Qed.
(** C94: the rate of load(tau) cos(omega tau + phase) is rate cos - omega load sin. *)
Theorem C94_EDload_coslinear : forall im loadtim loadmag omega phase eigs tvals dT load rate,
  nondecr loadtim -> (1 <= length loadtim)%nat -> length loadtim = length loadmag ->
  no_doubled_points loadtim loadmag -> load_is loadtim loadmag load -> load_rate_is loadtim loadmag rate ->
  (forall lam, In lam eigs -> dT * lam <> 0) ->
  exists A, EDload_coslinear im loadtim loadmag omega phase eigs tvals dT = Ok A /\ length A = length tvals /\
    forall i j, (i < length tvals)%nat -> (j < length eigs)%nat -> exists I,
      is_RInt (fun tau => (rate tau * cos (omega * tau + phase) - omega * load tau * sin (omega * tau + phase)) *
                          exp (- dT * nth j eigs 0 * (nth i tvals 0 - tau)))
        (SpecPiecewise.at_ loadtim 0) (until loadtim (nth i tvals 0)) I /\
      entry A i j = sum_jumps loadtim loadmag (nth i tvals 0)
                      (fun ts => cos (omega * ts + phase) * exp (- dT * nth j eigs 0 * (nth i tvals 0 - ts))) + I.
Proof.
  intros im x y om ph eigs tvals dT f g Hn Hl1 Hl Hd Hf Hg Hlam. unfold EDload_coslinear.
  apply (rows_spec (P := fun t lam v => exists I, is_RInt (fun tau => (g tau * cos (om * tau + ph) - om * f tau * sin (om * tau + ph)) * exp (- dT * lam * (t - tau))) (SpecPiecewise.at_ x 0) (until x t) I /\
     v = sum_jumps x y t (fun ts => cos (om * ts + ph) * exp (- dT * lam * (t - ts))) + I)).
  intros t _. destruct (containing_sets x y t Hl Hd) as (rc & cc & E & _). eexists. split; [exact E|].
  intros lam Hin. eexists. split; [apply EDload_cos_entry_eq; auto|].
  eexists. split; [|rewrite sum_cjumps_eq; reflexivity].
  rewrite <- clip_until. unfold all_segs. apply pieces_RInt; auto; [|lia].
  intros k a b Hk Hlt Ha Hab Hb. unfold segH.
  eapply is_RInt_ext; [|apply RInt_HCD; auto].
  intros z. rewrite Rmin_left, Rmax_right by lra. intros Hz. rewrite (Hf k z Hk), (Hg k z Hk) by lra. unfold chord.
  match goal with |- ?u = ?v => change (@eq R u v) end. field. lra.
Qed.
Print Assumptions C94_EDload_coslinear.

(** C95 *)
Theorem C95_Eload_sinlinear : forall im loadtim loadmag omega phase eigs tvals dT load,
  nondecr loadtim -> (1 <= length loadtim)%nat -> length loadtim = length loadmag ->
  no_doubled_points loadtim loadmag -> load_is loadtim loadmag load ->
  (forall lam, In lam eigs -> dT * lam <> 0) ->
  exists A, Eload_sinlinear im loadtim loadmag omega phase eigs tvals dT = Ok A /\ length A = length tvals /\
    forall i j, (i < length tvals)%nat -> (j < length eigs)%nat ->
      is_RInt (fun tau => load tau * sin (omega * tau + phase) * exp (- dT * nth j eigs 0 * (nth i tvals 0 - tau)))
        (SpecPiecewise.at_ loadtim 0) (until loadtim (nth i tvals 0)) (entry A i j).
Proof.
  intros im x y om ph eigs tvals dT f Hn Hl1 Hl Hd Hf Hlam. unfold Eload_sinlinear.
  apply (rows_spec (P := fun t lam v => is_RInt (fun tau => f tau * sin (om * tau + ph) * exp (- dT * lam * (t - tau))) (SpecPiecewise.at_ x 0) (until x t) v)).
  intros t _. destruct (containing_sets x y t Hl Hd) as (rc & cc & E & _). eexists. split; [exact E|].
  intros lam Hin. eexists. split; [apply Eload_sin_entry_eq; auto|].
  rewrite <- clip_until. unfold all_segs. apply pieces_RInt; auto; [|lia].
  intros k a b Hk Hlt Ha Hab Hb. unfold segH.
  eapply is_RInt_ext; [|apply RInt_HS; auto].
  intros z. rewrite Rmin_left, Rmax_right by lra. intros Hz. rewrite (Hf k z Hk) by lra. unfold chord.
  match goal with |- ?u = ?v => change (@eq R u v) end. field. lra.
Qed.
Print Assumptions C95_Eload_sinlinear.

Definition is_rows (r : result (list (list R))) (eigs tvals : list R) (val : R -> R -> R) : Prop :=
  exists A, r = Ok A /\ length A = length tvals /\
    forall i j, (i < length tvals)%nat -> (j < length eigs)%nat -> entry A i j = val (nth i tvals 0) (nth j eigs 0).
Lemma cos_rows im x y om ph eigs tvals dT : length x = length y -> no_doubled_points x y -> (forall lam, In lam eigs -> dT * lam <> 0) ->
  is_rows (Eload_coslinear im x y om ph eigs tvals dT) eigs tvals
    (fun t lam => sumn (map (piece x (segH (fun p q => HC p q om ph dT lam t) x y) t) (all_segs x))).
Proof.
  intros Hl Hd Hlam. unfold is_rows, Eload_coslinear. apply (rows_spec (P := fun t lam v => v = sumn (map (piece x (segH (fun p q => HC p q om ph dT lam t) x y) t) (all_segs x)))).
  intros t _. destruct (containing_sets x y t Hl Hd) as (rc & cc & E & _). eexists. split; [exact E|].
  intros lam Hin. eexists. split; [apply Eload_cos_entry_eq; auto|]. reflexivity.
Qed.
Lemma Dcos_rows im x y om ph eigs tvals dT : length x = length y -> no_doubled_points x y -> (forall lam, In lam eigs -> dT * lam <> 0) ->
  is_rows (EDload_coslinear im x y om ph eigs tvals dT) eigs tvals
    (fun t lam => sumn (map (cjump x y om ph dT lam t) (all_segs x)) + sumn (map (piece x (segH (fun p q => HCD p q om ph dT lam t) x y) t) (all_segs x))).
Proof.
  intros Hl Hd Hlam. unfold is_rows, EDload_coslinear. apply (rows_spec (P := fun t lam v => v = sumn (map (cjump x y om ph dT lam t) (all_segs x)) + sumn (map (piece x (segH (fun p q => HCD p q om ph dT lam t) x y) t) (all_segs x)))).
  intros t _. destruct (containing_sets x y t Hl Hd) as (rc & cc & E & _). eexists. split; [exact E|].
  intros lam Hin. eexists. split; [apply EDload_cos_entry_eq; auto|]. reflexivity.
Qed.

(** C96: integration by parts for modulated loads. *)
Theorem C96_cos_consistent : forall im im' loadtim loadmag omega phase eigs tvals dT A D i j k,
  nondecr loadtim -> length loadtim = length loadmag ->
  no_doubled_points loadtim loadmag -> (forall lam, In lam eigs -> dT * lam <> 0) ->
  Eload_coslinear im loadtim loadmag omega phase eigs tvals dT = Ok A ->
  EDload_coslinear im' loadtim loadmag omega phase eigs tvals dT = Ok D ->
  (i < length tvals)%nat -> (j < length eigs)%nat ->
  let t := nth i tvals 0 in let lam := nth j eigs 0 in
  (S k < length loadtim)%nat -> SpecPiecewise.at_ loadtim k <= t < SpecPiecewise.at_ loadtim (S k) ->
  let modulated := fun v s => v * cos (omega * s + phase) in
  entry D i j + dT * lam * entry A i j =
    modulated (chord loadtim loadmag k t) t -
    modulated (SpecPiecewise.at_ loadmag 0) (SpecPiecewise.at_ loadtim 0) * exp (- dT * lam * (t - SpecPiecewise.at_ loadtim 0)).
Proof.
  intros im im' x y om ph eigs tvals dT A D i j k Hn Hl Hd Hlam EA ED Hi Hj t lam Hk Ht. cbv zeta.
  destruct (cos_rows im x y om ph eigs tvals dT Hl Hd Hlam) as (A' & EA' & _ & HA).
  destruct (Dcos_rows im' x y om ph eigs tvals dT Hl Hd Hlam) as (D' & ED' & _ & HD).
  assert (A' = A) by congruence. assert (D' = D) by congruence. subst A' D'.
  rewrite (HA i j Hi Hj), (HD i j Hi Hj). apply cos_parts; auto. apply Hlam, nth_In; auto.
Qed.
Print Assumptions C96_cos_consistent.
(** C96: with omega = phase = 0 the modulated versions agree with the plain ones. *)
Theorem C96_cos_zero : forall im im' loadtim loadmag eigs tvals dT A A' D D' i j,
  nondecr loadtim -> (1 <= length loadtim)%nat -> length loadtim = length loadmag -> no_doubled_points loadtim loadmag ->
  (forall lam, In lam eigs -> dT * lam <> 0) ->
  Eload_coslinear im loadtim loadmag 0 0 eigs tvals dT = Ok A -> Eload_linear im' loadtim loadmag eigs tvals dT = Ok A' ->
  EDload_coslinear im loadtim loadmag 0 0 eigs tvals dT = Ok D -> EDload_linear im' loadtim loadmag eigs tvals dT = Ok D' ->
  (i < length tvals)%nat -> (j < length eigs)%nat -> entry A i j = entry A' i j /\ entry D i j = entry D' i j.
Proof.
  intros im im' x y eigs tvals dT A A' D D' i j Hn Hl1 Hl Hd Hlam EA EA' ED ED' Hi Hj.
  destruct (cos_rows im x y 0 0 eigs tvals dT Hl Hd Hlam) as (B & EB & _ & HB).
  destruct (Dcos_rows im x y 0 0 eigs tvals dT Hl Hd Hlam) as (B' & EB' & _ & HB').
  assert (B = A) by congruence. assert (B' = D) by congruence. subst B B'. rewrite HB, HB' by auto.
  assert (RA : exists A, Eload_linear im' x y eigs tvals dT = Ok A /\ length A = length tvals /\
     (forall i j, (i < length tvals)%nat -> (j < length eigs)%nat ->
       (fun t lam v => v = sumn (map (piece x (segG x y dT lam t) t) (all_segs x))) (nth i tvals 0) (nth j eigs 0) (entry A i j))).
  { unfold Eload_linear. apply (rows_spec (P := fun t lam v => v = sumn (map (piece x (segG x y dT lam t) t) (all_segs x)))).
    intros t0 _. destruct (containing_sets x y t0 Hl Hd) as (rc & cc & E & _). eexists. split; [exact E|].
    intros l0 Hin. eexists. split; [apply Eload_entry_eq; auto|]. reflexivity. }
  assert (RD : exists A, EDload_linear im' x y eigs tvals dT = Ok A /\ length A = length tvals /\
     (forall i j, (i < length tvals)%nat -> (j < length eigs)%nat ->
       (fun t lam v => v = sumn (map (jump x y dT lam t) (all_segs x)) + sumn (map (piece x (segGD x y dT lam t) t) (all_segs x))) (nth i tvals 0) (nth j eigs 0) (entry A i j))).
  { unfold EDload_linear. apply (rows_spec (P := fun t lam v => v = sumn (map (jump x y dT lam t) (all_segs x)) + sumn (map (piece x (segGD x y dT lam t) t) (all_segs x)))).
    intros t0 _. destruct (containing_sets x y t0 Hl Hd) as (rc & cc & E & _). eexists. split; [exact E|].
    intros l0 Hin. eexists. split; [apply EDload_entry_eq; auto|]. reflexivity. }
  destruct RA as (A1 & EA1 & _ & HA1). destruct RD as (D1 & ED1 & _ & HD1).
  assert (A1 = A') by congruence. assert (D1 = D') by congruence. subst A1 D1. rewrite HA1, HD1 by auto.
  set (t := nth i tvals 0). set (lam := nth j eigs 0). assert (Hc : dT * lam <> 0) by (apply Hlam, nth_In; auto).
  assert (C0 : forall z, cos (0 * z + 0) = 1) by (intros z; rewrite Rmult_0_l, Rplus_0_r; apply cos_0).
  assert (S0 : forall z, sin (0 * z + 0) = 0) by (intros z; rewrite Rmult_0_l, Rplus_0_r; apply sin_0).
  assert (dT <> 0) by (intros E; apply Hc; rewrite E; ring). assert (lam <> 0) by (intros E; apply Hc; rewrite E; ring).
  assert (P1 : forall G G' : nat -> R -> R -> R, (forall k a b, G k a b = G' k a b) -> map (piece x G t) (all_segs x) = map (piece x G' t) (all_segs x)).
  { intros G G' HG. apply map_ext. intros k. unfold piece. rewrite !HG. reflexivity. }
  assert (Q1 : forall p q z, HC p q 0 0 dT lam t z = HE p q dT lam t z).
  { intros p q z. unfold HC, HE. cbv zeta. rewrite C0, S0. generalize (exp (- dT * lam * (t - z))). intros e. field. auto. }
  assert (Q2 : forall p q z, HCD p q 0 0 dT lam t z = HE q 0 dT lam t z).
  { intros p q z. unfold HCD. rewrite Q1. ring. }
  split.
  - f_equal. apply P1. intros k a b. unfold segH, segG. rewrite !Q1. reflexivity.
  - f_equal; [|f_equal; apply P1; intros k a b; unfold segH, segGD; rewrite !Q2; reflexivity].
    f_equal. apply map_ext. intros k. unfold cjump, jump. rewrite C0, Rmult_1_l. reflexivity.
Qed.
Print Assumptions C96_cos_zero.

Example C93_C96_witness : exists A D, Eload_coslinear scalar ex_t ex_y 3 (1/2) [1; 2] [1/2; 1; 7/2] 1 = Ok A /\
  EDload_coslinear vectorized ex_t ex_y 3 (1/2) [1; 2] [1/2; 1; 7/2] 1 = Ok D /\
  (exists B, Eload_sinlinear vectorized ex_t ex_y 3 (1/2) [1; 2] [1/2; 1; 7/2] 1 = Ok B) /\
  entry D 1 1 + 1 * 2 * entry A 1 1 = 5 * cos (3 * 1 + 1/2).
Proof.
  destruct C29_C30_hypotheses as (H1 & H2 & H3 & (f & Hf) & (g & Hg)).
  assert (HL : forall lam, In lam [1; 2] -> 1 * lam <> 0) by (intros lam [<-|[<-|[]]]; lra).
  destruct (C93_Eload_coslinear scalar ex_t ex_y 3 (1/2) [1; 2] [1/2; 1; 7/2] 1 f) as (A & EA & _); auto; [cbn; lia|].
  destruct (C94_EDload_coslinear vectorized ex_t ex_y 3 (1/2) [1; 2] [1/2; 1; 7/2] 1 f g) as (D & ED & _); auto; [cbn; lia|].
  destruct (C95_Eload_sinlinear vectorized ex_t ex_y 3 (1/2) [1; 2] [1/2; 1; 7/2] 1 f) as (B & EB & _); auto; [cbn; lia|].
  exists A, D. repeat split; auto; [exists B; auto|].
  pose proof (C96_cos_consistent scalar vectorized ex_t ex_y 3 (1/2) [1; 2] [1/2; 1; 7/2] 1 A D 1 1 2) as H.
  cbn [nth length ex_t ex_y] in H. rewrite H; auto; try lia; unfold chord; cbn; try lra.
Qed.
