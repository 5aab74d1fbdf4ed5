(** * Property theorems: time courses of the loads satisfy the modal equations (C98) *)
From Coq Require Import Reals List Arith Lia Lra Bool.
From Coquelicot Require Import Coquelicot.
From Verif Require Import Base PiecewiseModel SpectralModel SpecSpectral LoadModel SpecPiecewise SpecLoad
  PiecewiseProofs LoadProofs2 PropsLoad PropsLoadTrig PolyLineModel SpecPolyLine SpecSpeccon SpecconModel TimeProofs TimeProofs2 TimeProofs3.
Import ListNotations.
Open Scope R_scope.
Local Notation at_ := SpecPiecewise.at_.

(** Every table has a course. *)
Fixpoint course (p : points) (t : R) : R :=
  match p with
  | (x, y) :: (((x', y') :: _) as r) => if Rlt_dec t x' then y + (t - x) * (y' - y) / (x' - x) else course r t
  | [(x, y)] => y
  | [] => 0
  end.
Lemma course_chord p : nondecr (px p) -> forall k t, (S k < length p)%nat -> at_ (px p) k <= t < at_ (px p) (S k) ->
  course p t = chord (px p) (py p) k t.
Proof.
  induction p as [|[x y] [|[x' y'] p] IH]; intros Hn k t Hk Ht; [cbn in Hk; lia|cbn in Hk; lia|].
  assert (Hn' : nondecr (px ((x', y') :: p))) by (intros i Hi; apply (Hn (S i)); cbn in *; lia).
  change (course ((x, y) :: (x', y') :: p) t) with (if Rlt_dec t x' then y + (t - x) * (y' - y) / (x' - x) else course ((x', y') :: p) t).
  destruct k as [|k].
  - cbn in Ht. destruct (Rlt_dec t x'); [|lra]. unfold chord; cbn. field. lra.
  - assert (x' <= at_ (px ((x', y') :: p)) k).
    { change x' with (at_ (px ((x', y') :: p)) 0). apply (nondecr_le' _ Hn'); rewrite px_len; cbn in Hk |- *; lia. }
    change (at_ (px ((x, y) :: (x', y') :: p)) (S k)) with (at_ (px ((x', y') :: p)) k) in Ht.
    destruct (Rlt_dec t x'); [lra|]. rewrite (IH Hn' k t); [reflexivity|cbn in Hk |- *; lia|exact Ht].
Qed.
Lemma load_course_exists p om : proper_load p -> load_course p om (fun t => (if Rlt_dec t (at_ (px p) 0) then at_ (py p) 0 else course p t) * modulation om t).
Proof.
  intros (Hn & Hl & _). split.
  - intros k t Hk Ht. assert (at_ (px p) 0 <= at_ (px p) k) by (apply (nondecr_le' _ Hn); rewrite px_len; lia).
    destruct (Rlt_dec t (at_ (px p) 0)); [lra|]. rewrite (course_chord p Hn k); auto.
  - intros t Ht. destruct (Rlt_dec t (at_ (px p) 0)); [auto|lra].
Qed.

(** C98: The numbers returned by pEload_* are the values e(eig, t) of functions of time that
    satisfy e' + dT eig e = load, e = 0 at T0, and those of pEDload_* satisfy e' + dT eig e = d load/dt
    (jumps included), both in integrated form. *)
Theorem C98_Eload : forall im dT p om F T0, proper_load p -> load_course p om F -> starts T0 p -> exists e : R -> R -> R,
  (forall eigs tvals, (forall lam, In lam eigs -> dT * lam <> 0) ->
     exists A, load_E im eigs tvals dT p om = Ok A /\ length A = length tvals /\
       forall i j, (i < length tvals)%nat -> (j < length eigs)%nat -> entry A i j = e (nth j eigs 0) (nth i tvals 0)) /\
  forall lam t, dT * lam <> 0 -> T0 <= t -> before_end p t -> exists L I,
    is_RInt F T0 t L /\ is_RInt (e lam) T0 t I /\ e lam t + dT * lam * I = L.
Proof.
  intros im dT p om F T0 HP HF HS. exists (course_E p om dT). split.
  - intros eigs tvals H. apply load_E_rows; auto.
  - intros lam t Hm Ht He. apply mild_E; auto.
Qed.
Print Assumptions C98_Eload.
Theorem C98_EDload : forall im dT p om F T0, proper_load p -> load_course p om F -> starts T0 p -> exists e : R -> R -> R,
  (forall eigs tvals, (forall lam, In lam eigs -> dT * lam <> 0) ->
     exists A, load_ED im eigs tvals dT p om = Ok A /\ length A = length tvals /\
       forall i j, (i < length tvals)%nat -> (j < length eigs)%nat -> entry A i j = e (nth j eigs 0) (nth i tvals 0)) /\
  forall lam t, dT * lam <> 0 -> T0 <= t -> before_end p t -> exists I,
    is_RInt (e lam) T0 t I /\ e lam t + dT * lam * I = F t - initial p om.
Proof.
  intros im dT p om F T0 HP HF HS. exists (course_ED p om dT). split.
  - intros eigs tvals H. apply load_ED_rows; auto.
  - intros lam t Hm Ht He. apply mild_ED; auto.
Qed.
Print Assumptions C98_EDload.

(** A ramp, a jump, a constant part and an unload, modulated. *)
Definition ex_load : points := [(0, 0); (1, 2); (1, 5); (3, 5); (4, 1)].
Lemma ex_load_proper : proper_load ex_load.
Proof.
  split; [|split; [cbn; lia|]].
  - intros i Hi. cbn in Hi. destruct i as [|[|[|[|i]]]]; cbn; try lra; lia.
  - intros i Hi. cbn in Hi. destruct i as [|[|[|[|i]]]]; cbn; try lra; lia.
Qed.
Example C98_witness : proper_load ex_load /\ (exists F, load_course ex_load (Some (2, 1)) F) /\
  starts 0 ex_load /\ starts (-1) ex_load /\ before_end ex_load 3.
Proof.
  split; [apply ex_load_proper|]. split; [eexists; apply load_course_exists, ex_load_proper|].
  split; [left; cbn; lra|]. split; [right; cbn; lra|]. unfold before_end; cbn; lra.
Qed.

(** After the last time of the table the load counts as removed in pEload_* (the interpolation routines
    keep it): with the load constantly 1 the values e are not those of e' + e = 1. *)
Theorem C98_after_table_refuted : exists p : points, proper_load p /\ starts 0 p /\ load_course p None (fun _ => 1) /\
  forall im (e : R -> R), (forall t, exists A, load_E im [1] [t] 1 p None = Ok A /\ entry A 0 0 = e t) ->
    ~ exists I, is_RInt e 0 2 I /\ e 2 + 1 * 1 * I = 2.
Proof.
  exists [(0, 1); (1, 1)].
  assert (HP : proper_load [(0, 1); (1, 1)]).
  { split; [|split; [cbn; lia|]]; intros i Hi; cbn in Hi; destruct i as [|[|i]]; cbn; try lra; lia. }
  assert (HF : load_course [(0, 1); (1, 1)] None (fun _ => 1)).
  { split; [|intros t Ht; cbn; ring]. intros k t Hk Ht. cbn in Hk. destruct k; [|lia]. unfold chord, modulation; cbn. field. }
  split; [exact HP|]. split; [left; reflexivity|]. split; [exact HF|].
  intros im e He (I & HI & Eq).
  assert (E : forall t, e t = course_E [(0, 1); (1, 1)] None 1 1 t).
  { intros t. destruct (He t) as (A & EA & <-).
    destruct (load_E_rows im [1] [t] 1 [(0, 1); (1, 1)] None HP) as (A' & EA' & _ & HA); [intros lam [<-|[]]; lra|].
    assert (A' = A) by congruence. subst A'. apply (HA 0%nat 0%nat); cbn; lia. }
  assert (M : 1 * 1 <> 0) by lra.
  assert (X : forall t b, 0 <= b -> is_RInt (fun tau => 1 * exp (- (1 * 1 * (t - tau)))) 0 b (exp (b - t) - exp (- t))).
  { intros t b Hb. eapply (eq_ind _ (fun l => is_RInt _ 0 b l)).
    - apply (is_RInt_derive (fun tau => exp (tau - t))).
      + intros s _. auto_derive; auto. unfold one; cbn. replace (- (1 * 1 * (t - s))) with (s + - t) by ring. ring.
      + intros s _. apply (ex_derive_continuous (fun tau => 1 * exp (- (1 * 1 * (t - tau))))). auto_derive. auto.
    - unfold minus, plus, opp; cbn. match goal with |- ?u = ?v => change (@eq R u v) end. replace (0 - t) with (- t) by ring. ring. }
  assert (E1 : forall t, 0 <= t <= 1 -> e t = 1 - exp (- t)).
  { intros t Ht. pose proof (course_conv _ _ _ 1 1 HP HF M t) as Hc. rewrite <- E in Hc.
    assert (U : until (px [(0, 1); (1, 1)]) t = t) by (unfold until; cbn; rewrite Rmin_left by lra; apply Rmax_right; lra).
    rewrite U in Hc. change (at_ (px [(0, 1); (1, 1)]) 0) with 0 in Hc.
    rewrite <- (is_RInt_unique _ _ _ _ Hc). rewrite (is_RInt_unique _ _ _ _ (X t t ltac:(lra))). replace (t - t) with 0 by ring. rewrite exp_0. reflexivity. }
  assert (E2 : forall t, 1 <= t -> e t = exp (1 - t) - exp (- t)).
  { intros t Ht. pose proof (course_conv _ _ _ 1 1 HP HF M t) as Hc. rewrite <- E in Hc.
    assert (U : until (px [(0, 1); (1, 1)]) t = 1) by (unfold until; cbn; rewrite Rmin_right by lra; apply Rmax_right; lra).
    rewrite U in Hc. change (at_ (px [(0, 1); (1, 1)]) 0) with 0 in Hc.
    rewrite <- (is_RInt_unique _ _ _ _ Hc). rewrite (is_RInt_unique _ _ _ _ (X t 1 ltac:(lra))). reflexivity. }
  assert (I1 : is_RInt e 0 1 (1 + exp (- 1) - 1)).
  { eapply is_RInt_ext; [|eapply (eq_ind _ (fun l => is_RInt (fun t => 1 - exp (- t)) 0 1 l)); [apply (is_RInt_derive (fun t => t + exp (- t)))|]].
    - intros t. rewrite Rmin_left, Rmax_right by lra. intros Ht. symmetry. apply E1. lra.
    - intros s _. auto_derive; auto. unfold one; cbn. ring.
    - intros s _. apply (ex_derive_continuous (fun t => 1 - exp (- t))). auto_derive. auto.
    - unfold minus, plus, opp; cbn. match goal with |- ?u = ?v => change (@eq R u v) end. rewrite Ropp_0, exp_0. replace (- (1)) with (-1) by ring. ring. }
  assert (I2 : is_RInt e 1 2 (1 - exp (- 1) - (exp (1 - 2) - exp (- 2)))).
  { eapply is_RInt_ext; [|eapply (eq_ind _ (fun l => is_RInt (fun t => exp (1 - t) - exp (- t)) 1 2 l)); [apply (is_RInt_derive (fun t => - exp (1 - t) + exp (- t)))|]].
    - intros t. rewrite Rmin_left, Rmax_right by lra. intros Ht. symmetry. apply E2. lra.
    - intros s _. auto_derive; auto. unfold one; cbn. replace (1 + - s) with (1 - s) by ring. ring.
    - intros s _. apply (ex_derive_continuous (fun t => exp (1 - t) - exp (- t))). auto_derive. auto.
    - unfold minus, plus, opp; cbn. match goal with |- ?u = ?v => change (@eq R u v) end. replace (1 - 1) with 0 by ring. replace (- (1)) with (-1) by ring. replace (- (2)) with (-2) by ring. rewrite exp_0. ring. }
  pose proof (is_RInt_Chasles e 0 1 2 _ _ I1 I2) as Ch.
  assert (V : I = 1 + exp (- 1) - 1 + (1 - exp (- 1) - (exp (1 - 2) - exp (- 2)))).
  { rewrite <- (is_RInt_unique _ _ _ _ HI). rewrite (is_RInt_unique _ _ _ _ Ch). reflexivity. }
  rewrite E2 in Eq by lra. rewrite V in Eq. replace (- (2)) with (-2) in Eq by ring. replace (1 - 2) with (-1) in Eq by ring. lra.
Qed.
