(** * load_E and load_ED as functions of time *)
From Coq Require Import Reals List Arith Lia Lra Bool.
From Coquelicot Require Import Coquelicot.
From Verif Require Import Base PiecewiseModel SpectralModel SpecSpectral LoadModel SpecPiecewise SpecLoad
  PiecewiseProofs LayersProofs SpectralProofs SpectralProofs4 LoadProofs LoadProofs2 LoadProofs3 PropsLoad
  LoadTrigModel LoadTrigProofs LoadTrigProofs2 LoadTrigProofs3 PropsLoadTrig PolyLineModel SpecPolyLine SpecSpeccon SpecconModel TimeProofs.
Import ListNotations.
Open Scope R_scope.
Local Notation at_ := SpecPiecewise.at_.

Lemma sumn_null {T} (f : T -> R) l : (forall k, In k l -> f k = 0) -> sumn (map f l) = 0.
Proof. intros H. induction l as [|a l IH]; [reflexivity|]. cbn [map sumn nadd NumR]. rewrite H, IH by (intros; try apply H; cbn; auto). ring. Qed.
(** ** Explicit time functions *)
Definition course_E (p : points) (om : option (R * R)) (dT lam t : R) : R :=
  let x := px p in let y := py p in
  match om with
  | Some (o, ph) => sumn (map (piece x (segH (fun p q => HC p q o ph dT lam t) x y) t) (all_segs x))
  | None => sumn (map (piece x (segG x y dT lam t) t) (all_segs x))
  end.
Definition course_ED (p : points) (om : option (R * R)) (dT lam t : R) : R :=
  let x := px p in let y := py p in
  match om with
  | Some (o, ph) => sumn (map (cjump x y o ph dT lam t) (all_segs x)) + sumn (map (piece x (segH (fun p q => HCD p q o ph dT lam t) x y) t) (all_segs x))
  | None => sumn (map (jump x y dT lam t) (all_segs x)) + sumn (map (piece x (segGD x y dT lam t) t) (all_segs x))
  end.
Lemma px_len p : length (px p) = length p. Proof. apply map_length. Qed.
Lemma py_len p : length (py p) = length p. Proof. apply map_length. Qed.
Lemma load_E_rows im eigs tvals dT p om : proper_load p -> (forall lam, In lam eigs -> dT * lam <> 0) ->
  is_rows (load_E im eigs tvals dT p om) eigs tvals (fun t lam => course_E p om dT lam t).
Proof.
  intros (Hn & Hl & Hd) Hlam. assert (HL : length (px p) = length (py p)) by (rewrite px_len, py_len; auto).
  destruct om as [[o ph]|]; cbn [load_E course_E]; [apply cos_rows; auto|].
  unfold is_rows, Eload_linear.
  apply (rows_spec (P := fun t lam v => v = sumn (map (piece (px p) (segG (px p) (py p) dT lam t) t) (all_segs (px p))))).
  intros t0 _. destruct (containing_sets (px p) (py p) t0 HL Hd) as (rc & cc & E & _). eexists. split; [exact E|].
  intros l0 Hin. eexists. split; [apply Eload_entry_eq; auto|]. reflexivity.
Qed.
Lemma load_ED_rows im eigs tvals dT p om : proper_load p -> (forall lam, In lam eigs -> dT * lam <> 0) ->
  is_rows (load_ED im eigs tvals dT p om) eigs tvals (fun t lam => course_ED p om dT lam t).
Proof.
  intros (Hn & Hl & Hd) Hlam. assert (HL : length (px p) = length (py p)) by (rewrite px_len, py_len; auto).
  destruct om as [[o ph]|]; cbn [load_ED course_ED]; [apply Dcos_rows; auto|].
  unfold is_rows, EDload_linear.
  apply (rows_spec (P := fun t lam v => v = sumn (map (jump (px p) (py p) dT lam t) (all_segs (px p))) + sumn (map (piece (px p) (segGD (px p) (py p) dT lam t) t) (all_segs (px p))))).
  intros t0 _. destruct (containing_sets (px p) (py p) t0 HL Hd) as (rc & cc & E & _). eexists. split; [exact E|].
  intros l0 Hin. eexists. split; [apply EDload_entry_eq; auto|]. reflexivity.
Qed.

(** ** Convolution, integration by parts, nothing before the first time *)
Section Course.
Variables (p : points) (om : option (R * R)) (F : R -> R) (dT lam : R).
Hypothesis HP : proper_load p.
Hypothesis HF : load_course p om F.
Hypothesis Hmu : dT * lam <> 0.
Local Notation x := (px p).
Local Notation y := (py p).
Lemma course_conv t : is_RInt (fun tau => F tau * exp (- (dT * lam * (t - tau)))) (at_ x 0) (until x t) (course_E p om dT lam t).
Proof.
  destruct HP as (Hn & Hl & Hd). destruct HF as (HF1 & _).
  rewrite <- clip_until. unfold course_E, all_segs.
  destruct om as [[o ph]|]; apply pieces_RInt; auto; rewrite ?px_len; try lia; rewrite ?px_len; intros k a b Hk Hlt Ha Hab Hb.
  - unfold segH. eapply is_RInt_ext; [|apply RInt_HC; auto].
    intros z. rewrite Rmin_left, Rmax_right by lra. intros Hz. rewrite (HF1 k z Hk) by lra. unfold chord, modulation.
    replace (- (dT * lam * (t - z))) with (- dT * lam * (t - z)) by ring.
    match goal with |- ?u = ?v => change (@eq R u v) end. field. lra.
  - eapply is_RInt_ext; [|apply RInt_HE; auto].
    intros z. rewrite Rmin_left, Rmax_right by lra. intros Hz. rewrite (HF1 k z Hk) by lra. unfold chord, modulation.
    replace (- (dT * lam * (t - z))) with (- dT * lam * (t - z)) by ring.
    match goal with |- ?u = ?v => change (@eq R u v) end. field. lra.
Qed.
Lemma find_segment t : at_ x 0 <= t -> before_end p t -> exists k, (S k < length p)%nat /\ at_ x k <= t < at_ x (S k).
Proof.
  intros H0 He. unfold before_end in He.
  assert (K : forall K, (K < length p)%nat -> t < at_ x K -> exists k, (S k < length p)%nat /\ at_ x k <= t < at_ x (S k)).
  { induction K as [|K IH]; intros HK Ht; [lra|]. destruct (Rlt_dec t (at_ x K)); [apply IH; [lia|auto]|]. exists K. split; [auto|lra]. }
  apply (K (length p - 1)%nat); auto. destruct HP as (_ & Hl & _). lia.
Qed.
Lemma course_parts t : at_ x 0 <= t -> before_end p t ->
  course_ED p om dT lam t + dT * lam * course_E p om dT lam t = F t - initial p om * exp (- (dT * lam * (t - at_ x 0))).
Proof.
  intros H0 He. destruct (find_segment t H0 He) as (k & Hk & Ht). destruct HP as (Hn & Hl & Hd). destruct HF as (HF1 & _).
  rewrite (HF1 k t Hk Ht). unfold course_E, course_ED, initial, modulation.
  replace (- (dT * lam * (t - at_ x 0))) with (- dT * lam * (t - at_ x 0)) by ring.
  destruct om as [[o ph]|].
  - rewrite (cos_parts x y o ph dT lam t k); auto. rewrite px_len; auto.
  - rewrite <- (tot_split x y dT lam t). rewrite (tot_all x y dT lam t Hmu Hn k); auto; [ring|rewrite px_len; auto].
Qed.
Lemma course_ED_before t : t < at_ x 0 -> course_ED p om dT lam t = 0.
Proof using HP.
  clear HF Hmu.
  intros Ht. destruct HP as (Hn & Hl & Hd).
  assert (M : forall k, (k < length x)%nat -> at_ x 0 <= at_ x k) by (intros; apply (nondecr_le' x Hn); lia).
  assert (Z : forall G, sumn (map (piece x G t) (all_segs x)) = 0).
  { intros G. apply sumn_null. intros k Hk. unfold all_segs in Hk. apply in_seq in Hk.
    unfold piece. destruct (stepb x k); auto. unfold lessb. rewrite (proj2 (Rltb_false _ _)) by (specialize (M (S k) ltac:(lia)); lra).
    destruct (inb x t k) eqn:E; [|ring]. apply inb_spec in E as (E & _). exfalso. destruct E as (_ & _ & E2). rewrite Rmin_left in E2 by (apply Hn; lia). specialize (M k ltac:(lia)). lra. }
  assert (J : forall k, In k (all_segs x) -> lessb x true t k = false).
  { intros k Hk. unfold all_segs in Hk. apply in_seq in Hk. unfold lessb. apply Rleb_false. specialize (M (S k) ltac:(lia)). lra. }
  unfold course_ED. destruct om as [[o ph]|]; rewrite Z, Rplus_0_r; apply sumn_null; intros k Hk.
  - unfold cjump. rewrite (J k Hk), andb_false_r. reflexivity.
  - unfold jump. rewrite (J k Hk), andb_false_r. reflexivity.
Qed.
End Course.
