(** Integration by parts between EDload_coslinear and Eload_coslinear. *)
From Coq Require Import Reals List Arith Lia Lra Bool Sorted.
From Coquelicot Require Import Coquelicot.
From Verif Require Import Base PiecewiseModel SpecPiecewise SpecPiecewiseApi PiecewiseProofs
  LayersProofs SpectralModel SpectralProofs SpectralProofs4 LoadModel SpecLoad LoadProofs LoadProofs2 LoadProofs3 LoadTrigProofs LoadTrigProofs2.
Import ListNotations.
Open Scope R_scope.
Notation at_ := SpecPiecewise.at_.

(** F k z: the load on segment k at time z; E, D: segment integrals; J: jumps.  Generic version of LoadProofs3.Parts. *)
Section Parts.
Variables (x y : list R) (t a : R) (F : nat -> R -> R) (v : nat -> R) (J : nat -> R) (GD G : nat -> R -> R -> R).
Hypothesis Hn : nondecr x.
Let e s := exp (- a * (t - s)).
Hypothesis HJ : forall k, (S k < length x)%nat -> at_ x k = at_ x (S k) -> J k = if Rle_dec (at_ x k) t then (v (S k) - v k) * e (at_ x k) else 0.
Hypothesis HJ0 : forall k, (S k < length x)%nat -> at_ x k <> at_ x (S k) -> J k = 0.
Hypothesis HF : forall k, (S k < length x)%nat -> at_ x k <> at_ x (S k) -> F k (at_ x k) = v k /\ F k (at_ x (S k)) = v (S k).
Hypothesis HG : forall k p q, (S k < length x)%nat -> at_ x k <> at_ x (S k) -> GD k p q + a * G k p q = F k q * e q - F k p * e p.
Definition gtot k := J k + piece x GD t k + a * piece x G t k.
Lemma ge_t : e t = 1.
Proof. unfold e. rewrite Rminus_eq_0, Rmult_0_r. apply exp_0. Qed.
Lemma gtot_done k : (S k < length x)%nat -> at_ x (S k) <= t -> gtot k = v (S k) * e (at_ x (S k)) - v k * e (at_ x k).
Proof.
  intros Hk Ht. pose proof (Hn k Hk) as Hkk. unfold gtot, piece. destruct (stepb x k) eqn:Es.
  - unfold stepb in Es. apply Reqb_true in Es. rewrite HJ by auto. destruct (Rle_dec (at_ x k) t); [|lra]. rewrite <- Es. ring.
  - unfold stepb in Es. apply Reqb_false in Es. rewrite HJ0 by auto. destruct (HF k Hk Es) as (A & B). rewrite <- A, <- B.
    destruct (Rlt_dec (at_ x (S k)) t) as [Hlt|Hge].
    + assert (inb x t k = false).
      { destruct (inb x t k) eqn:E; auto. apply inb_spec in E as (E & _). apply in_segment_nondecr in E; auto. lra. }
      rewrite H. unfold lessb. rewrite (proj2 (Rltb_true _ _) Hlt). rewrite <- HG by auto. ring.
    + assert (E : at_ x (S k) = t) by lra.
      assert (inb x t k = true).
      { apply inb_spec. split; [apply in_segment_nondecr; auto; repeat split; auto; lra|].
        intros j Hj. destruct (le_lt_dec k j); auto. exfalso. apply in_segment_nondecr in Hj; auto.
        assert (at_ x (S j) <= at_ x k) by (apply nondecr_le; auto; lia). lra. }
      rewrite H. unfold lessb. rewrite (proj2 (Rltb_false _ _)) by lra. rewrite E. rewrite <- HG by auto. ring.
Qed.
Lemma gtot_current k : (S k < length x)%nat -> at_ x k <= t < at_ x (S k) -> gtot k = F k t - v k * e (at_ x k).
Proof.
  intros Hk Ht. unfold gtot, piece, lessb. destruct (stepb x k) eqn:Es.
  { unfold stepb in Es. apply Reqb_true in Es. lra. }
  unfold stepb in Es. apply Reqb_false in Es. rewrite HJ0 by auto. rewrite (proj2 (Rltb_false _ _)) by lra.
  destruct (HF k Hk Es) as (A & _). rewrite <- A.
  destruct (inb x t k) eqn:Ei.
  - replace (F k t) with (F k t * e t) by (rewrite ge_t; ring). rewrite <- HG by auto. ring.
  - assert (t = at_ x k).
    { destruct (Req_dec t (at_ x k)); auto. exfalso.
      assert (inb x t k = true); [|congruence]. apply inb_spec. split; [apply in_segment_nondecr; auto; repeat split; auto; lra|].
      intros j Hj. destruct (le_lt_dec k j); auto. exfalso. apply in_segment_nondecr in Hj; auto.
      assert (at_ x (S j) <= at_ x k) by (apply nondecr_le; auto; lia). lra. }
    rewrite <- H, ge_t. ring.
Qed.
Lemma gtot_later k : (S k < length x)%nat -> t < at_ x k -> gtot k = 0.
Proof.
  intros Hk Ht. pose proof (Hn k Hk). unfold gtot, piece, lessb.
  rewrite (proj2 (Rltb_false _ _)) by lra.
  assert (inb x t k = false).
  { destruct (inb x t k) eqn:E; auto. apply inb_spec in E as (E & _). apply in_segment_nondecr in E; auto. lra. }
  rewrite H0. assert (J k = 0). { destruct (Req_dec (at_ x k) (at_ x (S k))); [rewrite HJ by auto; destruct (Rle_dec _ _); lra|auto]. }
  rewrite H1. destruct (stepb x k); ring.
Qed.
Lemma gtot_sum K : (K < length x)%nat -> at_ x K <= t ->
  sumn (map gtot (seq 0 K)) = v K * e (at_ x K) - v 0%nat * e (at_ x 0).
Proof.
  induction K as [|K IH]; intros HK Ht; [cbn; ring|].
  rewrite seq_S, map_app, sumn_app. cbn [map sumn nadd n0 NumR]. change (0 + K)%nat with K.
  pose proof (Hn K HK). rewrite IH, gtot_done by (auto; try lia; lra). ring.
Qed.
Lemma gtot_zero b m : (b + m < length x)%nat -> t < at_ x b -> sumn (map gtot (seq b m)) = 0.
Proof.
  revert b; induction m as [|m IH]; intros b Hb Ht; [reflexivity|]. cbn [seq map sumn nadd NumR].
  pose proof (Hn b ltac:(lia)). rewrite gtot_later by (auto; lia). rewrite IH by (try lia; lra). ring.
Qed.
Lemma gtot_all K : (S K < length x)%nat -> at_ x K <= t < at_ x (S K) ->
  sumn (map gtot (all_segs x)) = F K t - v 0%nat * e (at_ x 0).
Proof.
  intros HK Ht. unfold all_segs. replace (length x - 1)%nat with (K + S (length x - K - 2))%nat by lia.
  rewrite seq_app, map_app, sumn_app. cbn [seq map sumn nadd NumR]. change (0 + K)%nat with K.
  rewrite gtot_sum, gtot_current, gtot_zero by (try lia; lra). ring.
Qed.
Lemma gtot_split : sumn (map gtot (all_segs x)) = sumn (map J (all_segs x)) + sumn (map (piece x GD t) (all_segs x)) + a * sumn (map (piece x G t) (all_segs x)).
Proof. unfold gtot. rewrite !sumn_map_plus. f_equal. rewrite <- sumn_scal, map_map. reflexivity. Qed.
End Parts.

Lemma HCD_parts p q om ph dT lam t z : dT * lam <> 0 ->
  HCD p q om ph dT lam t z + dT * lam * HC p q om ph dT lam t z = (p + q * z) * cos (om * z + ph) * exp (- dT * lam * (t - z)).
Proof.
  intros Hc. pose proof (den_pos _ om Hc) as Hd. unfold HCD, HC, HS. cbv zeta.
  generalize (exp (- dT * lam * (t - z))) (cos (om * z + ph)) (sin (om * z + ph)). intros e c s.
  field. cbn [pow] in Hd. rewrite !Rmult_1_r in Hd. intros E. apply Hd. rewrite <- E. ring.
Qed.
Lemma cos_parts x y om ph dT lam t K : dT * lam <> 0 -> nondecr x -> (S K < length x)%nat -> at_ x K <= t < at_ x (S K) ->
  sumn (map (cjump x y om ph dT lam t) (all_segs x)) + sumn (map (piece x (segH (fun p q => HCD p q om ph dT lam t) x y) t) (all_segs x))
   + dT * lam * sumn (map (piece x (segH (fun p q => HC p q om ph dT lam t) x y) t) (all_segs x))
  = chord x y K t * cos (om * t + ph) - at_ y 0 * cos (om * at_ x 0 + ph) * exp (- dT * lam * (t - at_ x 0)).
Proof.
  intros Hc Hn HK Ht. rewrite <- (gtot_split x t (dT * lam)).
  replace (- dT * lam) with (- (dT * lam)) by ring.
  apply (gtot_all x t (dT * lam) (fun k z => chord x y k z * cos (om * z + ph)) (fun k => at_ y k * cos (om * at_ x k + ph))); auto.
  - intros k Hk E. unfold cjump, stepb, lessb. rewrite (proj2 (Reqb_true _ _) E). cbn [andb].
    rewrite <- E. destruct (Rle_dec (at_ x k) t) as [r|r].
    + rewrite (proj2 (Rleb_true _ _)) by lra. replace (- (dT * lam)) with (- dT * lam) by ring. ring.
    + rewrite (proj2 (Rleb_false _ _)) by lra. reflexivity.
  - intros k Hk E. unfold cjump, stepb. rewrite (proj2 (Reqb_false _ _) E). reflexivity.
  - intros k Hk E. rewrite chord_l, chord_r by auto. auto.
  - intros k p q Hk E. unfold segH. set (s := (at_ y (S k) - at_ y k) / (at_ x (S k) - at_ x k)).
    pose proof (HCD_parts (at_ y k - s * at_ x k) s om ph dT lam t q Hc) as A. pose proof (HCD_parts (at_ y k - s * at_ x k) s om ph dT lam t p Hc) as B.
    replace (- (dT * lam)) with (- dT * lam) by ring.
    assert (Ch : forall z, chord x y k z = at_ y k - s * at_ x k + s * z) by (intros z; unfold chord, s; field; lra).
    rewrite !Ch, <- A, <- B. ring.
Qed.
