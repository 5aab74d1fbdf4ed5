(** Integration by parts between EDload and Eload. *)
From Coq Require Import Reals List Arith Lia Lra Bool Sorted.
From Coquelicot Require Import Coquelicot.
From Verif Require Import Base PiecewiseModel SpecPiecewise SpecPiecewiseApi PiecewiseProofs
  LayersProofs SpectralModel SpectralProofs SpectralProofs4 LoadModel SpecLoad LoadProofs LoadProofs2.
Import ListNotations.
Open Scope R_scope.
Notation at_ := SpecPiecewise.at_.

Section Parts.
Variables (x y : list R) (dT lam t : R).
Hypothesis Hc : dT * lam <> 0.
Hypothesis Hn : nondecr x.
Let e s := exp (- dT * lam * (t - s)).
Definition tot k := jump x y dT lam t k + piece x (segGD x y dT lam t) t k + dT * lam * piece x (segG x y dT lam t) t k.

Lemma seg_parts k a b : at_ x k <> at_ x (S k) ->
  segGD x y dT lam t k a b + dT * lam * segG x y dT lam t k a b = chord x y k b * e b - chord x y k a * e a.
Proof.
  intros Hx. unfold segGD, segG, HE, e, chord.
  generalize (exp (- dT * lam * (t - a))) (exp (- dT * lam * (t - b))). intros ea eb.
  assert (dT <> 0) by (intros E; apply Hc; rewrite E; ring). assert (lam <> 0) by (intros E; apply Hc; rewrite E; ring).
  field. repeat split; auto; lra.
Qed.
Lemma chord_l k : at_ x k <> at_ x (S k) -> chord x y k (at_ x k) = at_ y k.
Proof. intros. unfold chord. field. lra. Qed.
Lemma chord_r k : at_ x k <> at_ x (S k) -> chord x y k (at_ x (S k)) = at_ y (S k).
Proof. intros. unfold chord. field. lra. Qed.
Lemma e_t : e t = 1.
Proof. unfold e. replace (- dT * lam * (t - t)) with 0 by ring. apply exp_0. Qed.

Lemma tot_done k : (S k < length x)%nat -> at_ x (S k) <= t -> tot k = at_ y (S k) * e (at_ x (S k)) - at_ y k * e (at_ x k).
Proof.
  intros Hk Ht. pose proof (Hn k Hk) as Hkk. unfold tot, jump, piece. fold (e (at_ x k)). destruct (stepb x k) eqn:Es.
  - unfold stepb in Es. apply Reqb_true in Es. unfold lessb. rewrite (proj2 (Rleb_true _ _) Ht). cbn [andb]. rewrite <- Es. ring.
  - unfold stepb in Es. apply Reqb_false in Es. cbn [andb].
    rewrite <- (chord_r k Es), <- (chord_l k Es) at 1.
    destruct (Rlt_dec (at_ x (S k)) t) as [Hlt|Hge].
    + assert (inb x t k = false).
      { destruct (inb x t k) eqn:E; auto. apply inb_spec in E as (E & _). apply in_segment_nondecr in E; auto. lra. }
      rewrite H. unfold lessb. rewrite (proj2 (Rltb_true _ _) Hlt).
      rewrite <- seg_parts by auto. ring.
    + assert (E : at_ x (S k) = t) by lra.
      assert (inb x t k = true).
      { apply inb_spec. split; [apply in_segment_nondecr; auto; repeat split; auto; lra|].
        intros j Hj. destruct (le_lt_dec k j); auto. exfalso. apply in_segment_nondecr in Hj; auto.
        assert (at_ x (S j) <= at_ x k) by (apply nondecr_le; auto; lia). lra. }
      rewrite H. unfold lessb. rewrite (proj2 (Rltb_false _ _)) by lra. rewrite E. rewrite <- seg_parts by auto. ring.
Qed.
Lemma tot_current k : (S k < length x)%nat -> at_ x k <= t < at_ x (S k) -> tot k = chord x y k t - at_ y k * e (at_ x k).
Proof.
  intros Hk Ht. unfold tot, jump, piece, lessb. destruct (stepb x k) eqn:Es.
  { unfold stepb in Es. apply Reqb_true in Es. lra. }
  unfold stepb in Es. apply Reqb_false in Es. cbn [andb]. rewrite (proj2 (Rltb_false _ _)) by lra.
  destruct (inb x t k) eqn:Ei.
  - replace (chord x y k t) with (chord x y k t * e t) by (rewrite e_t; ring). rewrite <- (chord_l k Es) at 1.
    rewrite <- seg_parts by auto. ring.
  - assert (t = at_ x k).
    { destruct (Req_dec t (at_ x k)); auto. exfalso.
      assert (inb x t k = true); [|congruence]. apply inb_spec. split; [apply in_segment_nondecr; auto; repeat split; auto; lra|].
      intros j Hj. destruct (le_lt_dec k j); auto. exfalso. apply in_segment_nondecr in Hj; auto.
      assert (at_ x (S j) <= at_ x k) by (apply nondecr_le; auto; lia). lra. }
    assert (E1 : e (at_ x k) = 1) by (rewrite <- H; apply e_t).
    assert (E2 : chord x y k t = at_ y k) by (rewrite H; apply chord_l; auto).
    rewrite E1, E2. ring.
Qed.
Lemma tot_later k : (S k < length x)%nat -> t < at_ x k -> tot k = 0.
Proof.
  intros Hk Ht. pose proof (Hn k Hk). unfold tot, jump, piece, lessb. rewrite (proj2 (Rleb_false _ _)) by lra. rewrite andb_false_r.
  rewrite (proj2 (Rltb_false _ _)) by lra.
  assert (inb x t k = false).
  { destruct (inb x t k) eqn:E; auto. apply inb_spec in E as (E & _). apply in_segment_nondecr in E; auto. lra. }
  rewrite H0. destruct (stepb x k); ring.
Qed.
Lemma tot_sum K : (K < length x)%nat -> at_ x K <= t ->
  sumn (map tot (seq 0 K)) = at_ y K * e (at_ x K) - at_ y 0 * e (at_ x 0).
Proof.
  induction K as [|K IH]; intros HK Ht; [cbn; ring|].
  rewrite seq_S, map_app, sumn_app. cbn [map sumn nadd n0 NumR]. change (0 + K)%nat with K.
  pose proof (Hn K HK). rewrite IH, tot_done by (auto; try lia; lra). ring.
Qed.
Lemma tot_zero a m : (a + m < length x)%nat -> t < at_ x a -> sumn (map tot (seq a m)) = 0.
Proof.
  revert a; induction m as [|m IH]; intros a Ha Ht; [reflexivity|]. cbn [seq map sumn nadd NumR].
  pose proof (Hn a ltac:(lia)). rewrite tot_later by (auto; lia). rewrite IH by (try lia; lra). ring.
Qed.
Lemma tot_all K : (S K < length x)%nat -> at_ x K <= t < at_ x (S K) ->
  sumn (map tot (all_segs x)) = chord x y K t - at_ y 0 * e (at_ x 0).
Proof.
  intros HK Ht. unfold all_segs. replace (length x - 1)%nat with (K + S (length x - K - 2))%nat by lia.
  rewrite seq_app, map_app, sumn_app. cbn [seq map sumn nadd NumR]. change (0 + K)%nat with K.
  rewrite tot_sum, tot_current, tot_zero by (try lia; lra). ring.
Qed.
Lemma tot_after : (1 <= length x)%nat -> at_ x (length x - 1) <= t ->
  sumn (map tot (all_segs x)) = at_ y (length x - 1) * e (at_ x (length x - 1)) - at_ y 0 * e (at_ x 0).
Proof. intros HK Ht. unfold all_segs. apply tot_sum; auto. lia. Qed.
Lemma tot_split : sumn (map tot (all_segs x)) = sumn (map (jump x y dT lam t) (all_segs x)) +
   sumn (map (piece x (segGD x y dT lam t) t) (all_segs x)) + dT * lam * sumn (map (piece x (segG x y dT lam t) t) (all_segs x)).
Proof. unfold tot. rewrite !sumn_map_plus. f_equal. rewrite <- sumn_scal, map_map. reflexivity. Qed.
End Parts.
