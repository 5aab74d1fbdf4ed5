(** * polyline_make_x_common, PolyLine sums, load products *)
From Coq Require Import Reals List Arith Lia Lra Bool Sorted.
From Verif Require Import Base PiecewiseModel LayersModel SpecPiecewise SpecPiecewiseApi
  PiecewiseProofs PiecewiseProofs2 PiecewiseProofs3 LayersProofs PolyLineModel SpecPolyLine PolyLineProofs2 PolyLineProofs3.
Import ListNotations.
Open Scope R_scope.

(** ** Orientation *)
Lemma px_rev p : px (rev p) = rev (px p). Proof. apply map_rev. Qed.
Lemma nonconstant_step x : (2 <= length x)%nat -> at_ x 0 <> at_ x (length x - 1) ->
  exists i, (S i < length x)%nat /\ at_ x i <> at_ x (S i).
Proof.
  intros Hl Hne.
  assert (G : forall n, (n < length x)%nat -> at_ x 0 <> at_ x n -> exists i, (S i <= n)%nat /\ at_ x i <> at_ x (S i)).
  { induction n as [|n IH]; intros Hn Hx; [congruence|]. destruct (Req_EM_T (at_ x 0) (at_ x n)) as [E|E].
    - exists n. split; [lia|congruence].
    - destruct (IH ltac:(lia) E) as (i & A & B). exists i. split; [lia|auto]. }
  destruct (G (length x - 1)%nat) as (i & A & B); [lia|auto|]. exists i. split; [lia|auto].
Qed.
Lemma orient_spec p q : drawn_rightward p q -> monotone_x p = true /\ orient p = Ok q.
Proof.
  intros ((Hn & Hl & Hw) & H). unfold monotone_x, orient. destruct H as [->|[-> Hlt]].
  - split; [apply non_decreasing_nondecr in Hn; rewrite Hn; apply orb_true_r|].
    destruct (Req_EM_T (at_ (px p) 0) (at_ (px p) 1)) as [E|E].
    + rewrite is_initially_increasing_step; auto; [rewrite px_length; auto|].
      apply nonconstant_step; rewrite px_length; auto. lra.
    + destruct (is_initially_increasing_partial (px p)) as (b & Eb & Hb); auto; [rewrite px_length; auto|].
      rewrite Eb. cbn. replace b with true; auto. symmetry. apply Hb. specialize (Hn 0%nat). rewrite px_length in Hn. specialize (Hn ltac:(lia)). lra.
  - rewrite rev_length in Hl. split.
    + rewrite px_rev in Hn. apply non_decreasing_nondecr in Hn.
      assert (E : non_increasing (px p) = true). 2:{ rewrite E. auto. }
      apply non_increasing_iff. intros i j Hij Hj. pose proof (proj1 (non_decreasing_iff _) Hn) as M.
      specialize (M (length (px p) - S j)%nat (length (px p) - S i)%nat). rewrite rev_length in M. rewrite !at_rev in M by lia.
      replace (length (px p) - S (length (px p) - S j))%nat with j in M by lia.
      replace (length (px p) - S (length (px p) - S i))%nat with i in M by lia. apply M; lia.
    + destruct (is_initially_increasing_partial (px p)) as (b & Eb & Hb); [rewrite px_length; auto|lra|].
      rewrite Eb. cbn. destruct b; auto. exfalso. pose proof (proj1 Hb eq_refl). lra.
Qed.

Lemma orient_all ls os : Forall2 drawn_rightward ls os ->
  mapM (fun p => if negb (monotone_x p) then Err TypeError else orient p) ls = Ok os.
Proof.
  intros H. apply mapM_Ok_Forall2. induction H; constructor; auto.
  destruct (orient_spec _ _ H) as [A B]. rewrite A. exact B.
Qed.

(** ** polyline_make_x_common *)
Lemma map_nth_seq {T} (l : list T) d : map (fun k => nth k l d) (seq 0 (length l)) = l.
Proof.
  induction l as [|a l IH]; cbn; auto. f_equal. rewrite <- seq_shift, map_map. cbn. exact IH.
Qed.
Lemma Forall2_length {A B} (P : A -> B -> Prop) l m : Forall2 P l m -> length l = length m.
Proof. induction 1; cbn; auto. Qed.
Lemma rightward_two p : rightward p -> exists u w, In u (px p) /\ In w (px p) /\ u < w.
Proof.
  intros (_ & Hl & Hw). exists (at_ (px p) 0), (at_ (px p) (length p - 1)).
  repeat split; auto; apply nth_In; rewrite px_length; lia.
Qed.
Lemma two_length G (u w : R) : In u G -> In w G -> u < w -> (2 <= length G)%nat.
Proof. intros Hu Hw H. destruct G as [|a [|b G]]; cbn in *; try lia. destruct Hu as [<-|[]], Hw as [<-|[]]. lra. Qed.
Lemma emits_length yl yr G : (length G <= length (emits yl yr G))%nat.
Proof.
  induction G as [|g G IH]; cbn; auto. unfold emits in *. cbn. rewrite app_length.
  assert (1 <= length (emit g (yl g) (yr g)))%nat by (unfold emit; destruct (Rltb _ _); cbn; lia). lia.
Qed.
Lemma emits_new yl yr G : (2 <= length G)%nat -> new_points (emits yl yr G) = Ok (emits yl yr G).
Proof.
  intros H. unfold new_points. replace (Nat.ltb (length (emits yl yr G)) 2) with false; auto.
  symmetry. apply Nat.ltb_ge. pose proof (emits_length yl yr G). lia.
Qed.
Lemma flat_map_map {A B C} (f : B -> list C) (g : A -> B) l : flat_map f (map g l) = flat_map (fun a => f (g a)) l.
Proof. induction l; cbn; congruence. Qed.
Lemma flat_map_ext' {A B} (f g : A -> list B) l : (forall a, In a l -> f a = g a) -> flat_map f l = flat_map g l.
Proof. induction l; cbn; intros H; auto. rewrite H, IHl; auto. Qed.

Lemma make_x_common_eq ls os : Forall2 drawn_rightward ls os -> (2 <= length ls)%nat -> well_separated os ->
  exists G, grid_of os G /\ (2 <= length G)%nat /\
    polyline_make_x_common ls = Ok (map (fun q => emits (vleft q) (vright q) G) os).
Proof.
  intros F Hl W. pose proof (Forall2_length _ _ _ F) as FL.
  assert (Rw : forall q, In q os -> rightward q).
  { intros q Hq. clear - F Hq. induction F; [contradiction|]. destruct Hq as [<-|Hq]; auto. destruct H; auto. }
  destruct (visits_eq os) as (G & HG & EV); auto.
  { intros ->. cbn in FL. lia. }
  { intros q Hq ->. destruct (Rw _ Hq) as (_ & C & _). cbn in C. lia. }
  assert (G2 : (2 <= length G)%nat).
  { destruct os as [|q os]; [cbn in FL; lia|]. destruct (rightward_two q) as (u & w & Hu & Hw & Huw); [apply Rw; left; auto|].
    apply (two_length G u w); auto; apply HG; cbn; apply in_or_app; auto. }
  exists G. split; auto. split; auto.
  unfold polyline_make_x_common. rewrite (orient_all _ _ F). cbn [bind].
  assert (E : (vs <- visits os ;; mapM new_points
        (map (fun k => flat_map (fun v : R * list (R * R) =>
                let '(y, y_) := nth k (snd v) (0, 0) in emit (fst v) y y_) vs) (seq 0 (length ls)))) =
     Ok (map (fun q => emits (vleft q) (vright q) G) os)).
  { rewrite EV. cbn [bind].
    replace (map _ (seq 0 (length ls))) with (map (fun q => emits (vleft q) (vright q) G) os).
    - transitivity (Ok (map (fun p : points => p) (map (fun q => emits (vleft q) (vright q) G) os))); [|rewrite map_id; auto].
      apply mapM_map. intros a Ha. apply in_map_iff in Ha. destruct Ha as (q & <- & Hq). apply emits_new; auto.
    - rewrite FL. clear. 
      transitivity (map (fun k => emits (vleft (nth k os [])) (vright (nth k os [])) G) (seq 0 (length os))).
      + clear. rewrite <- (map_nth_seq os []) at 1. rewrite map_map. auto.
      + apply map_ext_in. intros k Hk. apply in_seq in Hk. unfold emits. rewrite flat_map_map. apply flat_map_ext'. intros x Hx. cbn [fst snd].
        rewrite (nth_indep _ (0, 0) (vleft [] x, vright [] x)) by (rewrite map_length; lia).
        rewrite (map_nth (fun p => (vleft p x, vright p x))). auto. }
  destruct ls as [|a [|b ls]]; cbn in Hl; try lia. exact E.
Qed.
