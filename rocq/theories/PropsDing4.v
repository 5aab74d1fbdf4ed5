(** * C145-C147: cases that meet the hypotheses *)
From Coq Require Import Reals List Arith ZArith Bool Lia Lra Ranalysis5.
From Coquelicot Require Import Coquelicot.
From Verif Require Import Base SpecQuadrature DingModel DingProofs PropsDing PropsDing2 PropsDing3.
Import ListNotations.
Local Open Scope R_scope.

(** two points: the trapezoidal rule *)
Lemma two_points : points_SS 2 = [0; 1].
Proof. unfold points_SS. cbn [seq map INR]. repeat (apply f_equal2; [|]); try reflexivity. - replace (PI * 0 / (1 + 1 - 1)) with 0 by field. rewrite cos_0. ring. - replace (PI * 1 / (1 + 1 - 1)) with PI by field. rewrite cos_PI. field. Qed.
Definition matrix2 : list (list R) := [[1; 1]; [0; 1]].
Definition solve2 (M : list (list R)) (r : list R) : result (list R) :=
  if list_eq_dec (list_eq_dec Req_EM_T) M matrix2 then if list_eq_dec Req_EM_T r [1; / 2] then Ok [/ 2; / 2] else Err ValueError else Err ValueError.
Lemma solve2_solves : solves solve2.
Proof.
  intros M r x. unfold solve2. destruct list_eq_dec as [->|]; [|discriminate]. destruct list_eq_dec as [->|]; [|discriminate]. intros H. injection H as <-. split; [reflexivity|]. split.
  - unfold matrix2, dot. cbn. apply f_equal2; [field|]. apply f_equal2; [field|reflexivity].
  - intros [|a [|b [|c l]]] L1 E; try discriminate. unfold matrix2, dot in E. cbn in E. injection E as E1 E2. apply f_equal2; [lra|]. apply f_equal2; [lra|reflexivity].
Qed.
Lemma weights2 : weights solve2 [0; 1] = Ok [/ 2; / 2].
Proof.
  unfold weights, solve2. cbn [length seq map]. destruct list_eq_dec as [E|E]; [|exfalso; apply E; unfold matrix2; cbn; repeat (apply f_equal2; [lra || (repeat (apply f_equal2; [lra|]); reflexivity)|]); reflexivity].
  destruct list_eq_dec as [F|F]; [reflexivity|]. exfalso. apply F. cbn. apply f_equal2; [field|]. apply f_equal2; [field|reflexivity].
Qed.
(** a beam without damping and cubic stiffness, at rest load: one mode swinging freely *)
Definition no_roots (f : R -> R) (n : nat) : result (list R) := Err ValueError.
Definition unit_beam : ding_in := physical 1 2 1 1 1 1 1 1 0 0 0 0.
Example C145_witness : exists o q qd, init no_roots solve2 unit_beam = Ok o /\ (exists T, q 0%nat T <> 0) /\
  forall T, exists d, vectorfield o (map (fun k => q k T) (seq 0 1) ++ map (fun k => qd k T) (seq 0 1)) T = Ok d /\
     forall k, (k < 1)%nat -> is_derive (q k) T (nth k d 0) /\ is_derive (qd k) T (nth (1 + k) d 0).
Proof.
  assert (HI : exists o, init no_roots solve2 unit_beam = Ok o). { unfold init, unit_beam, physical. cbn -[points_SS weights]. rewrite two_points, weights2. cbn. eauto. }
  destruct HI as (o & HI). set (om := sqrt (1 + PI ^ 4)). assert (OM : om * om = 1 + PI ^ 4) by (apply sqrt_sqrt; assert (P := pow2_ge_0 (PI ^ 2)); nra).
  exists o, (fun _ T => cos (om * T)), (fun _ T => - om * sin (om * T)). split; auto. split; [exists 0; rewrite Rmult_0_r, cos_0; lra|]. intros T.
  destruct (field_SS no_roots solve2 unit_beam o 1 2 (fun _ => cos (om * T)) (fun _ => - om * sin (om * T)) T eq_refl eq_refl eq_refl HI ltac:(lia)) as (Ij & d & EW & Ed & _ & F1 & F2).
  exists d. split; auto. intros k Hk. rewrite two_points, weights2 in EW. injection EW as <-. rewrite F1, F2 by auto. assert (k = 0%nat) by lia. subst k. destruct (init_physical _ _ _ _ _ _ _ _ _ _ _ _ _ _ _ HI) as (_ & P2 & P3 & P4 & P5 & P6).
  split; [auto_derive; auto; ring|]. rewrite P2, P3, P4, P5, P6. replace (1 / 1) with 1 by field. rewrite sqrt_1. cbn [INR].
  set (s := sumR _). replace (- (0 / 1 * sqrt (1 ^ 2 / (1 * 1))) * (- om * sin (om * T)) - (1 * 1 ^ 2 / (1 * 1) + (1 * 1) ^ 2 * (PI * (0 + 1)) ^ 4) * cos (om * T) + 2 * (0 / (1 * 1)) * sin (PI * (0 + 1) * (o_v o * T)) - 2 * (0 * 1 ^ 4 / (1 * 1)) * s)
    with (- ((1 + PI ^ 4) * cos (om * T))) by (field). rewrite <- OM. auto_derive; auto. ring.
Qed.
Example C146_witness : solves solve2 /\ weights solve2 (points_SS 2) = Ok [/ 2; / 2] /\ NoDup (points_SS 2) /\ quadr [/ 2; / 2] [0; 1] (poly [3; 4]) = 5.
Proof.
  split; [apply solve2_solves|]. rewrite two_points. split; [apply weights2|]. split; [|unfold quadr; cbn; field]. constructor; [intros [H|[]]; lra|]. constructor; [intros []|constructor].
Qed.
(** there are roots *)
Example C147_root_witness : exists b, 0 < b /\ cos b * cosh b = 1.
Proof.
  assert (P := PI_RGT_0). set (f := fun b => 1 - cos b * cosh b).
  assert (CT : forall x, continuity_pt f x).
  { intros x. apply continuity_pt_filterlim. apply (ex_derive_continuous (K := R_AbsRing) (V := R_NormedModule)). exists (- (- sin x * cosh x + cos x * sinh x)). unfold f.
    assert (D : is_derive (fun b => minus 1 (mult (cos b) (cosh b))) x (minus 0 (plus (mult (- sin x) (cosh x)) (mult (cos x) (sinh x))))).
    { apply (is_derive_minus (V := R_NormedModule) (fun _ => 1)); [apply (is_derive_const (K := R_AbsRing) (V := R_NormedModule))|]. apply (is_derive_mult (K := R_AbsRing) cos cosh); [apply is_derive_cos|apply d_cosh|intros; apply Rmult_comm]. }
    apply (eq_ind _ (fun v => is_derive _ x v) D). unfold minus, plus, opp, mult; cbn. ring. }
  destruct (IVT_interv (fun x => - f x) (3 * (PI / 2)) (2 * PI)) as (b & Hb & E).
  - intros a _. apply continuity_pt_opp. apply CT.
  - lra.
  - unfold f. rewrite cos_3PI2. lra.
  - unfold f. rewrite cos_2PI. assert (C : 1 < cosh (2 * PI)). { assert (S := sinh_ge (2 * PI) ltac:(lra)). assert (C := cosh_sinh (2 * PI)). assert (G := cosh_ge (2 * PI)). nra. } lra.
  - exists b. unfold f in E. split; lra.
Qed.
Definition free_beam : ding_in := mkIn FF 2 (Some 1) (Some 1) (Some 1) (Some 1) (Some 2) (Some 1) (Some 1) (Some 1) (Some 1) (Some 1) None None None None None None None.
Example C147_free_witness : exists o, init (fun _ n => Ok (repeat 5 n)) solve2 free_beam = Ok o /\ o_beta o = [0; 5] /\ o_quad o = None.
Proof. eexists. split; [reflexivity|]. split; reflexivity. Qed.
Example C147_points_witness : exists xs, points_CC 4 = Ok xs /\ length xs = 4%nat /\ nth 1 xs 0 = 1 / 10000 /\ nth 2 xs 0 = 1 / 10000.
Proof. unfold points_CC. cbn -[Rdiv]. eexists. split; [reflexivity|]. cbn. auto. Qed.
