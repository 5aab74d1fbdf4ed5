(** * Proofs about the layered soil with a drain: the radial function has a zero *)
From Coq Require Import Reals List Arith ZArith Bool Lia Lra.
From Coquelicot Require Import Coquelicot.
From Verif Require Import Base NogamiModel SpecNogami TerzaghiProofs NogamiProofs NogamiProofs2 NogamiProofs3.
Local Open Scope R_scope.

(** the first zero *)
Lemma first_zero (f : R -> R) a b : a < b -> (forall x, a <= x <= b -> continuous f x) -> 0 < f a -> f b <= 0 -> exists z, a < z <= b /\ f z = 0 /\ forall x, a <= x < z -> 0 < f x.
Proof.
  intros Hab Hc Ha Hb. set (E := fun x => a <= x <= b /\ forall y, a <= y <= x -> 0 < f y).
  assert (Ea : E a) by (split; [lra|intros y Hy; replace y with a by lra; auto]).
  destruct (completeness E) as [z [U L]]; [exists b; intros x [Hx _]; lra|exists a; auto|].
  assert (Hz : a <= z <= b) by (split; [apply U; auto|apply L; intros x [Hx _]; lra]).
  assert (Bel : forall x, a <= x < z -> 0 < f x).
  { intros x Hx. destruct (Classical_Prop.classic (exists y, E y /\ x < y)) as [(y & [_ Ey] & Hy)|N]; [apply Ey; lra|]. exfalso. assert (z <= x); [|lra]. apply L. intros y Ey. destruct (Rle_or_lt y x); auto. exfalso. apply N. eauto. }
  assert (Loc : forall x e, a <= x <= b -> 0 < e -> exists dl : posreal, forall y, Rabs (y - x) < dl -> Rabs (f y - f x) < e).
  { intros x e Hx He. destruct (proj1 (filterlim_locally f (f x)) (Hc x Hx) (mkposreal e He)) as (dl & K). exists dl. intros y Hy. apply (K y). exact Hy. }
  assert (Z : f z = 0).
  { destruct (Rtotal_order (f z) 0) as [N|[Q|N]]; auto; exfalso.
    - destruct (Loc z (- f z) Hz ltac:(lra)) as (dl & K). pose proof (cond_pos dl). assert (a < z) by (destruct (Req_dec a z) as [Q|Q]; [rewrite <- Q in N; lra|lra]).
      set (y := Rmax a (z - dl / 2)). assert (a <= y < z) by (unfold y; split; [apply Rmax_l|apply Rmax_lub_lt; lra]). pose proof (Bel y H1). assert (z - dl / 2 <= y) by apply Rmax_r.
      specialize (K y ltac:(rewrite Rabs_left1 by lra; lra)). apply Rabs_def2 in K. lra.
    - assert (z < b) by (destruct (Req_dec z b) as [Q|Q]; [rewrite Q in N; lra|lra]). destruct (Loc z (f z) Hz N) as (dl & K). pose proof (cond_pos dl).
      set (y := Rmin b (z + dl / 2)). assert (z < y <= b) by (unfold y; split; [apply Rmin_glb_lt; lra|apply Rmin_l]). assert (y <= z + dl / 2) by apply Rmin_r.
      assert (E y); [|pose proof (U y H3); lra]. split; [lra|]. intros x Hx. destruct (Rlt_or_le x z); [apply Bel; lra|]. specialize (K x ltac:(rewrite Rabs_pos_eq by lra; lra)). apply Rabs_def2 in K. lra. }
  exists z. split; [|auto]. split; [|lra]. destruct (Req_dec a z) as [Q|Q]; [rewrite <- Q in Z; lra|lra].
Qed.

Section Zero.
Variables J Y : nat -> R -> R.
Hypothesis HB : are_bessel J Y.
Definition hh (y x : R) : R := J 1 x * Y 0 y - J 0 y * Y 1 x.
Definition kk (y x : R) : R := J 0 x * Y 0 y - J 0 y * Y 0 x.
Lemma J0d (x : R) : 0 < x -> is_derive (J 0%nat) x (- J 1%nat x). Proof. apply HB. Qed.
Lemma J1d (x : R) : 0 < x -> is_derive (J 1%nat) x (J 0%nat x - J 1%nat x / x). Proof. apply HB. Qed.
Lemma Y0d (x : R) : 0 < x -> is_derive (Y 0%nat) x (- Y 1%nat x). Proof. apply HB. Qed.
Lemma Y1d (x : R) : 0 < x -> is_derive (Y 1%nat) x (Y 0%nat x - Y 1%nat x / x). Proof. apply HB. Qed.
Lemma lin_d (u v : R -> R) (x : R) a b l m : is_derive u x l -> is_derive v x m -> is_derive (fun x => u x * a - b * v x) x (l * a - b * m).
Proof.
  intros D1 D2. auto_derive; [split; [exists l; auto|split; [exists m; auto|exact I]]|]. change (fun x => u x) with u; change (fun x => v x) with v. rewrite (is_derive_unique _ _ _ D1), (is_derive_unique _ _ _ D2). ring.
Qed.
Lemma kk_d (y x : R) : 0 < x -> is_derive (kk y) x (- hh y x).
Proof. intros Hx. replace (- hh y x) with (- J 1 x * Y 0 y - J 0 y * - Y 1 x) by (unfold hh; ring). apply lin_d; [apply J0d; auto|apply Y0d; auto]. Qed.
Lemma hh_d (y x : R) : 0 < x -> is_derive (hh y) x (kk y x - hh y x / x).
Proof.
  intros Hx. replace (kk y x - hh y x / x) with ((J 0 x - J 1 x / x) * Y 0 y - J 0 y * (Y 0 x - Y 1 x / x)) by (unfold hh, kk; field; lra). apply lin_d; [apply J1d; auto|apply Y1d; auto].
Qed.
Lemma hh_in y : 0 < y -> hh y y = 2 / (PI * y).
Proof. intros Hy. unfold hh. rewrite <- (proj2 (proj2 HB) y Hy). ring. Qed.
Lemma kk_in y : kk y y = 0. Proof. unfold kk. ring. Qed.
Lemma cont_of (f g : R -> R) (x : R) : is_derive f x (g x) -> continuity_pt f x.
Proof. intros D. apply continuity_pt_filterlim, (ex_derive_continuous (V := R_NormedModule)). eexists. apply D. Qed.
Lemma mvt (f g : R -> R) a b : 0 < a -> a <= b -> (forall x, 0 < x -> is_derive f x (g x)) -> exists c, a <= c <= b /\ f b - f a = g c * (b - a).
Proof.
  intros Ha Hab D. destruct (MVT_gen f a b g) as (c & Hc & Q).
  - intros x Hx. rewrite Rmin_left in Hx by lra. apply D. lra.
  - intros x Hx. rewrite Rmin_left in Hx by lra. apply (cont_of f g). apply D. lra.
  - rewrite Rmin_left, Rmax_right in Hc by lra. eauto.
Qed.
Lemma th_d (y x : R) : 0 < x -> is_derive (fun x => x * hh y x) x (x * kk y x).
Proof.
  intros Hx. pose proof (hh_d y x Hx) as D. auto_derive; [repeat match goal with |- _ /\ _ => split end; try exact I; exists (kk y x - hh y x / x); exact D|]. change (fun x => hh y x) with (hh y). rewrite (is_derive_unique _ _ _ D). field. lra.
Qed.
Lemma energy y t : 0 < y -> y <= t -> (hh y t)^2 + (kk y t)^2 <= (2 / (PI * y))^2.
Proof.
  intros Hy Ht. destruct (mvt (fun x => (hh y x)^2 + (kk y x)^2) (fun x => - 2 * (hh y x)^2 / x) y t Hy Ht) as (c & Hc & Q).
  - intros x Hx. pose proof (hh_d y x Hx) as D1. pose proof (kk_d y x Hx) as D2. auto_derive; [repeat match goal with |- _ /\ _ => split end; try exact I; [exists (kk y x - hh y x / x); exact D1|exists (- hh y x); exact D2]|].
    change (fun x => hh y x) with (hh y). change (fun x => kk y x) with (kk y). rewrite (is_derive_unique _ _ _ D1), (is_derive_unique _ _ _ D2). field. lra.
  - cbv beta in Q. rewrite (hh_in y Hy), kk_in in Q. assert (0 <= 2 * (hh y c)^2 / c * (t - y)); [|unfold Rdiv in *; lra]. apply Rmult_le_pos; [apply Rdiv_le_0_compat; [pose proof (pow2_ge_0 (hh y c)); lra|lra]|lra].
Qed.
Lemma q_pos y : 0 < y -> 0 < 2 / (PI * y).
Proof. intros Hy. apply Rdiv_lt_0_compat; [lra|apply Rmult_lt_0_compat; [apply PI_RGT_0|auto]]. Qed.
Lemma hh_abs y t : 0 < y -> y <= t -> Rabs (hh y t) <= 2 / (PI * y).
Proof.
  intros Hy Ht. pose proof (energy y t Hy Ht) as E. pose proof (pow2_ge_0 (kk y t)) as K. pose proof (q_pos y Hy) as Q.
  rewrite <- (Rabs_pos_eq (2 / (PI * y))) by lra. apply Rsqr_le_abs_0. unfold Rsqr. cbn in *. lra.
Qed.
Lemma kk_abs y t : 0 < y -> y <= t -> Rabs (kk y t) <= 2 / (PI * y) * (t - y).
Proof.
  intros Hy Ht. destruct (mvt (kk y) (fun x => - hh y x) y t Hy Ht (kk_d y)) as (c & Hc & Q). rewrite kk_in, Rminus_0_r in Q. rewrite Q, Rabs_mult, Rabs_Ropp, (Rabs_pos_eq (t - y)) by lra.
  apply Rmult_le_compat_r; [lra|]. apply hh_abs; lra.
Qed.
Lemma th_low y t : 0 < y -> y <= t -> 2 / PI * (1 - t * (t - y)^2 / y) <= t * hh y t.
Proof.
  intros Hy Ht. pose proof PI_RGT_0 as P0. destruct (mvt (fun x => x * hh y x) (fun x => x * kk y x) y t Hy Ht (th_d y)) as (c & Hc & Q). cbv beta in Q. rewrite (hh_in y Hy) in Q.
  assert (E : y * (2 / (PI * y)) = 2 / PI) by (field; lra). rewrite E in Q. pose proof (kk_abs y c Hy ltac:(lra)) as K.
  assert (B : - (t * (2 / (PI * y) * (t - y)) * (t - y)) <= c * kk y c * (t - y)).
  { rewrite Ropp_mult_distr_l. apply Rmult_le_compat_r; [lra|]. pose proof (q_pos y Hy) as Q0. pose proof (Rle_abs (- kk y c)) as A. rewrite Rabs_Ropp in A.
    apply Rle_trans with (c * - (2 / (PI * y) * (c - y))); [|apply Rmult_le_compat_l; lra]. rewrite <- Ropp_mult_distr_r. apply Ropp_le_contravar.
    apply Rmult_le_compat; [lra| |lra|apply Rmult_le_compat_l; lra]. apply Rmult_le_pos; lra. }
  replace (2 / PI * (1 - t * (t - y)^2 / y)) with (2 / PI + - (t * (2 / (PI * y) * (t - y)) * (t - y))) by (field; lra). lra.
Qed.
(** with inner argument 1 the function reaches zero or less before 6 *)
Lemma turns : exists T, 1 < T <= 6 /\ hh 1 T <= 0.
Proof.
  destruct (Classical_Prop.classic (exists T, 1 < T <= 6 /\ hh 1 T <= 0)) as [K|K]; [auto|]. exfalso. pose proof PI_RGT_0 as P0. pose proof (q_pos 1 ltac:(lra)) as Q0. rewrite Rmult_1_r in Q0.
  assert (Pos : forall x, 1 <= x <= 6 -> 0 < hh 1 x).
  { intros x Hx. destruct (Req_dec x 1) as [->|N]; [rewrite hh_in by lra; rewrite Rmult_1_r; auto|]. apply Rnot_le_lt. intros Q. apply K. exists x. split; lra. }
  assert (Dec : forall a b, 1 <= a -> a <= b -> b <= 6 -> kk 1 b <= kk 1 a).
  { intros a b Ha Hab Hb. destruct (mvt (kk 1) (fun x => - hh 1 x) a b ltac:(lra) Hab (kk_d 1)) as (c & Hc & Q). pose proof (Pos c ltac:(lra)). assert (0 <= hh 1 c * (b - a)) by (apply Rmult_le_pos; lra). lra. }
  (* k at 3/2 *)
  destruct (mvt (kk 1) (fun x => - hh 1 x) 1 (3/2) ltac:(lra) ltac:(lra) (kk_d 1)) as (c & Hc & Q). rewrite kk_in in Q.
  pose proof (th_low 1 c ltac:(lra) ltac:(lra)) as L.
  assert (B : c * (c - 1)^2 / 1 <= 3/8). { replace (c * (c - 1)^2 / 1) with (c * ((c - 1) * (c - 1))) by field. assert ((c - 1) * (c - 1) <= 1/4) by (assert (0 <= (3/2 - c) * (c - 1 + 1/2)) by (apply Rmult_le_pos; lra); nra). assert (0 <= (c - 1) * (c - 1)) by (apply Rmult_le_pos; lra). nra. }
  assert (L2 : 2 / PI * (5/8) <= c * hh 1 c) by (eapply Rle_trans; [|exact L]; apply Rmult_le_compat_l; lra).
  assert (L3 : 2 / PI * (5/12) <= hh 1 c). { pose proof (Pos c ltac:(lra)). apply Rmult_le_reg_l with (3/2); [lra|]. apply Rle_trans with (c * hh 1 c); [lra|]. apply Rmult_le_compat_r; lra. }
  assert (K1 : kk 1 (3/2) <= - (2 / PI * (5/24))) by lra.
  (* from 3/2 to 6 *)
  destruct (mvt (fun x => x * hh 1 x) (fun x => x * kk 1 x) (3/2) 6 ltac:(lra) ltac:(lra) (th_d 1)) as (e & He & Q2). cbv beta in Q2. pose proof (Dec (3/2) e ltac:(lra) ltac:(lra) ltac:(lra)) as K2.
  destruct (mvt (fun x => x * hh 1 x) (fun x => x * kk 1 x) 1 (3/2) ltac:(lra) ltac:(lra) (th_d 1)) as (e' & He' & Q3). cbv beta in Q3. pose proof (Dec 1 e' ltac:(lra) ltac:(lra) ltac:(lra)) as K3. rewrite kk_in in K3. rewrite hh_in in Q3 by lra.
  replace (PI * 1) with PI in Q3 by ring. pose proof (Pos 6 ltac:(lra)) as F.
  assert (M1 : e' * kk 1 e' <= 0) by (replace 0 with (e' * 0) by ring; apply Rmult_le_compat_l; lra).
  assert (M2 : e * kk 1 e <= 3/2 * - (2 / PI * (5/24))).
  { apply Rle_trans with (e * - (2 / PI * (5/24))); [apply Rmult_le_compat_l; lra|]. assert (0 < 2 / PI * (5/24)) by lra. nra. }
  lra.
Qed.
Definition a_drain (T : R) : drain := mkDrain (1 :: nil) 1 1 T.
Lemma char_hh T s : radial_characteristic J Y (a_drain T) s = hh s (T * s).
Proof. unfold radial_characteristic, un_normalised, hh, a_drain. cbn [d_r0 d_r1]. replace (T / 1 * s) with (T * s) by field. reflexivity. Qed.
(** a drain for which the radial function is positive from 1/20 on to its first zero, at most 1 *)
Lemma radial_zero : exists T z, 1 < T <= 6 /\ 1/20 < z <= 1 /\ radial_characteristic J Y (a_drain T) z = 0 /\
  forall x, 1/20 <= x < z -> 0 < radial_characteristic J Y (a_drain T) x.
Proof.
  destruct turns as (T & HT & Neg). pose proof PI_RGT_0 as P0.
  destruct (first_zero (radial_characteristic J Y (a_drain T)) (1/20) 1) as (z & Z1 & Z2 & Z3).
  - lra.
  - intros x Hx. apply (continuous_ext (fun s => J 1%nat (T * s) * Y 0%nat s - J 0%nat s * Y 1%nat (T * s))); [intros s; rewrite char_hh; reflexivity|].
    assert (0 < x) by lra. assert (0 < T * x) by (apply Rmult_lt_0_compat; lra).
    apply (ex_derive_continuous (V := R_NormedModule)). auto_derive. split; [eexists; apply J1d; auto|]. split; [eexists; apply Y0d; auto|]. split; [eexists; apply J0d; auto|]. split; [eexists; apply Y1d; auto|exact I].
  - rewrite char_hh. pose proof (th_low (1/20) (T * (1/20)) ltac:(lra) ltac:(lra)) as L.
    assert (B : 0 < 1 - T * (1/20) * (T * (1/20) - 1/20)^2 / (1/20)).
    { replace (T * (1/20) * (T * (1/20) - 1/20)^2 / (1/20)) with (T * ((T - 1) * (T - 1)) / 400) by field.
      assert ((T - 1) * (T - 1) <= 25) by (assert (0 <= (6 - T) * (T - 1 + 5)) by (apply Rmult_le_pos; lra); nra). assert (0 <= (T - 1) * (T - 1)) by (apply Rmult_le_pos; lra).
      assert (T * ((T - 1) * (T - 1)) <= 6 * 25) by (apply Rmult_le_compat; lra). lra. }
    assert (0 < 2 / PI * (1 - T * (1/20) * (T * (1/20) - 1/20)^2 / (1/20))) by (apply Rmult_lt_0_compat; [apply Rdiv_lt_0_compat; lra|auto]).
    apply Rmult_lt_reg_l with (T * (1/20)); [lra|]. rewrite Rmult_0_r. lra.
  - rewrite char_hh, Rmult_1_r. auto.
  - exists T, z. auto.
Qed.
End Zero.
