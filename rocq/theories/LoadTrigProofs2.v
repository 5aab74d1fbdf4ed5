(** The rows of Eload_coslinear, Eload_sinlinear and EDload_coslinear as sums over segments. *)
From Coq Require Import Reals List Arith Lia Lra Bool Sorted.
From Coquelicot Require Import Coquelicot.
From Verif Require Import Base PiecewiseModel SpecPiecewise SpecPiecewiseApi PiecewiseProofs PiecewiseProofs2
  LayersProofs SpectralModel SpectralProofs SpectralProofs4 LoadModel LoadTrigGen LoadTrigModel SpecLoad LoadProofs LoadProofs2 LoadTrigProofs.
Import ListNotations.
Open Scope R_scope.
Notation at_ := SpecPiecewise.at_.
Local Opaque Ecos_scalar_const_in Ecos_scalar_const_less Ecos_scalar_ramp_in Ecos_scalar_ramp_less
  Ecos_vectorized_const_in Ecos_vectorized_const_less Ecos_vectorized_ramp_in Ecos_vectorized_ramp_less
  Esin_scalar_const_in Esin_scalar_const_less Esin_scalar_ramp_in Esin_scalar_ramp_less
  Esin_vectorized_const_in Esin_vectorized_const_less Esin_vectorized_ramp_in Esin_vectorized_ramp_less
  EDcos_scalar_const_in EDcos_scalar_const_less EDcos_scalar_ramp_in EDcos_scalar_ramp_less
  EDcos_vectorized_const_in EDcos_vectorized_const_less EDcos_vectorized_ramp_in EDcos_vectorized_ramp_less
  HC HS HCD.

(** H p q: antiderivative for the line p + q z *)
Definition segH (H : R -> R -> R -> R) (x y : list R) (k : nat) (a b : R) : R :=
  let q := (at_ y (S k) - at_ y k) / (at_ x (S k) - at_ x k) in H (at_ y k - q * at_ x k) q b - H (at_ y k - q * at_ x k) q a.

Section Rows.
Variables (x y : list R) (om ph dT lam t : R).
Hypothesis Hl : length x = length y.
Hypothesis Hd : no_doubled_points x y.
Variable H : R -> R -> R -> R.
Let G := segH H x y.
Let c := closed x y om ph dT lam t.
Notation form := (R -> R -> R -> R -> R -> R -> R -> R -> R -> R).

Lemma segH_const k : constb x y k = true -> forall a b, G k a b = H (at_ y k) 0 b - H (at_ y k) 0 a.
Proof.
  unfold constb. rewrite andb_true_iff, negb_true_iff, Reqb_false, Reqb_true. intros (H1 & H2) a b.
  unfold G, segH. rewrite <- H2. replace ((at_ y k - at_ y k) / (at_ x (S k) - at_ x k)) with 0 by (field; lra).
  cbv zeta. rewrite Rmult_0_l, Rminus_0_r. reflexivity.
Qed.
Lemma forms_sum (ci cl ri rl st : form) sets :
  (forall y0 y1 x0 x1, ci y0 y1 x0 x1 om ph dT lam t = H y0 0 t - H y0 0 x0) ->
  (forall y0 y1 x0 x1, cl y0 y1 x0 x1 om ph dT lam t = H y0 0 x1 - H y0 0 x0) ->
  (forall y0 y1 x0 x1, x0 <> x1 -> let q := (y1 - y0) / (x1 - x0) in
     ri y0 y1 x0 x1 om ph dT lam t = H (y0 - q * x0) q t - H (y0 - q * x0) q x0) ->
  (forall y0 y1 x0 x1, x0 <> x1 -> let q := (y1 - y0) / (x1 - x0) in
     rl y0 y1 x0 x1 om ph dT lam t = H (y0 - q * x0) q x1 - H (y0 - q * x0) q x0) ->
  containing_also_less1 x y true false false t = Ok sets ->
  exists v0 v1 v2 v3 v4, let '(rlt, clt, slt, rc, cc) := sets in
    mapM (c st) slt = Ok v0 /\ mapM (c ci) cc = Ok v1 /\ mapM (c cl) clt = Ok v2 /\ mapM (c ri) rc = Ok v3 /\ mapM (c rl) rlt = Ok v4 /\
    sumn v0 = sumn (map (fun k => if stepb x k && lessb x true t k then
                      st (at_ y k) (at_ y (S k)) (at_ x k) (at_ x (S k)) om ph dT lam t else 0) (all_segs x)) /\
    sumn v1 + sumn v2 + sumn v3 + sumn v4 = sumn (map (piece x G t) (all_segs x)).
Proof.
  intros Hci Hcl Hri Hrl Hs. destruct (containing_sets x y t Hl Hd) as (rc & cc & E & Erc & Ecc & Hrc & Hcc).
  assert (sets = (filter (fun k => rampb x y k && lessb x false t k) (all_segs x),
        filter (fun k => constb x y k && lessb x false t k) (all_segs x),
        filter (fun k => stepb x k && lessb x true t k) (all_segs x), rc, cc)) by congruence. subst sets. clear Hs E.
  assert (W : forall f k, In k (all_segs x) -> c f k = Ok (f (at_ y k) (at_ y (S k)) (at_ x k) (at_ x (S k)) om ph dT lam t)).
  { intros f k Hk. unfold c, closed. destruct (with_ok x y k Hl (in_segs _ _ Hk)) as (_ & _ & _ & W). rewrite W. reflexivity. }
  do 5 eexists. split; [|split; [|split; [|split; [|split; [|split]]]]].
  - apply (mapM_map _ (fun k => st (at_ y k) (at_ y (S k)) (at_ x k) (at_ x (S k)) om ph dT lam t)). intros k Hk. apply W. apply filter_In in Hk. tauto.
  - apply (mapM_map _ (fun k => G k (at_ x k) t)). intros k Hk. destruct (Hcc k Hk) as (A & B). rewrite W, Hci, segH_const by auto. auto.
  - apply (mapM_map _ (fun k => G k (at_ x k) (at_ x (S k)))). intros k Hk. apply filter_In in Hk as (A & B). apply andb_true_iff in B as (B & _).
    rewrite W, Hcl, segH_const by auto. auto.
  - apply (mapM_map _ (fun k => G k (at_ x k) t)). intros k Hk. destruct (Hrc k Hk) as (A & B). rewrite W, Hri by eauto using ramp_ne. auto.
  - apply (mapM_map _ (fun k => G k (at_ x k) (at_ x (S k)))). intros k Hk. apply filter_In in Hk as (A & B). apply andb_true_iff in B as (B & _).
    rewrite W, Hrl by eauto using ramp_ne. auto.
  - rewrite sumn_filter. reflexivity.
  - rewrite Erc, Ecc, !sumn_filter. rewrite <- !sumn_map_plus.
    f_equal. apply map_ext. intros k. unfold piece, constb, rampb, stepb.
    destruct (Reqb (at_ x k) (at_ x (S k))), (Reqb (at_ y k) (at_ y (S k))), (lessb x false t k), (inb x t k); cbn [negb andb]; ring.
Qed.
End Rows.

Section Three.
Variables (x y : list R) (om ph dT lam t : R).
Hypothesis Hl : length x = length y.
Hypothesis Hd : no_doubled_points x y.
Hypothesis Hc : dT * lam <> 0.
Notation segs := (all_segs x).
Lemma Eload_cos_entry_eq im sets : containing_also_less1 x y true false false t = Ok sets ->
  Eload_cos_entry im x y om ph dT t sets lam = Ok (sumn (map (piece x (segH (fun p q => HC p q om ph dT lam t) x y) t) segs)).
Proof.
  intros Hs. destruct im.
  1: destruct (forms_sum x y om ph dT lam t Hl Hd (fun p q => HC p q om ph dT lam t) Ecos_scalar_const_in Ecos_scalar_const_less
       Ecos_scalar_ramp_in Ecos_scalar_ramp_less Ecos_scalar_ramp_less sets) as (v0 & v1 & v2 & v3 & v4 & F);
     [intros; cbv beta; apply Ecos_scalar_const_in_eq; auto|intros; apply Ecos_scalar_const_less_eq; auto|cbv zeta; intros; apply Ecos_scalar_ramp_in_eq; auto|cbv zeta; intros; apply Ecos_scalar_ramp_less_eq; auto|auto|].
  2-3: destruct (forms_sum x y om ph dT lam t Hl Hd (fun p q => HC p q om ph dT lam t) Ecos_vectorized_const_in Ecos_vectorized_const_less
       Ecos_vectorized_ramp_in Ecos_vectorized_ramp_less Ecos_vectorized_ramp_less sets) as (v0 & v1 & v2 & v3 & v4 & F);
     [intros; cbv beta; apply Ecos_vectorized_const_in_eq; auto|intros; apply Ecos_vectorized_const_less_eq; auto|cbv zeta; intros; apply Ecos_vectorized_ramp_in_eq; auto|cbv zeta; intros; apply Ecos_vectorized_ramp_less_eq; auto|auto|].
  all: destruct sets as ((((rlt & clt) & slt) & rc) & cc); destruct F as (_ & F1 & F2 & F3 & F4 & _ & F5);
    unfold Eload_cos_entry; rewrite F1, F2, F3, F4; cbn [bind]; rewrite <- F5, !sumn_app; cbn [nadd NumR]; f_equal; ring.
Qed.
Lemma Eload_sin_entry_eq im sets : containing_also_less1 x y true false false t = Ok sets ->
  Eload_sin_entry im x y om ph dT t sets lam = Ok (sumn (map (piece x (segH (fun p q => HS p q om ph dT lam t) x y) t) segs)).
Proof.
  intros Hs. destruct im.
  1: destruct (forms_sum x y om ph dT lam t Hl Hd (fun p q => HS p q om ph dT lam t) Esin_scalar_const_in Esin_scalar_const_less
       Esin_scalar_ramp_in Esin_scalar_ramp_less Esin_scalar_ramp_less sets) as (v0 & v1 & v2 & v3 & v4 & F);
     [intros; cbv beta; apply Esin_scalar_const_in_eq; auto|intros; apply Esin_scalar_const_less_eq; auto|cbv zeta; intros; apply Esin_scalar_ramp_in_eq; auto|cbv zeta; intros; apply Esin_scalar_ramp_less_eq; auto|auto|].
  2-3: destruct (forms_sum x y om ph dT lam t Hl Hd (fun p q => HS p q om ph dT lam t) Esin_vectorized_const_in Esin_vectorized_const_less
       Esin_vectorized_ramp_in Esin_vectorized_ramp_less Esin_vectorized_ramp_less sets) as (v0 & v1 & v2 & v3 & v4 & F);
     [intros; cbv beta; apply Esin_vectorized_const_in_eq; auto|intros; apply Esin_vectorized_const_less_eq; auto|cbv zeta; intros; apply Esin_vectorized_ramp_in_eq; auto|cbv zeta; intros; apply Esin_vectorized_ramp_less_eq; auto|auto|].
  all: destruct sets as ((((rlt & clt) & slt) & rc) & cc); destruct F as (_ & F1 & F2 & F3 & F4 & _ & F5);
    unfold Eload_sin_entry; rewrite F1, F2, F3, F4; cbn [bind]; rewrite <- F5, !sumn_app; cbn [nadd NumR]; f_equal; ring.
Qed.
Definition cjump (k : nat) : R := if stepb x k && lessb x true t k then
  cos (om * at_ x k + ph) * exp (- dT * lam * (t - at_ x k)) * (at_ y (S k) - at_ y k) else 0.
Lemma EDload_cos_entry_eq im sets : containing_also_less1 x y true false false t = Ok sets ->
  EDload_cos_entry im x y om ph dT t sets lam = Ok (sumn (map cjump segs) +
    sumn (map (piece x (segH (fun p q => HCD p q om ph dT lam t) x y) t) segs)).
Proof.
  intros Hs. destruct im.
  1: destruct (forms_sum x y om ph dT lam t Hl Hd (fun p q => HCD p q om ph dT lam t) EDcos_scalar_const_in EDcos_scalar_const_less
       EDcos_scalar_ramp_in EDcos_scalar_ramp_less EDcos_scalar_step sets) as (v0 & v1 & v2 & v3 & v4 & F);
     [intros; cbv beta; apply EDcos_scalar_const_in_eq; auto|intros; apply EDcos_scalar_const_less_eq; auto|cbv zeta; intros; apply EDcos_scalar_ramp_in_eq; auto|cbv zeta; intros; apply EDcos_scalar_ramp_less_eq; auto|auto|].
  2-3: destruct (forms_sum x y om ph dT lam t Hl Hd (fun p q => HCD p q om ph dT lam t) EDcos_vectorized_const_in EDcos_vectorized_const_less
       EDcos_vectorized_ramp_in EDcos_vectorized_ramp_less EDcos_vectorized_step sets) as (v0 & v1 & v2 & v3 & v4 & F);
     [intros; cbv beta; apply EDcos_vectorized_const_in_eq; auto|intros; apply EDcos_vectorized_const_less_eq; auto|cbv zeta; intros; apply EDcos_vectorized_ramp_in_eq; auto|cbv zeta; intros; apply EDcos_vectorized_ramp_less_eq; auto|auto|].
  all: destruct sets as ((((rlt & clt) & slt) & rc) & cc); destruct F as (F0 & F1 & F2 & F3 & F4 & E0 & F5);
    unfold EDload_cos_entry; rewrite F0, F1, F2, F3, F4; cbn [bind]; rewrite <- F5, !sumn_app, E0; cbn [nadd NumR]; f_equal.
  all: match goal with |- ?a + _ = ?b + _ => change b with a end; ring.
Qed.
End Three.
