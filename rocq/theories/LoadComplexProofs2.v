(** The rows of Eload_linear and Eload_sinlinear for complex eigenvalues as sums over segments; integrals. *)
From Coq Require Import Reals List Arith Lia Lra Bool Sorted.
From Coquelicot Require Import Coquelicot.
From Verif Require Import Base PiecewiseModel SpecPiecewise SpecPiecewiseApi PiecewiseProofs PiecewiseProofs2
  LayersProofs SpectralModel SpectralProofs SpectralProofs4 LoadModel BeamModel LoadComplexGen LoadComplexModel SpecLoad LoadProofs LoadProofs2 PropsLoad SpecComplex ComplexCalc LoadComplexProofs.
Import ListNotations.
Local Open Scope R_scope.
Local Notation at_ := SpecPiecewise.at_.
Local Opaque CElin_scalar_const_in CElin_scalar_const_less CElin_scalar_ramp_in CElin_scalar_ramp_less
  CElin_vectorized_const_in CElin_vectorized_const_less CElin_vectorized_ramp_in CElin_vectorized_ramp_less
  CEsin_scalar_const_in CEsin_scalar_const_less CEsin_scalar_ramp_in CEsin_scalar_ramp_less
  CEsin_vectorized_const_in CEsin_vectorized_const_less CEsin_vectorized_ramp_in CEsin_vectorized_ramp_less KS KL.

(** K p q: antiderivative for the line p + q z *)
Definition segK (K : R -> R -> R -> C) (x y : list R) (k : nat) (a b : R) : C :=
  let q := (at_ y (S k) - at_ y k) / (at_ x (S k) - at_ x k) in Cminus (K (at_ y k - q * at_ x k) q b) (K (at_ y k - q * at_ x k) q a).
Lemma sumC_pr (pr : C -> R) : pr (RtoC 0) = 0 -> (forall u v, pr (Cplus u v) = pr u + pr v) -> forall l, pr (sumC l) = sumn (map pr l).
Proof. intros H0 HP l. induction l as [|a l IH]; cbn [sumC fold_right map sumn]; auto. rewrite HP. cbn [nadd NumR]. rewrite <- IH. reflexivity. Qed.

Section Rows.
Variables (x y : list R) (om ph dT t : R) (lam : C).
Hypothesis Hl : length x = length y.
Hypothesis Hd : no_doubled_points x y.
Variable K : R -> R -> R -> C.
Let G := segK K x y.
Let c := closedC x y om ph dT t lam.
Notation form := (R -> R -> R -> R -> R -> R -> R -> R -> C -> C).
Lemma segK_const k : constb x y k = true -> forall a b, G k a b = Cminus (K (at_ y k) 0 b) (K (at_ y k) 0 a).
Proof.
  unfold constb. rewrite andb_true_iff, negb_true_iff, Reqb_false, Reqb_true. intros (H1 & H2) a b.
  unfold G, segK. rewrite <- H2. replace ((at_ y k - at_ y k) / (at_ x (S k) - at_ x k)) with 0 by (field; lra).
  cbv zeta. rewrite Rmult_0_l, Rminus_0_r. reflexivity.
Qed.
Lemma const_ne k : constb x y k = true -> at_ x k <> at_ x (S k).
Proof. unfold constb. rewrite andb_true_iff, negb_true_iff, Reqb_false. tauto. Qed.
Lemma formsC_sum (ci cl ri rl : form) sets :
  (forall y0 y1 x0 x1, x0 <> x1 -> ci y0 y1 x0 x1 om ph dT t lam = Cminus (K y0 0 t) (K y0 0 x0)) ->
  (forall y0 y1 x0 x1, x0 <> x1 -> cl y0 y1 x0 x1 om ph dT t lam = Cminus (K y0 0 x1) (K y0 0 x0)) ->
  (forall y0 y1 x0 x1, x0 <> x1 -> let q := (y1 - y0) / (x1 - x0) in
     ri y0 y1 x0 x1 om ph dT t lam = Cminus (K (y0 - q * x0) q t) (K (y0 - q * x0) q x0)) ->
  (forall y0 y1 x0 x1, x0 <> x1 -> let q := (y1 - y0) / (x1 - x0) in
     rl y0 y1 x0 x1 om ph dT t lam = Cminus (K (y0 - q * x0) q x1) (K (y0 - q * x0) q x0)) ->
  containing_also_less1 x y true false false t = Ok sets ->
  exists v1 v2 v3 v4, let '(rlt, clt, slt, rc, cc) := sets in
    mapM (c ci) cc = Ok v1 /\ mapM (c cl) clt = Ok v2 /\ mapM (c ri) rc = Ok v3 /\ mapM (c rl) rlt = Ok v4 /\
    forall pr : C -> R, pr (RtoC 0) = 0 -> (forall u v, pr (Cplus u v) = pr u + pr v) ->
      pr (sumC (v1 ++ v2 ++ v3 ++ v4)) = sumn (map (piece x (fun k a b => pr (G k a b)) t) (all_segs x)).
Proof.
  intros Hci Hcl Hri Hrl Hs. destruct (containing_sets x y t Hl Hd) as (rc & cc & E & Erc & Ecc & Hrc & Hcc).
  assert (sets = (filter (fun k => rampb x y k && lessb x false t k) (all_segs x),
        filter (fun k => constb x y k && lessb x false t k) (all_segs x),
        filter (fun k => stepb x k && lessb x true t k) (all_segs x), rc, cc)) by congruence. subst sets. clear Hs E.
  assert (W : forall f k, In k (all_segs x) -> c f k = Ok (f (at_ y k) (at_ y (S k)) (at_ x k) (at_ x (S k)) om ph dT t lam)).
  { intros f k Hk. apply in_segs in Hk. unfold c, closedC. rewrite !(get_lt x _ 0), !(get_lt y _ 0) by lia. reflexivity. }
  do 4 eexists. split; [|split; [|split; [|split]]].
  - apply (mapM_map _ (fun k => G k (at_ x k) t)). intros k Hk. destruct (Hcc k Hk) as (A & B). rewrite W, Hci, segK_const by eauto using const_ne. auto.
  - apply (mapM_map _ (fun k => G k (at_ x k) (at_ x (S k)))). intros k Hk. apply filter_In in Hk as (A & B). apply andb_true_iff in B as (B & _).
    rewrite W, Hcl, segK_const by eauto using const_ne. auto.
  - apply (mapM_map _ (fun k => G k (at_ x k) t)). intros k Hk. destruct (Hrc k Hk) as (A & B). rewrite W, Hri by eauto using ramp_ne. auto.
  - apply (mapM_map _ (fun k => G k (at_ x k) (at_ x (S k)))). intros k Hk. apply filter_In in Hk as (A & B). apply andb_true_iff in B as (B & _).
    rewrite W, Hrl by eauto using ramp_ne. auto.
  - intros pr P0 PP. rewrite (sumC_pr pr P0 PP), !map_app, !map_map, !sumn_app.
    rewrite Erc, Ecc, !sumn_filter. rewrite <- !sumn_map_plus.
    f_equal. apply map_ext. intros k. unfold piece, constb, rampb, stepb.
    destruct (Reqb (at_ x k) (at_ x (S k))), (Reqb (at_ y k) (at_ y (S k))), (lessb x false t k), (inb x t k); cbn [negb andb]; ring.
Qed.
End Rows.

Definition pieces_are (x y : list R) (K : R -> R -> R -> C) (t : R) (v : C) : Prop :=
  forall pr : C -> R, pr (RtoC 0) = 0 -> (forall u v, pr (Cplus u v) = pr u + pr v) ->
    pr v = sumn (map (piece x (fun k a b => pr (segK K x y k a b)) t) (all_segs x)).
Section Two.
Variables (x y : list R) (om ph dT t : R) (lam : C).
Hypothesis Hl : length x = length y.
Hypothesis Hd : no_doubled_points x y.
Hypothesis Hc : Cmult (RtoC dT) lam <> RtoC 0.
Lemma CElin_entry_eq im sets : containing_also_less1 x y true false false t = Ok sets ->
  exists v, CElin_entry im x y dT t sets lam = Ok v /\ pieces_are x y (fun p q => KL p q dT lam t) t v.
Proof.
  intros Hs. destruct im.
  1: destruct (formsC_sum x y 0 0 dT t lam Hl Hd (fun p q => KL p q dT lam t) CElin_scalar_const_in CElin_scalar_const_less
       CElin_scalar_ramp_in CElin_scalar_ramp_less sets) as (v1 & v2 & v3 & v4 & F);
     [intros; cbv beta; apply CElin_scalar_const_in_eq; auto|intros; apply CElin_scalar_const_less_eq; auto|cbv zeta; intros; apply CElin_scalar_ramp_in_eq; auto|cbv zeta; intros; apply CElin_scalar_ramp_less_eq; auto|auto|].
  2-3: destruct (formsC_sum x y 0 0 dT t lam Hl Hd (fun p q => KL p q dT lam t) CElin_vectorized_const_in CElin_vectorized_const_less
       CElin_vectorized_ramp_in CElin_vectorized_ramp_less sets) as (v1 & v2 & v3 & v4 & F);
     [intros; cbv beta; apply CElin_vectorized_const_in_eq; auto|intros; apply CElin_vectorized_const_less_eq; auto|cbv zeta; intros; apply CElin_vectorized_ramp_in_eq; auto|cbv zeta; intros; apply CElin_vectorized_ramp_less_eq; auto|auto|].
  all: destruct sets as ((((rlt & clt) & slt) & rc) & cc); destruct F as (F1 & F2 & F3 & F4 & F5);
    unfold CElin_entry; rewrite F1, F2, F3, F4; cbn [bind]; eexists; split; [reflexivity|exact F5].
Qed.
Hypothesis HD : Cplus (Cmult (Cmult (RtoC dT) lam) (Cmult (RtoC dT) lam)) (RtoC (om * om)) <> RtoC 0.
Lemma CEsin_entry_eq im sets : containing_also_less1 x y true false false t = Ok sets ->
  exists v, CEsin_entry im x y om ph dT t sets lam = Ok v /\ pieces_are x y (fun p q => KS p q om ph dT lam t) t v.
Proof.
  intros Hs. destruct im.
  1: destruct (formsC_sum x y om ph dT t lam Hl Hd (fun p q => KS p q om ph dT lam t) CEsin_scalar_const_in CEsin_scalar_const_less
       CEsin_scalar_ramp_in CEsin_scalar_ramp_less sets) as (v1 & v2 & v3 & v4 & F);
     [intros; cbv beta; apply CEsin_scalar_const_in_eq; auto|intros; apply CEsin_scalar_const_less_eq; auto|cbv zeta; intros; apply CEsin_scalar_ramp_in_eq; auto|cbv zeta; intros; apply CEsin_scalar_ramp_less_eq; auto|auto|].
  2-3: destruct (formsC_sum x y om ph dT t lam Hl Hd (fun p q => KS p q om ph dT lam t) CEsin_vectorized_const_in CEsin_vectorized_const_less
       CEsin_vectorized_ramp_in CEsin_vectorized_ramp_less sets) as (v1 & v2 & v3 & v4 & F);
     [intros; cbv beta; apply CEsin_vectorized_const_in_eq; auto|intros; apply CEsin_vectorized_const_less_eq; auto|cbv zeta; intros; apply CEsin_vectorized_ramp_in_eq; auto|cbv zeta; intros; apply CEsin_vectorized_ramp_less_eq; auto|auto|].
  all: destruct sets as ((((rlt & clt) & slt) & rc) & cc); destruct F as (F1 & F2 & F3 & F4 & F5);
    unfold CEsin_entry; rewrite F1, F2, F3, F4; cbn [bind]; eexists; split; [reflexivity|exact F5].
Qed.
End Two.

Lemma CInt_ext f g a b v : (forall s, Rmin a b < s < Rmax a b -> f s = g s) -> is_CInt f a b v -> is_CInt g a b v.
Proof. intros H [A B]. split; [eapply is_RInt_ext; [|exact A]|eapply is_RInt_ext; [|exact B]]; intros s Hs; cbv beta; rewrite (H s Hs); reflexivity. Qed.
Lemma pieces_CInt x y (K : R -> R -> R -> C) (f : R -> C) t v : nondecr x -> (1 <= length x)%nat ->
  (forall k a b, (S k < length x)%nat -> at_ x k < at_ x (S k) -> at_ x k <= a -> a <= b -> b <= at_ x (S k) -> is_CInt f a b (segK K x y k a b)) ->
  pieces_are x y K t v -> is_CInt f (at_ x 0) (until x t) v.
Proof.
  intros Hn Hl HK Hp. split.
  - rewrite (Hp fst) by (auto; reflexivity). rewrite <- clip_until. apply (pieces_RInt x Hn Hl (fun s => fst (f s)) (fun k a b => fst (segK K x y k a b)) t); [|lia]. intros; apply HK; auto.
  - rewrite (Hp snd) by (auto; reflexivity). rewrite <- clip_until. apply (pieces_RInt x Hn Hl (fun s => snd (f s)) (fun k a b => snd (segK K x y k a b)) t); [|lia]. intros; apply HK; auto.
Qed.
Definition Centry (A : list (list C)) (i j : nat) : C := nth j (nth i A []) (RtoC 0).
Lemma rowsC_spec {T} {P : R -> C -> C -> Prop} (sets : R -> result T) (ent : R -> T -> C -> result C) (eigs : list C) (tvals : list R) :
  (forall t, In t tvals -> exists s, sets t = Ok s /\ forall lam, In lam eigs -> exists v, ent t s lam = Ok v /\ P t lam v) ->
  exists A, mapM (fun t => s <- sets t ;; mapM (ent t s) eigs) tvals = Ok A /\ length A = length tvals /\
    (forall i j, (i < length tvals)%nat -> (j < length eigs)%nat -> P (nth i tvals 0) (nth j eigs (RtoC 0)) (Centry A i j)).
Proof.
  intros H. induction tvals as [|t tv IH].
  - exists []. cbn. repeat split; auto. intros; lia.
  - destruct IH as (A & E & L & HA); [intros; apply H; right; auto|].
    destruct (H t (or_introl eq_refl)) as (s & Es & Hs).
    assert (RR : exists row, mapM (ent t s) eigs = Ok row /\ forall j, (j < length eigs)%nat -> P t (nth j eigs (RtoC 0)) (nth j row (RtoC 0))).
    { clear - Hs. induction eigs as [|lam eg IH].
      - exists []. cbn. split; auto. intros; lia.
      - destruct IH as (row & E & Hrow); [intros; apply Hs; right; auto|].
        destruct (Hs lam (or_introl eq_refl)) as (v & Ev & Pv). exists (v :: row). cbn [mapM]. rewrite Ev. cbn [bind]. rewrite E. split; auto.
        intros [|j] Hj; cbn [nth]; auto. apply Hrow. cbn in Hj. lia. }
    destruct RR as (row & Er & Hrow). exists (row :: A). cbn [mapM]. rewrite Es. cbn [bind]. rewrite Er. cbn [bind]. rewrite E.
    split; [reflexivity|]. split; [cbn; auto|]. intros [|i] j Hi Hj; unfold Centry; cbn [nth]; [apply Hrow; auto|]. apply HA; auto. cbn in Hi. lia.
Qed.
