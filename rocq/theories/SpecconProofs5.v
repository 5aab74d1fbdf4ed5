(** * The source terms of the spectral program *)
From Coq Require Import Reals List Arith ZArith Lia Lra Bool Sorted.
From Coquelicot Require Import Coquelicot.
From Verif Require Import Base PiecewiseModel LayersModel SpecPiecewise SpecPiecewiseApi PiecewiseProofs PiecewiseProofs2 PiecewiseProofs4 LayersProofs PropsLayers
  PolyLineModel SpecPolyLine SpecSuper PolyLineProofs2 PolyLineProofs3 PolyLineProofs4 PolyLineProofs5 PolyLineProofs6 PolyLineProofs7
  SpectralModel SpecSpectral PropsSpectral WrapModel SpecWrap WrapProofs PropsWrap LoadModel LoadTrigModel LoadProofs2 SpecLoad TimeProofs TimeProofs2 PropsTime
  SpecSpeccon SpecconModel SpecconProofs SpecconProofs2 SpecconProofs4.
Import ListNotations.
Open Scope R_scope.
Local Notation at_ := SpecPiecewise.at_.
Local Notation entry := SpecSpectral.entry.
Local Notation RI f := (RInt f 0 1).

Lemma RI_of (f : R -> R) I : is_RInt f 0 1 I -> is_RInt f 0 1 (RI f) /\ I = RI f.
Proof. intros H. rewrite (is_RInt_unique _ _ _ _ H). auto. Qed.
Lemma ab_len im m a b v : pdim1sin_ab_linear im m a b = Ok v -> length v = length m.
Proof.
  unfold pdim1sin_ab_linear. destruct (common2 a b) as [[? ?]|]; cbn [bind]; [|discriminate]. destruct (slabs2 _ _); cbn [bind]; [|discriminate].
  intros H. injection H as <-. destruct im; unfold dim1sin_ab_linear, vector_of; rewrite map_length; reflexivity.
Qed.
Lemma abc_len im m a b c v : pdim1sin_abc_linear im m a b c = Ok v -> length v = length m.
Proof.
  unfold pdim1sin_abc_linear. destruct (common3 a b c) as [[[? ?] ?]|]; cbn [bind]; [|discriminate]. destruct (slabs3 _ _ _); cbn [bind]; [|discriminate].
  intros H. injection H as <-. destruct im; unfold dim1sin_abc_linear, vector_of; rewrite map_length; reflexivity.
Qed.

(** ** Shapes of the boundary terms *)
Lemma last_layer z0 z1 a f : depth_profile z0 z1 a f -> exists l, get_last (layers a) = Ok l /\ lx2 l = z1.
Proof.
  intros P. destruct (profile_ends _ _ _ _ P) as (I0 & I1 & Hlt). pose proof (profile_range z0 z1 a f) as Rg.
  pose proof P as (Ra & _). destruct (layers_grid a Ra) as (G & SG & H1 & H2 & HG).
  assert (L2 : (2 <= length G)%nat).
  { apply HG in I0, I1. destruct G as [|x [|y G]]; [contradiction| |cbn; lia]. destruct I0 as [<-|[]], I1 as [<-|[]]. lra. }
  assert (LL : length (layers a) = (length G - 1)%nat) by (rewrite <- (map_length lx2), H2; destruct G; cbn; lia).
  destruct (exists_last (l := layers a)) as (Q & y & E); [destruct (layers a); [cbn in LL; lia|discriminate]|].
  exists y. split; [unfold get_last; rewrite E, rev_app_distr; reflexivity|].
  assert (X : last (map lx2 (layers a)) 0 = lx2 y) by (rewrite E, map_app; cbn; apply last_last).
  rewrite <- X, H2. apply Rle_antisym.
  - apply (Rg _ P). apply HG. destruct G as [|x [|y' G]]; [cbn in L2; lia|cbn in L2; lia|]. cbn [tl]. right.
    destruct (exists_last (l := y' :: G)) as (Q' & w & E'); [discriminate|]. rewrite E', last_last. apply in_or_app. right; left; auto.
  - destruct G as [|x [|y' G]]; [cbn in L2; lia|cbn in L2; lia|]. cbn [tl]. change (last (y' :: G) 0) with (last (x :: y' :: G) 0). apply last_max; auto. apply HG; auto.
Qed.
Lemma zdist_ok drn a f : depth_profile 0 1 a f -> exists c, zdist drn a = Ok c /\ depth_profile 0 1 c (top_shape drn) /\ forall x, In x (px c) <-> In x (px a).
Proof.
  intros P. unfold zdist, top_shape. destruct (Z.eqb drn 1).
  - apply (over_layers_ok 0 1 a f (fun _ => 1) 1 0 P). intros; ring.
  - destruct (last_layer _ _ _ _ P) as (l & E & El). rewrite E. cbn [bind]. rewrite El. apply (over_layers_ok 0 1 a f (fun x => 1 - x) 1 (-1) P). intros; ring.
Qed.
Lemma zbot_ok a f : depth_profile 0 1 a f -> exists c, zbot a = Ok c /\ depth_profile 0 1 c (fun x => x) /\ forall x, In x (px c) <-> In x (px a).
Proof. intros P. apply (over_layers_ok 0 1 a f (fun x => x) 0 1 P). intros; ring. Qed.
Lemma sep_from ls ls' : well_separated ls -> (forall p x, In p ls' -> In x (px p) -> exists q, In q ls /\ In x (px q)) -> well_separated ls'.
Proof.
  intros W H. eapply separated_sub; [exact W|]. intros x Hx. apply in_concat in Hx. destruct Hx as (l & Hl & Hx). apply in_map_iff in Hl. destruct Hl as (p & <- & Hp).
  destruct (H p x Hp Hx) as (q & Hq & Hx'). apply in_concat. exists (px q). split; auto. apply in_map; auto.
Qed.

Section Sources.
Variables (n : nat) (dT T0 : R) (ok : R -> Prop) (eigs : list R) (Igamv : list (list R)) (m : list R).
Hypothesis HIg : length Igamv = n.
Hypothesis Heig : length eigs = n.
Hypothesis Hnz : forall lam, In lam eigs -> dT * lam <> 0.
Hypothesis Hm : length m = n.
Hypothesis Nm : forall x, In x m -> x <> 0.
Let phi (k : nat) (z : R) := sin (nth k m 0 * z).
Let dphi (k : nat) (z : R) := nth k m 0 * cos (nth k m 0 * z).

Lemma theta_ab a b f g : depth_profile 0 1 a f -> depth_profile 0 1 b g -> well_separated [a; b] ->
  exists v, pdim1sin_ab_linear vectorized m a b = Ok v /\ length v = n /\
    forall k, (k < n)%nat -> ex_RInt (fun z => f z * g z * phi k z) 0 1 /\ item v k = RI (fun z => f z * g z * phi k z).
Proof using Hm Nm. clear Hnz Heig HIg.
  intros Pa Pb W. destruct (C97_ab vectorized m 0 1 a b f g Pa Pb W Nm) as (v & E & H). exists v. split; auto. split; [rewrite <- Hm; eapply ab_len; eauto|].
  intros k Hk. rewrite <- Hm in Hk. specialize (H k Hk). split; [exists (coord v k); exact H|]. apply RI_of. exact H.
Qed.
Lemma theta_abc a b c f g h : depth_profile 0 1 a f -> depth_profile 0 1 b g -> depth_profile 0 1 c h -> well_separated [a; b; c] ->
  exists v, pdim1sin_abc_linear vectorized m a b c = Ok v /\ length v = n /\
    forall k, (k < n)%nat -> ex_RInt (fun z => f z * g z * h z * phi k z) 0 1 /\ item v k = RI (fun z => f z * g z * h z * phi k z).
Proof using Hm Nm. clear Hnz Heig HIg.
  intros Pa Pb Pc W. destruct (C97_abc vectorized m 0 1 a b c f g h Pa Pb Pc W Nm) as (v & E & H). exists v. split; auto. split; [rewrite <- Hm; eapply abc_len; eauto|].
  intros k Hk. rewrite <- Hm in Hk. specialize (H k Hk). split; [exists (coord v k); exact H|]. apply RI_of. exact H.
Qed.
Lemma theta_D a b f g beta gamma : depth_profile 0 1 a f -> depth_profile 0 1 b g -> well_separated [a; b] ->
  (forall z, g z = beta * z + gamma) ->
  exists v, pdim1sin_D_aDb_linear vectorized m a b = Ok v /\ length v = n /\
    forall k, (k < n)%nat -> ex_RInt (fun z => f z * beta * dphi k z) 0 1 /\
      item v k = beta * vleft a 1 * phi k 1 - RI (fun z => f z * beta * dphi k z).
Proof using Hm Nm. clear Hnz Heig HIg.
  intros Pa Pb W Hg. destruct (C97_D_aDb vectorized m 0 1 a b f g beta gamma Pa Pb W (fun z _ => Hg z) Nm) as (v & E & L & H).
  exists v. split; auto. split; [lia|]. intros k Hk. rewrite <- Hm in Hk. destruct (H k Hk) as (I & HI & E'). split; [exists I; exact HI|].
  change (item v k) with (coord v k). rewrite E'. rewrite Rmult_0_r, sin_0. unfold dphi, phi. rewrite (is_RInt_unique _ _ _ _ HI). ring.
Qed.

Section Loops.
Variable Ef : list R -> points -> option (R * R) -> result (list (list R)).
Local Notation drives' := (drives n dT T0 ok eigs Ef).
Local Notation contributes' := (contributes n dT T0 ok eigs Igamv).
Definition depth_drives (q : points * points * option (R * R)) (x : (R -> R) * (R -> R)) : Prop :=
  drives' (fst (fst q)) (snd q) (fst x) /\ depth_profile 0 1 (snd (fst q)) (snd x).
Lemma aDmag_contributes f l X : List.Forall2 depth_drives l X -> forall a, depth_profile 0 1 a f -> well_separated (a :: map (fun q => snd (fst q)) l) ->
  (forall x k, In x X -> (k < n)%nat -> ex_RInt (fun z => f z * snd x z * phi k z) 0 1) /\
  contributes' (fun tvals acc => aDmag_loop n (length tvals) (Ef tvals) m Igamv a l acc)
    (fun k t => fold_right Rplus 0 (map (fun x => RI (fun z => f z * snd x z * phi k z) * fst x t) X)).
Proof using HIg Hm Nm. clear Heig Hnz.
  intros F. induction F as [|[[mt mz] om] [tau g] l X H F IH]; intros a Pa W.
  - split; [intros x k []|]. apply contributes_nothing.
  - destruct H as (Hd & Pz). cbn [fst snd] in Hd, Pz. cbn [map fst snd] in W.
    destruct (slabs2_ok 0 1 a mz f g Pa Pz) as (a' & z' & S' & E1 & _ & _ & _ & _ & _ & Pa' & Pz' & Ia & Iz & _).
    { eapply sep_from; [exact W|]. intros p x [<-|[<-|[]]] Hx; [exists a|exists mz]; cbn; auto. }
    assert (Wa : forall p x, In p [a'; z'] -> In x (px p) -> exists q, In q (a :: mz :: map (fun q => snd (fst q)) l) /\ In x (px q)).
    { intros p x Hp Hx. assert (In x (px a ++ px mz)) by (destruct Hp as [<-|[<-|[]]]; [apply Ia|apply Iz]; auto).
      apply in_app_or in H. destruct H; [exists a|exists mz]; cbn; auto. }
    destruct (theta_ab a' z' f g Pa' Pz') as (v & Ev & Lv & Hv); [eapply sep_from; [exact W|]; exact Wa|].
    destruct (IH a' Pa') as (I1 & I2).
    { eapply sep_from; [exact W|]. intros p x [<-|Hp] Hx; [apply (Wa a' x); cbn; auto|]. exists p. cbn; auto. }
    split.
    + intros x k [<-|Hx] Hk; [apply Hv; auto|apply I1; auto].
    + eapply contributes_ext; [apply (contributes_seq _ _ _ _ _ _ _ _ _ _ (term_contributes n dT T0 ok eigs Igamv HIg Ef mt om tau v Hd Lv) I2)| |].
      * intros tvals acc. cbn [aDmag_loop]. rewrite E1. cbn [bind]. rewrite Ev. cbn [bind]. destruct (Ef tvals mt om); reflexivity.
      * intros k t Hk _ _. cbn [map fold_right fst snd]. f_equal. destruct (Hv k Hk) as (_ & ->). reflexivity.
Qed.
Lemma abmag_contributes f g l X : List.Forall2 depth_drives l X -> forall a b, depth_profile 0 1 a f -> depth_profile 0 1 b g -> well_separated (a :: b :: map (fun q => snd (fst q)) l) ->
  (forall x k, In x X -> (k < n)%nat -> ex_RInt (fun z => f z * g z * snd x z * phi k z) 0 1) /\
  contributes' (fun tvals acc => abmag_loop n (length tvals) (Ef tvals) m Igamv a b l acc)
    (fun k t => fold_right Rplus 0 (map (fun x => RI (fun z => f z * g z * snd x z * phi k z) * fst x t) X)).
Proof using HIg Hm Nm. clear Heig Hnz.
  intros F. induction F as [|[[mt mz] om] [tau h] l X H F IH]; intros a b Pa Pb W.
  - split; [intros x k []|]. apply contributes_nothing.
  - destruct H as (Hd & Pz). cbn [fst snd] in Hd, Pz. cbn [map fst snd] in W.
    destruct (slabs3_ok 0 1 a b mz f g h Pa Pb Pz) as (a' & b' & z' & S' & E1 & _ & _ & _ & _ & _ & _ & Pa' & Pb' & Pz' & Ia).
    { eapply sep_from; [exact W|]. intros p x [<-|[<-|[<-|[]]]] Hx; [exists a|exists b|exists mz]; cbn; auto. }
    assert (Wa : forall p x, In p [a'; b'; z'] -> In x (px p) -> exists q, In q (a :: b :: mz :: map (fun q => snd (fst q)) l) /\ In x (px q)).
    { intros p x Hp Hx. apply (Ia p x Hp) in Hx. rewrite !in_app_iff in Hx. destruct Hx as [Hx|[Hx|Hx]]; [exists a|exists b|exists mz]; cbn; auto. }
    destruct (theta_abc a' b' z' f g h Pa' Pb' Pz') as (v & Ev & Lv & Hv); [eapply sep_from; [exact W|]; exact Wa|].
    destruct (IH a' b' Pa' Pb') as (I1 & I2).
    { eapply sep_from; [exact W|]. intros p x [<-|[<-|Hp]] Hx; [apply (Wa a' x); cbn; auto|apply (Wa b' x); cbn; auto|]. exists p. cbn; auto. }
    split.
    + intros x k [<-|Hx] Hk; [apply Hv; auto|apply I1; auto].
    + eapply contributes_ext; [apply (contributes_seq _ _ _ _ _ _ _ _ _ _ (term_contributes n dT T0 ok eigs Igamv HIg Ef mt om tau v Hd Lv) I2)| |].
      * intros tvals acc. cbn [abmag_loop]. rewrite E1. cbn [bind]. rewrite Ev. cbn [bind]. destruct (Ef tvals mt om); reflexivity.
      * intros k t Hk _ _. cbn [map fold_right fst snd]. f_equal. destruct (Hv k Hk) as (_ & ->). reflexivity.
Qed.
End Loops.

(** ** Boundary terms *)
Section Boundary.
Variables (im : impl) (drn : Z) (top bot : option (list points)) (tom bom : om_arg) (Ts Bs : list (R -> R)).
Local Notation contributes' := (contributes n dT T0 ok eigs Igamv).
Hypothesis HT : are_loads T0 (listed top) tom Ts.
Hypothesis HB : are_loads T0 (listed bot) bom Bs.
Hypothesis OT : forall t, ok t -> before_ends (listed top) t.
Hypothesis OB : forall t, ok t -> before_ends (listed bot) t.
Definition integrals (Fs : list (R -> R)) : list (R -> R) := map (fun F t => RInt F T0 t) Fs.
Definition changes (l : list points) (o : om_arg) (Fs : list (R -> R)) : list (R -> R) :=
  map (fun q t => snd q t - initial (fst (fst q)) (snd (fst q))) (combine (combine l (modulations (length l) o)) Fs).
Lemma loads_E o om Fs : are_loads T0 (listed o) om Fs -> (forall t, ok t -> before_ends (listed o) t) ->
  drive_all n dT T0 ok eigs (fun tvals => load_E im eigs tvals dT) o om (integrals Fs).
Proof using HIg Heig Hnz. clear HT HB OT OB.
  intros (L & F) Ho. unfold drive_all. change om_list with modulations. unfold integrals.
  assert (B : forall q, In q (combine (listed o) (modulations (length (listed o)) om)) -> forall t, ok t -> before_end (fst q) t).
  { intros [p x] Hq t Ht. apply in_combine_l in Hq. apply (Ho t Ht p Hq). }
  induction F as [|q F' l Fs H F IH]; cbn [map]; constructor.
  - apply (drives_E n dT T0 ok eigs Igamv HIg Heig Hnz im); auto. apply B. left; auto.
  - apply IH; intros; apply B; auto. right; auto.
Qed.
Lemma loads_ED o om Fs : are_loads T0 (listed o) om Fs -> (forall t, ok t -> before_ends (listed o) t) ->
  drive_all n dT T0 ok eigs (fun tvals => load_ED im eigs tvals dT) o om (changes (listed o) om Fs).
Proof using HIg Heig Hnz. clear HT HB OT OB.
  intros (L & F) Ho. unfold drive_all. change om_list with modulations. unfold changes.
  assert (B : forall q, In q (combine (listed o) (modulations (length (listed o)) om)) -> forall t, ok t -> before_end (fst q) t).
  { intros [p x] Hq t Ht. apply in_combine_l in Hq. apply (Ho t Ht p Hq). }
  induction F as [|q F' l Fs H F IH]; cbn [map combine]; constructor.
  - cbn [fst snd]. apply (drives_ED n dT T0 ok eigs Igamv HIg Heig Hnz im); auto. apply B. left; auto.
  - apply IH; intros; apply B; auto. right; auto.
Qed.
Let phiT := top_shape drn.
Let slopeT : R := if Z.eqb drn 1 then 0 else -1.
Lemma BC_aDfDt_contributes d a f : depth_profile 0 1 a f -> well_separated [a] ->
  (forall k, (k < n)%nat -> ex_RInt (fun z => f z * phiT z * phi k z) 0 1 /\ ex_RInt (fun z => f z * z * phi k z) 0 1) /\
  contributes' (fun tvals acc => add_part n (length tvals) d (BC_aDfDt drn m eigs tvals Igamv a top bot tom bom dT im) acc)
   (fun k t => d * (RI (fun z => f z * phiT z * phi k z) * total (changes (listed top) tom Ts) t + RI (fun z => f z * z * phi k z) * total (changes (listed bot) bom Bs) t)).
Proof using HIg Heig Hnz Hm Nm HT HB OT OB.
  intros Pa W. destruct (zdist_ok drn a f Pa) as (zd & Ed & Pd & Id). destruct (zbot_ok a f Pa) as (zb & Eb & Pb & Ib).
  destruct (theta_ab a zd f (top_shape drn) Pa Pd) as (v & Ev & Lv & Hv); [eapply sep_from; [exact W|]; intros p x [<-|[<-|[]]] Hx; exists a; cbn; rewrite ?Id in Hx; auto|].
  destruct (theta_ab a zb f (fun z => z) Pa Pb) as (w & Ew & Lw & Hw); [eapply sep_from; [exact W|]; intros p x [<-|[<-|[]]] Hx; exists a; cbn; rewrite ?Ib in Hx; auto|].
  split; [intros k Hk; split; [apply Hv; auto|apply Hw; auto]|].
  eapply contributes_ext; [apply (bc_contributes n dT T0 ok eigs Igamv HIg (fun tvals => load_ED im eigs tvals dT) d
     (fun _ => pdim1sin_ab_linear vectorized m a zd) (fun _ => zb <- zbot a ;; pdim1sin_ab_linear vectorized m a zb) top bot tom bom _ _ v w (loads_ED top tom Ts HT OT) (loads_ED bot bom Bs HB OB)); auto; rewrite ?Eb; auto| |].
  - intros tvals acc. unfold BC_aDfDt. rewrite Ed. cbn [bind]. rewrite Hm. reflexivity.
  - intros k t Hk _ _. destruct (Hv k Hk) as (_ & ->). destruct (Hw k Hk) as (_ & ->). reflexivity.
Qed.
Lemma BC_abf_contributes d a b f g : depth_profile 0 1 a f -> depth_profile 0 1 b g -> well_separated [a; b] ->
  (forall k, (k < n)%nat -> ex_RInt (fun z => f z * g z * phiT z * phi k z) 0 1 /\ ex_RInt (fun z => f z * g z * z * phi k z) 0 1) /\
  contributes' (fun tvals acc => add_part n (length tvals) d (BC_abf drn m eigs tvals Igamv a b top bot tom bom dT im) acc)
   (fun k t => d * (RI (fun z => f z * g z * phiT z * phi k z) * total (integrals Ts) t + RI (fun z => f z * g z * z * phi k z) * total (integrals Bs) t)).
Proof using HIg Heig Hnz Hm Nm HT HB OT OB.
  intros Pa Pb W. destruct (slabs2_ok 0 1 a b f g Pa Pb W) as (a' & b' & S' & E1 & _ & _ & _ & _ & _ & Pa' & Pb' & Ia & Ib & _).
  assert (Wa : forall p x, In p [a'; b'] -> In x (px p) -> exists q, In q [a; b] /\ In x (px q)).
  { intros p x Hp Hx. assert (In x (px a ++ px b)) by (destruct Hp as [<-|[<-|[]]]; [apply Ia|apply Ib]; auto).
    apply in_app_or in H. destruct H; [exists a|exists b]; cbn; auto. }
  destruct (zdist_ok drn a' f Pa') as (zd & Ed & Pd & Id). destruct (zbot_ok a' f Pa') as (zb & Eb & Pz & Iz).
  destruct (theta_abc a' b' zd f g (top_shape drn) Pa' Pb' Pd) as (v & Ev & Lv & Hv).
  { eapply sep_from; [exact W|]. intros p x [<-|[<-|[<-|[]]]] Hx; [apply (Wa a')|apply (Wa b')|apply (Wa a'); [|apply Id]]; cbn; auto. }
  destruct (theta_abc a' b' zb f g (fun z => z) Pa' Pb' Pz) as (w & Ew & Lw & Hw).
  { eapply sep_from; [exact W|]. intros p x [<-|[<-|[<-|[]]]] Hx; [apply (Wa a')|apply (Wa b')|apply (Wa a'); [|apply Iz]]; cbn; auto. }
  split; [intros k Hk; split; [apply Hv; auto|apply Hw; auto]|].
  eapply contributes_ext; [apply (bc_contributes n dT T0 ok eigs Igamv HIg (fun tvals => load_E im eigs tvals dT) d
     (fun _ => pdim1sin_abc_linear vectorized m a' b' zd) (fun _ => zb <- zbot a' ;; pdim1sin_abc_linear vectorized m a' b' zb) top bot tom bom _ _ v w (loads_E top tom Ts HT OT) (loads_E bot bom Bs HB OB)); auto; rewrite ?Eb; auto| |].
  - intros tvals acc. unfold BC_abf. rewrite E1. cbn [bind]. rewrite Ed. cbn [bind]. rewrite Hm. reflexivity.
  - intros k t Hk _ _. destruct (Hv k Hk) as (_ & ->). destruct (Hw k Hk) as (_ & ->). reflexivity.
Qed.
Lemma BC_D_contributes d a f : depth_profile 0 1 a f -> well_separated [a] ->
  (forall k, (k < n)%nat -> ex_RInt (fun z => f z * slopeT * dphi k z) 0 1 /\ ex_RInt (fun z => f z * 1 * dphi k z) 0 1) /\
  contributes' (fun tvals acc => add_part n (length tvals) d (BC_D_aDf drn m eigs tvals Igamv a top bot tom bom dT im) acc)
   (fun k t => d * ((slopeT * vleft a 1 * phi k 1 - RI (fun z => f z * slopeT * dphi k z)) * total (integrals Ts) t +
                    (1 * vleft a 1 * phi k 1 - RI (fun z => f z * 1 * dphi k z)) * total (integrals Bs) t)).
Proof using HIg Heig Hnz Hm Nm HT HB OT OB.
  intros Pa W. destruct (zdist_ok drn a f Pa) as (zd & Ed & Pd & Id). destruct (zbot_ok a f Pa) as (zb & Eb & Pb & Ib).
  destruct (theta_D a zd f (top_shape drn) slopeT 1 Pa Pd) as (v & Ev & Lv & Hv); [eapply sep_from; [exact W|]; intros p x [<-|[<-|[]]] Hx; exists a; cbn; rewrite ?Id in Hx; auto| |].
  { intros z. unfold top_shape, slopeT. destruct (Z.eqb drn 1); ring. }
  destruct (theta_D a zb f (fun z => z) 1 0 Pa Pb) as (w & Ew & Lw & Hw); [eapply sep_from; [exact W|]; intros p x [<-|[<-|[]]] Hx; exists a; cbn; rewrite ?Ib in Hx; auto|intros; ring|].
  split; [intros k Hk; split; [apply Hv; auto|apply Hw; auto]|].
  eapply contributes_ext; [apply (bc_contributes n dT T0 ok eigs Igamv HIg (fun tvals => load_E im eigs tvals dT) d
     (fun _ => pdim1sin_D_aDb_linear vectorized m a zd) (fun _ => zb <- zbot a ;; pdim1sin_D_aDb_linear vectorized m a zb) top bot tom bom _ _ v w (loads_E top tom Ts HT OT) (loads_E bot bom Bs HB OB)); auto; rewrite ?Eb; auto| |].
  - intros tvals acc. unfold BC_D_aDf. rewrite Ed. cbn [bind]. rewrite Hm. reflexivity.
  - intros k t Hk _ _. destruct (Hv k Hk) as (_ & ->). destruct (Hw k Hk) as (_ & ->). reflexivity.
Qed.
Lemma BC_delta_contributes d (pts : list (R * R)) : drn = 0%Z \/ drn = 1%Z ->
  contributes' (fun tvals acc => add_part n (length tvals) d (BC_deltaf drn m eigs tvals Igamv (map fst pts) (map snd pts) top bot tom bom dT im) acc)
   (fun k t => d * (fold_right Rplus 0 (map (fun p => snd p * phi k (fst p) * phiT (fst p)) pts) * total (integrals Ts) t +
                    fold_right Rplus 0 (map (fun p => snd p * phi k (fst p) * fst p) pts) * total (integrals Bs) t)).
Proof using HIg Heig Hnz Hm HT HB OT OB.
  intros Hdrn.
  assert (C : forall g : R -> R, combine (combine (map fst pts) (map g (map fst pts))) (map snd pts) = map (fun p => (fst p, g (fst p), snd p)) pts).
  { clear. intros g. induction pts as [|[a b] l IH]; auto. cbn. rewrite IH. reflexivity. }
  assert (Lth : forall g th, In th (delta_thetas m (map (fun p : R * R => (fst p, g (fst p), snd p)) pts)) -> length th = n).
  { intros g th Hth. unfold delta_thetas in Hth. rewrite map_map in Hth. apply in_map_iff in Hth. destruct Hth as (p & <- & _). rewrite map_length. auto. }
  assert (Sm : forall (g : R -> R) k, (k < n)%nat -> fold_right Rplus 0 (map (fun th => item th k) (delta_thetas m (map (fun p : R * R => (fst p, g (fst p), snd p)) pts))) =
     fold_right Rplus 0 (map (fun p => snd p * phi k (fst p) * g (fst p)) pts)).
  { intros g k Hk. unfold delta_thetas. rewrite !map_map. apply fold_ext. intros p _. unfold item. rewrite (nth_map_in _ _ _ _ 0) by lia. unfold phi.
    replace (fst p * nth k m 0) with (nth k m 0 * fst p) by ring. reflexivity. }
  pose (st := fun k => fold_right Rplus 0 (map (fun p => snd p * phi k (fst p) * (1 - fst p * (1 - IZR drn))) pts)).
  pose (sb := fun k => fold_right Rplus 0 (map (fun p => snd p * phi k (fst p) * fst p) pts)).
  assert (X : contributes' (fun tvals acc => acc <- match top with None => Ok acc | Some l => add_delta_loads n (length tvals) (load_E im eigs tvals dT) Igamv
        (delta_thetas m (map (fun p : R * R => (fst p, 1 - fst p * (1 - IZR drn), snd p)) pts)) (combine l (om_list (length l) tom)) acc end ;;
     match bot with None => Ok acc | Some l => add_delta_loads n (length tvals) (load_E im eigs tvals dT) Igamv
        (delta_thetas m (map (fun p : R * R => (fst p, fst p, snd p)) pts)) (combine l (om_list (length l) bom)) acc end)
     (fun k t => st k * total (integrals Ts) t + sb k * total (integrals Bs) t)).
  { apply contributes_seq.
    - pose proof (loads_E top tom Ts HT OT) as D. destruct top as [l|].
      + eapply contributes_ext; [apply (add_delta_contributes n dT T0 ok eigs Igamv HIg (fun tvals => load_E im eigs tvals dT)); [apply (Lth (fun z => 1 - z * (1 - IZR drn)))|exact D]|reflexivity|].
        intros k t Hk _ _. cbv beta. rewrite (Sm (fun z => 1 - z * (1 - IZR drn))) by auto. reflexivity.
      + unfold drive_all in D. cbn in D. inversion D. eapply contributes_ext; [apply contributes_nothing|reflexivity|]. intros; unfold total; cbn; ring.
    - pose proof (loads_E bot bom Bs HB OB) as D. destruct bot as [l|].
      + eapply contributes_ext; [apply (add_delta_contributes n dT T0 ok eigs Igamv HIg (fun tvals => load_E im eigs tvals dT)); [apply (Lth (fun z => z))|exact D]|reflexivity|].
        intros k t Hk _ _. cbv beta. rewrite (Sm (fun z => z)) by auto. reflexivity.
      + unfold drive_all in D. cbn in D. inversion D. eapply contributes_ext; [apply contributes_nothing|reflexivity|]. intros; unfold total; cbn; ring. }
  eapply contributes_ext; [apply (contributes_part _ _ _ _ _ _ d _ _ X)| |].
  - intros tvals acc. f_equal. unfold BC_deltaf. rewrite Hm. pose proof (C (fun z => 1 - z * (1 - IZR drn))) as C1. pose proof (C (fun z => z)) as C2. rewrite map_id in C2.
    rewrite C1, C2. reflexivity.
  - intros k t Hk _ _. unfold st, sb. f_equal. f_equal. f_equal. apply fold_ext. intros p _. f_equal. unfold phiT, top_shape.
    destruct Hdrn as [->| ->]; cbn [Z.eqb]; ring_simplify; reflexivity.
Qed.
End Boundary.
End Sources.
