(** * Property theorems: spectral integrals of PolyLine profiles (C97) *)
From Coq Require Import Reals List Arith ZArith Lia Lra Sorted.
From Coquelicot Require Import Coquelicot.
From Verif Require Import Base PiecewiseModel SpecPiecewise SpecPiecewiseApi PolyLineModel SpecPolyLine PropsPolyLine
  SpectralModel SpecSpectral PropsSpectral WrapModel SpecWrap WrapProofs.
Import ListNotations.
Open Scope R_scope.

Section Statements.
Variables (im : impl) (m : list R) (z0 z1 : R).
(** Whatever the break points of the lines, the entries are the integrals over the whole profile. *)
Theorem C97_af : forall a f i j, depth_profile z0 z1 a f -> eigenvalues m -> (i < length m)%nat -> (j < length m)%nat ->
  is_RInt (fun z => f z * sin (nth i m 0 * z) * sin (nth j m 0 * z)) z0 z1 (entry (pdim1sin_af_linear im m a) i j).
Proof. intros a f i j P E Hi Hj. destruct (slabs1_ok _ _ _ _ P) as (St & Li & _). apply C23_af_linear; auto. Qed.
Theorem C97_D_aDf : forall a f i j, depth_profile z0 z1 a f -> eigenvalues m -> (i < length m)%nat -> (j < length m)%nat ->
  is_RInt (fun z => - (f z * (nth i m 0 * cos (nth i m 0 * z)) * (nth j m 0 * cos (nth j m 0 * z)))) z0 z1
    (entry (pdim1sin_D_aDf_linear im m a) i j).
Proof. intros a f i j P E Hi Hj. destruct (slabs1_ok _ _ _ _ P) as (St & Li & _). apply C24_D_aDf_linear; auto. Qed.
Theorem C97_abf : forall a b f g, depth_profile z0 z1 a f -> depth_profile z0 z1 b g -> well_separated [a; b] -> eigenvalues m ->
  exists A, pdim1sin_abf_linear im m a b = Ok A /\ forall i j, (i < length m)%nat -> (j < length m)%nat ->
    is_RInt (fun z => f z * g z * sin (nth i m 0 * z) * sin (nth j m 0 * z)) z0 z1 (entry A i j).
Proof.
  intros a b f g Pa Pb W E. destruct (slabs2_ok _ _ _ _ _ _ Pa Pb W) as (a' & b' & S & E1 & E2 & St & La & Lb & _).
  eexists. split; [unfold pdim1sin_abf_linear; rewrite E1; cbn [bind fst snd]; rewrite E2; reflexivity|].
  intros i j Hi Hj. apply C27_abf_linear; auto.
Qed.
Theorem C97_DD_abDDf : forall a b f g, depth_profile z0 z1 a f -> depth_profile z0 z1 b g -> well_separated [a; b] -> eigenvalues m ->
  exists A, pdim1sin_DD_abDDf_linear im m a b = Ok A /\ forall i j, (i < length m)%nat -> (j < length m)%nat ->
    is_RInt (fun z => f z * g z * (- nth i m 0 ^ 2 * sin (nth i m 0 * z)) * (- nth j m 0 ^ 2 * sin (nth j m 0 * z))) z0 z1 (entry A i j).
Proof.
  intros a b f g Pa Pb W E. destruct (slabs2_ok _ _ _ _ _ _ Pa Pb W) as (a' & b' & S & E1 & E2 & St & La & Lb & _).
  eexists. split; [unfold pdim1sin_DD_abDDf_linear; rewrite E1; cbn [bind fst snd]; rewrite E2; reflexivity|].
  intros i j Hi Hj. apply C64_DD_abDDf_linear; auto.
Qed.
Theorem C97_ab : forall a b f g, depth_profile z0 z1 a f -> depth_profile z0 z1 b g -> well_separated [a; b] -> (forall x, In x m -> x <> 0) ->
  exists v, pdim1sin_ab_linear im m a b = Ok v /\ forall i, (i < length m)%nat ->
    is_RInt (fun z => f z * g z * sin (nth i m 0 * z)) z0 z1 (coord v i).
Proof.
  intros a b f g Pa Pb W E. destruct (slabs2_ok _ _ _ _ _ _ Pa Pb W) as (a' & b' & S & E1 & E2 & St & La & Lb & _).
  eexists. split; [unfold pdim1sin_ab_linear; rewrite E1; cbn [bind fst snd]; rewrite E2; reflexivity|].
  intros i Hi. apply C25_ab_linear; auto.
Qed.
Theorem C97_abc : forall a b c f g h, depth_profile z0 z1 a f -> depth_profile z0 z1 b g -> depth_profile z0 z1 c h ->
  well_separated [a; b; c] -> (forall x, In x m -> x <> 0) ->
  exists v, pdim1sin_abc_linear im m a b c = Ok v /\ forall i, (i < length m)%nat ->
    is_RInt (fun z => f z * g z * h z * sin (nth i m 0 * z)) z0 z1 (coord v i).
Proof.
  intros a b c f g h Pa Pb Pc W E. destruct (slabs3_ok _ _ _ _ _ _ _ _ Pa Pb Pc W) as (a' & b' & c' & S & E1 & E2 & St & La & Lb & Lc & _).
  eexists. split; [unfold pdim1sin_abc_linear; rewrite E1; cbn [bind]; rewrite E2; reflexivity|].
  intros i Hi. apply C26_abc_linear; auto.
Qed.
Lemma slope_of (S : list slab) g beta gamma : stack z0 z1 S -> linear_in bt bb S g -> (forall z, z0 < z < z1 -> g z = beta * z + gamma) ->
  forall s, In s S -> (bb s - bt s) / (zb s - zt s) = beta.
Proof.
  intros St L G s Hs.
  assert (B : z0 <= zt s /\ zt s < zb s /\ zb s <= z1).
  { clear L G. induction St as [z|s' z1 l Hlt St IH]; [contradiction|].
    assert (M : forall z z' l', stack z z' l' -> z <= z') by (clear; induction 1; lra). pose proof (M _ _ _ St).
    destruct Hs as [->|Hs]; [lra|]. specialize (IH Hs). lra. }
  destruct B as (B0 & B1 & B2).
  pose proof (L s (zt s + (zb s - zt s) / 3) Hs ltac:(lra)) as H1. pose proof (L s (zt s + (zb s - zt s) * 2 / 3) Hs ltac:(lra)) as H2.
  rewrite G in H1 by lra. rewrite G in H2 by lra.
  replace ((zt s + (zb s - zt s) / 3 - zt s) / (zb s - zt s)) with (1 / 3) in H1 by (field; lra).
  replace ((zt s + (zb s - zt s) * 2 / 3 - zt s) / (zb s - zt s)) with (2 / 3) in H2 by (field; lra).
  apply Rmult_eq_reg_r with (zb s - zt s); [|lra]. unfold Rdiv. rewrite Rmult_assoc, Rinv_l by lra. lra.
Qed.
(** b has slope beta over the whole profile; end values of a: where the line arrives at z1 and leaves z0. *)
Theorem C97_D_aDb : forall a b f g beta gamma, depth_profile z0 z1 a f -> depth_profile z0 z1 b g -> well_separated [a; b] ->
  (forall z, z0 < z < z1 -> g z = beta * z + gamma) -> (forall x, In x m -> x <> 0) ->
  exists v, pdim1sin_D_aDb_linear im m a b = Ok v /\ length v = length m /\ forall i, (i < length m)%nat -> exists I,
    is_RInt (fun z => f z * beta * (nth i m 0 * cos (nth i m 0 * z))) z0 z1 I /\
    coord v i = beta * vleft a z1 * sin (nth i m 0 * z1) - beta * vright a z0 * sin (nth i m 0 * z0) - I.
Proof.
  intros a b f g beta gamma Pa Pb W Hg E.
  destruct (slabs2_ok _ _ _ _ _ _ Pa Pb W) as (a' & b' & S & E1 & E2 & St & La & Lb & Ne & _ & _ & _ & _ & (G & ES & SG & H0 & H1)).
  pose proof (slope_of S g beta gamma St Lb Hg) as Hs.
  assert (EV : exists v, dim1sin_D_aDb_linear im m S = Ok v /\ length v = length m).
  { unfold dim1sin_D_aDb_linear. destruct S as [|s S]; [contradiction|]. cbn [get nth_error bind].
    destruct (exists_last (l := s :: S)) as (Q & y & EQ); [discriminate|].
    assert (GL : get_last (s :: S) = Ok y) by (unfold get_last; rewrite EQ, rev_app_distr; reflexivity).
    change (get (s :: S) 0) with (Ok s). cbn [bind]. rewrite GL. cbn [bind]. eexists. split; [reflexivity|].
    rewrite map_length, combine_length. destruct im; unfold vector_of; rewrite map_length; lia. }
  destruct EV as (v & Ev & Lv). exists v. split; [unfold pdim1sin_D_aDb_linear; rewrite E1; cbn [bind fst snd]; rewrite E2; exact Ev|].
  split; auto. intros i Hi.
  destruct (C65_D_aDb_linear im m S z0 z1 f beta i) as (v' & fs & ls & I & Ev' & _ & Gf & Gl & HI & HV); auto.
  assert (v' = v) by congruence. subst v'. exists I. split; auto. rewrite HV.
  assert (Ef : SpectralModel.at_ fs = vright a z0).
  { rewrite ES in Gf. destruct G as [|x [|y G]]; cbn in Gf; try discriminate. cbn in H0. subst x. injection Gf as <-. reflexivity. }
  assert (El : ab ls = vleft a z1).
  { rewrite ES in Gl. destruct (exists_last (l := G)) as (Q & y & EQ); [intros ->; cbn in Gl; discriminate|].
    subst G. rewrite last_last in H1. subst y.
    assert (PP : Q <> [] -> exists p P, pairs (Q ++ [z1]) = P ++ [(p, z1)]).
    { clear. induction Q as [|q [|q' Q] IH]; intros H; [contradiction|exists q, []; reflexivity|].
      destruct IH as (p & P & EP); [discriminate|]. exists p, ((q, q') :: P).
      change (pairs ((q :: q' :: Q) ++ [z1])) with ((q, q') :: pairs ((q' :: Q) ++ [z1])). rewrite EP. reflexivity. }
    destruct Q as [|q Q]; [cbn in Gl; discriminate|]. destruct PP as (p & P & EP); [discriminate|]. rewrite EP in Gl.
    unfold get_last in Gl. rewrite map_app, rev_app_distr in Gl. cbn in Gl. injection Gl as <-. reflexivity. }
  rewrite Ef, El. reflexivity.
Qed.
Theorem C97_a_between : forall a f zs, depth_profile z0 z1 a f -> (forall x, In x m -> x <> 0) ->
  (forall p, In p zs -> z0 <= fst p /\ fst p < snd p /\ snd p <= z1) ->
  exists A, pdim1sin_a_linear_between m a zs = Ok A /\ length A = length zs /\
    forall k i, (k < length zs)%nat -> (i < length m)%nat ->
      is_RInt (fun z => f z * sin (nth i m 0 * z)) (fst (nth k zs (0, 0))) (snd (nth k zs (0, 0))) (entry A k i).
Proof. intros a f zs P E Hz. destruct (slabs1_ok _ _ _ _ P) as (St & Li & Ne). apply (C28_a_linear_between m (slabs1 a) z0 z1); auto. Qed.
End Statements.
Print Assumptions C97_af.
Print Assumptions C97_D_aDf.
Print Assumptions C97_abf.
Print Assumptions C97_DD_abDDf.
Print Assumptions C97_ab.
Print Assumptions C97_abc.
Print Assumptions C97_D_aDb.
Print Assumptions C97_a_between.

(** Two profiles with different break points, one with a step. *)
Definition pr_a : points := [(0, 1); (2/5, 2); (2/5, 5); (1, 4)].
Definition pr_b : points := [(0, 3); (1/2, 1); (1, 2)].
Lemma profile_exists z0 z1 p : rightward p -> noticeable_steps p -> SpecPiecewise.at_ (px p) 0 = z0 ->
  SpecPiecewise.at_ (px p) (length p - 1) = z1 -> exists f, depth_profile z0 z1 p f.
Proof.
  intros R N E0 E1. destruct (value_exists p false) as (f & Hf); [destruct R as (_ & L & _); intros ->; cbn in L; lia|].
  exists f. repeat split; auto; try apply R. apply (points_described p f R). exists false; auto.
Qed.
Lemma pr_a_ok : exists f, depth_profile 0 1 pr_a f.
Proof.
  apply profile_exists; try reflexivity.
  - split; [|split; [cbn; lia|cbn; lra]]. intros i Hi. cbn in Hi. destruct i as [|[|[|i]]]; cbn; try lra; lia.
  - intros i j Hij. cbn in Hij. destruct i as [|[|[|i]]]; destruct j as [|[|[|[|j]]]]; try lia; cbn; intros E; try lra.
    right. rewrite Rabs_right by lra. rewrite Rabs_left by lra. lra.
Qed.
Lemma pr_b_ok : exists f, depth_profile 0 1 pr_b f.
Proof.
  apply profile_exists; try reflexivity.
  - split; [|split; [cbn; lia|cbn; lra]]. intros i Hi. cbn in Hi. destruct i as [|[|i]]; cbn; try lra; lia.
  - intros i j Hij. cbn in Hij. destruct i as [|[|i]]; destruct j as [|[|[|j]]]; try lia; cbn; intros E; try lra.
Qed.
Lemma pr_sep : well_separated [pr_a; pr_b].
Proof.
  intros u w Hu Hw. cbn in Hu, Hw. unfold distinct_enough.
  repeat destruct Hu as [<-|Hu]; try contradiction; repeat destruct Hw as [<-|Hw]; try contradiction; try (left; lra);
    right; unfold Rabs; repeat destruct Rcase_abs; lra.
Qed.
Example C97_witness : exists f g A, depth_profile 0 1 pr_a f /\ depth_profile 0 1 pr_b g /\
  pdim1sin_abf_linear vectorized ex_m pr_a pr_b = Ok A /\
  is_RInt (fun z => f z * g z * sin (PI * 1 * z) * sin (PI * 3 * z)) 0 1 (entry A 0 2).
Proof.
  destruct pr_a_ok as (f & Pa). destruct pr_b_ok as (g & Pb).
  destruct (C97_abf vectorized ex_m 0 1 pr_a pr_b f g Pa Pb pr_sep ex_eigenvalues) as (A & E & H).
  exists f, g, A. repeat split; auto; try apply Pa; try apply Pb. apply (H 0%nat 2%nat); cbn; lia.
Qed.
