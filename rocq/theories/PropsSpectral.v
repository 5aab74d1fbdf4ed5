(** * Property theorems: spectral integrals (C23-C28, C31, C64-C66) *)
From Coq Require Import Reals List Arith ZArith Lia Lra.
From Coquelicot Require Import Coquelicot.
From Verif Require Import Base SpectralModel SpecSpectral
  SpectralProofs3 SpectralProofs4 SpectralProofs5 SpectralProofs6.
Import ListNotations.
Open Scope R_scope.

(** Two layers with a jump in every property; eigenvalues pi, 2 pi, 3 pi. *)
Definition ex_slabs : list slab := [mkSlab 0 (2/5) 1 2 3 1 (-1) 2; mkSlab (2/5) 1 5 4 0 2 1 1].
Definition ex_m : list R := [PI * 1; PI * 2; PI * 3].
Example ex_stack : stack 0 1 ex_slabs.
Proof.
  assert (A : stack (2/5) 1 [mkSlab (2/5) 1 5 4 0 2 1 1]).
  { apply (stack_cons (mkSlab (2/5) 1 5 4 0 2 1 1)); cbn; [lra|constructor]. }
  apply (stack_cons (mkSlab 0 (2/5) 1 2 3 1 (-1) 2)); cbn; [lra|exact A].
Qed.
Example ex_eigenvalues : eigenvalues ex_m.
Proof.
  pose proof PI_RGT_0. split.
  - intros x Hx. cbn in Hx. repeat destruct Hx as [<-|Hx]; try lra; contradiction.
  - intros i j Hi Hj Hij. cbn in Hi, Hj.
    destruct i as [|[|[|i]]]; destruct j as [|[|[|j]]]; try lia; cbn [nth ex_m]; apply sq_ne; lra.
Qed.

Section Statements.
Variables (im : impl) (m : list R) (slabs : list slab) (z0 z1 : R).

(** C23 *)
Theorem C23_af_linear : forall a i j, stack z0 z1 slabs -> eigenvalues m -> linear_in at_ ab slabs a ->
  (i < length m)%nat -> (j < length m)%nat ->
  is_RInt (fun z => a z * sin (nth i m 0 * z) * sin (nth j m 0 * z)) z0 z1
          (entry (dim1sin_af_linear im m slabs) i j).
Proof. intros a i j Hst (Hn & Hd) Ha Hi Hj. apply af_entry; auto. apply Hn, nth_In; auto. Qed.
Theorem C23_symmetric : forall i j, (i < length m)%nat -> (j < length m)%nat ->
  entry (dim1sin_af_linear im m slabs) i j = entry (dim1sin_af_linear im m slabs) j i.
Proof. intros. destruct im; apply matrix_sym; auto. Qed.
Theorem C23_implementations_agree : forall im', eigenvalues m ->
  dim1sin_af_linear im m slabs = dim1sin_af_linear im' m slabs.
Proof. intros im' He. pose proof (af_agree m slabs He) as H. destruct im, im'; cbn; auto; symmetry; exact H. Qed.

(** C24 *)
Theorem C24_D_aDf_linear : forall a i j, stack z0 z1 slabs -> eigenvalues m -> linear_in at_ ab slabs a ->
  (i < length m)%nat -> (j < length m)%nat ->
  is_RInt (fun z => - (a z * (nth i m 0 * cos (nth i m 0 * z)) * (nth j m 0 * cos (nth j m 0 * z)))) z0 z1
          (entry (dim1sin_D_aDf_linear im m slabs) i j).
Proof. intros a i j Hst (Hn & Hd) Ha Hi Hj. apply DaDf_entry; auto. apply Hn, nth_In; auto. Qed.
(** With a continuous and the boundary conditions of the eigenfunctions (drained top; drained or
    undrained bottom) this is the integral of sin(mi z) * d/dz( a(z) d/dz sin(mj z) ). *)
Theorem C24_D_aDf_strong_form : forall a da i j, stack z0 z1 slabs -> slabs <> [] -> joined slabs -> eigenvalues m ->
  linear_in at_ ab slabs a ->
  (forall s z, In s slabs -> zt s < z < zb s -> da z = (ab s - at_ s) / (zb s - zt s)) ->
  (i < length m)%nat -> (j < length m)%nat ->
  sin (nth i m 0 * z0) * cos (nth j m 0 * z0) = 0 -> sin (nth i m 0 * z1) * cos (nth j m 0 * z1) = 0 ->
  is_RInt (fun z => (da z * (nth j m 0 * cos (nth j m 0 * z)) + a z * (- nth j m 0 ^ 2 * sin (nth j m 0 * z)))
                    * sin (nth i m 0 * z))
    z0 z1 (entry (dim1sin_D_aDf_linear im m slabs) i j).
Proof. intros a da i j Hst Hne Hj (Hn & Hd) Ha Hda Hi Hj' B0 B1. apply DaDf_strong; auto. apply Hn, nth_In; auto. Qed.
Theorem C24_symmetric : forall i j, (i < length m)%nat -> (j < length m)%nat ->
  entry (dim1sin_D_aDf_linear im m slabs) i j = entry (dim1sin_D_aDf_linear im m slabs) j i.
Proof. intros. destruct im; apply matrix_sym; auto. Qed.
Theorem C24_implementations_agree : forall im', eigenvalues m ->
  dim1sin_D_aDf_linear im m slabs = dim1sin_D_aDf_linear im' m slabs.
Proof. intros im' He. pose proof (DaDf_agree m slabs He) as H. destruct im, im'; cbn; auto; symmetry; exact H. Qed.

(** C25 *)
Theorem C25_ab_linear : forall a b i, stack z0 z1 slabs -> (forall x, In x m -> x <> 0) ->
  linear_in at_ ab slabs a -> linear_in bt bb slabs b -> (i < length m)%nat ->
  is_RInt (fun z => a z * b z * sin (nth i m 0 * z)) z0 z1 (coord (dim1sin_ab_linear im m slabs) i).
Proof. intros a b i Hst Hn Ha Hb Hi. apply ab_coord; auto. apply Hn, nth_In; auto. Qed.
Theorem C25_implementations_agree : forall im', (forall x, In x m -> x <> 0) ->
  dim1sin_ab_linear im m slabs = dim1sin_ab_linear im' m slabs.
Proof. intros im' He. pose proof (ab_agree m slabs He) as H. destruct im, im'; cbn; auto; symmetry; exact H. Qed.

(** C26 *)
Theorem C26_abc_linear : forall a b c i, stack z0 z1 slabs -> (forall x, In x m -> x <> 0) ->
  linear_in at_ ab slabs a -> linear_in bt bb slabs b -> linear_in ct cb slabs c -> (i < length m)%nat ->
  is_RInt (fun z => a z * b z * c z * sin (nth i m 0 * z)) z0 z1 (coord (dim1sin_abc_linear im m slabs) i).
Proof. intros a b c i Hst Hn Ha Hb Hc Hi. apply abc_coord; auto. apply Hn, nth_In; auto. Qed.
Theorem C26_implementations_agree : forall im', (forall x, In x m -> x <> 0) ->
  dim1sin_abc_linear im m slabs = dim1sin_abc_linear im' m slabs.
Proof. intros im' He. pose proof (abc_agree m slabs He) as H. destruct im, im'; cbn; auto; symmetry; exact H. Qed.

(** C27 *)
Theorem C27_abf_linear : forall a b i j, stack z0 z1 slabs -> eigenvalues m ->
  linear_in at_ ab slabs a -> linear_in bt bb slabs b ->
  (i < length m)%nat -> (j < length m)%nat ->
  is_RInt (fun z => a z * b z * sin (nth i m 0 * z) * sin (nth j m 0 * z)) z0 z1
          (entry (dim1sin_abf_linear im m slabs) i j).
Proof. intros a b i j Hst (Hn & Hd) Ha Hb Hi Hj. apply abf_entry; auto. apply Hn, nth_In; auto. Qed.
Theorem C27_symmetric : forall i j, (i < length m)%nat -> (j < length m)%nat ->
  entry (dim1sin_abf_linear im m slabs) i j = entry (dim1sin_abf_linear im m slabs) j i.
Proof. intros. destruct im; apply matrix_sym; auto. Qed.
Theorem C27_implementations_agree : forall im', eigenvalues m ->
  dim1sin_abf_linear im m slabs = dim1sin_abf_linear im' m slabs.
Proof. intros im' He. pose proof (abf_agree m slabs He) as H. destruct im, im'; cbn; auto; symmetry; exact H. Qed.

(** C64: the beam-type integral: a b (d2/dz2 sin(mi z)) (d2/dz2 sin(mj z)). *)
Theorem C64_DD_abDDf_linear : forall a b i j, stack z0 z1 slabs -> eigenvalues m ->
  linear_in at_ ab slabs a -> linear_in bt bb slabs b ->
  (i < length m)%nat -> (j < length m)%nat ->
  is_RInt (fun z => a z * b z * (- nth i m 0 ^ 2 * sin (nth i m 0 * z)) * (- nth j m 0 ^ 2 * sin (nth j m 0 * z))) z0 z1
          (entry (dim1sin_DD_abDDf_linear im m slabs) i j).
Proof. intros a b i j Hst (Hn & Hd) Ha Hb Hi Hj. apply DDabDDf_entry; auto. apply Hn, nth_In; auto. Qed.
Theorem C64_implementations_agree : forall im', eigenvalues m ->
  dim1sin_DD_abDDf_linear im m slabs = dim1sin_DD_abDDf_linear im' m slabs.
Proof. intros im' He. pose proof (DDabDDf_agree m slabs He) as H. destruct im, im'; cbn; auto; symmetry; exact H. Qed.

(** C65: D_aDb, b linear with slope beta over the whole profile.  For any a the result is the
    integrated-by-parts form; for continuous a it is the integral of sin(mi z) a'(z) b'(z). *)
Theorem C65_D_aDb_linear : forall a beta i, stack z0 z1 slabs -> slabs <> [] -> (forall x, In x m -> x <> 0) ->
  linear_in at_ ab slabs a -> (forall s, In s slabs -> (bb s - bt s) / (zb s - zt s) = beta) -> (i < length m)%nat ->
  exists v f l I, dim1sin_D_aDb_linear im m slabs = Ok v /\ length v = length m /\
    get slabs 0 = Ok f /\ get_last slabs = Ok l /\
    is_RInt (fun z => a z * beta * (nth i m 0 * cos (nth i m 0 * z))) z0 z1 I /\
    coord v i = beta * ab l * sin (nth i m 0 * z1) - beta * at_ f * sin (nth i m 0 * z0) - I.
Proof. intros. apply DaDb_weak; auto. apply H1, nth_In; auto. Qed.
Theorem C65_D_aDb_strong_form : forall da beta i, stack z0 z1 slabs -> slabs <> [] -> joined slabs ->
  (forall x, In x m -> x <> 0) ->
  (forall s z, In s slabs -> zt s < z < zb s -> da z = (ab s - at_ s) / (zb s - zt s)) ->
  (forall s, In s slabs -> (bb s - bt s) / (zb s - zt s) = beta) -> (i < length m)%nat ->
  exists v, dim1sin_D_aDb_linear im m slabs = Ok v /\ length v = length m /\
    is_RInt (fun z => da z * beta * sin (nth i m 0 * z)) z0 z1 (coord v i).
Proof. intros. apply DaDb_strong; auto. apply H2, nth_In; auto. Qed.
Theorem C65_implementations_agree : forall im', (forall x, In x m -> x <> 0) ->
  dim1sin_D_aDb_linear im m slabs = dim1sin_D_aDb_linear im' m slabs.
Proof. intros im' He. pose proof (DaDb_agree m slabs He) as H. destruct im, im'; cbn; auto; symmetry; exact H. Qed.
End Statements.
Print Assumptions C23_af_linear.
Print Assumptions C23_symmetric.
Print Assumptions C23_implementations_agree.
Print Assumptions C24_D_aDf_linear.
Print Assumptions C24_D_aDf_strong_form.
Print Assumptions C24_symmetric.
Print Assumptions C24_implementations_agree.
Print Assumptions C25_ab_linear.
Print Assumptions C25_implementations_agree.
Print Assumptions C26_abc_linear.
Print Assumptions C26_implementations_agree.
Print Assumptions C27_abf_linear.
Print Assumptions C27_symmetric.
Print Assumptions C27_implementations_agree.
Print Assumptions C64_DD_abDDf_linear.
Print Assumptions C64_implementations_agree.
Print Assumptions C65_D_aDb_linear.
Print Assumptions C65_D_aDb_strong_form.
Print Assumptions C65_implementations_agree.

(** The hypotheses of the above are met by the example profile. *)
Example C23_C24_C27_C64_witness : exists a b, linear_in at_ ab ex_slabs a /\ linear_in bt bb ex_slabs b /\
  is_RInt (fun z => a z * b z * sin (PI * 1 * z) * sin (PI * 3 * z)) 0 1 (entry (dim1sin_abf_linear vectorized ex_m ex_slabs) 0 2) /\
  is_RInt (fun z => a z * sin (PI * 2 * z) * sin (PI * 2 * z)) 0 1 (entry (dim1sin_af_linear scalar ex_m ex_slabs) 1 1).
Proof.
  destruct (linear_in_exists at_ ab _ _ _ ex_stack) as [a Ha]. destruct (linear_in_exists bt bb _ _ _ ex_stack) as [b Hb].
  exists a, b. repeat split; auto.
  - apply (C27_abf_linear vectorized ex_m ex_slabs 0 1 a b 0 2 ex_stack ex_eigenvalues Ha Hb); cbn; lia.
  - apply (C23_af_linear scalar ex_m ex_slabs 0 1 a 1 1 ex_stack ex_eigenvalues Ha); cbn; lia.
Qed.
Example C25_C26_witness : exists a b c,
  is_RInt (fun z => a z * b z * c z * sin (PI * 2 * z)) 0 1 (coord (dim1sin_abc_linear scalar ex_m ex_slabs) 1) /\
  is_RInt (fun z => a z * b z * sin (PI * 2 * z)) 0 1 (coord (dim1sin_ab_linear scalar ex_m ex_slabs) 1).
Proof.
  destruct (linear_in_exists at_ ab _ _ _ ex_stack) as [a Ha]. destruct (linear_in_exists bt bb _ _ _ ex_stack) as [b Hb].
  destruct (linear_in_exists ct cb _ _ _ ex_stack) as [c Hc].
  exists a, b, c. split.
  - apply (C26_abc_linear scalar ex_m ex_slabs 0 1 a b c 1 ex_stack (proj1 ex_eigenvalues) Ha Hb Hc); cbn; lia.
  - apply (C25_ab_linear scalar ex_m ex_slabs 0 1 a b 1 ex_stack (proj1 ex_eigenvalues) Ha Hb); cbn; lia.
Qed.
(** A continuous profile, b = z + 1. *)
Definition ex_slabs2 : list slab := [mkSlab 0 (2/5) 1 2 1 (7/5) 0 0; mkSlab (2/5) 1 2 4 (7/5) 2 0 0].
Example C24_C65_strong_witness : stack 0 1 ex_slabs2 /\ joined ex_slabs2 /\
  (forall s, In s ex_slabs2 -> (bb s - bt s) / (zb s - zt s) = 1) /\
  (forall i j, (i < 3)%nat -> (j < 3)%nat -> sin (nth i ex_m 0 * 0) * cos (nth j ex_m 0 * 0) = 0 /\ sin (nth i ex_m 0 * 1) * cos (nth j ex_m 0 * 1) = 0) /\
  exists v da, dim1sin_D_aDb_linear scalar ex_m ex_slabs2 = Ok v /\ is_RInt (fun z => da z * 1 * sin (PI * 2 * z)) 0 1 (coord v 1).
Proof.
  assert (A : stack 0 1 ex_slabs2).
  { assert (A : stack (2/5) 1 [mkSlab (2/5) 1 2 4 (7/5) 2 0 0]).
    { apply (stack_cons (mkSlab (2/5) 1 2 4 (7/5) 2 0 0)); cbn; [lra|constructor]. }
    apply (stack_cons (mkSlab 0 (2/5) 1 2 1 (7/5) 0 0)); cbn; [lra|exact A]. }
  assert (J : joined ex_slabs2) by (cbn; auto).
  assert (S : forall s, In s ex_slabs2 -> (bb s - bt s) / (zb s - zt s) = 1).
  { intros s [<-|[<-|[]]]; cbn; field. }
  split; auto. split; auto. split; auto. split.
  - intros i j Hi Hj. rewrite Rmult_0_r, sin_0, Rmult_0_l, Rmult_1_r. split; auto.
    assert (E : nth i ex_m 0 = PI * INR (Datatypes.S i)) by (destruct i as [|[|[|i]]]; cbn; lra || lia).
    rewrite E, sin_nat_PI. ring.
  - destruct (linear_in_exists (fun s => (ab s - at_ s) / (zb s - zt s)) (fun s => (ab s - at_ s) / (zb s - zt s)) _ _ _ A) as [da Hda].
    destruct (C65_D_aDb_strong_form scalar ex_m ex_slabs2 0 1 da 1 1) as (v & Hv & _ & HI); auto; try (cbn; lia).
    + discriminate.
    + apply ex_eigenvalues.
    + intros s z Hin Hz. rewrite (Hda s z Hin Hz). ring.
    + exists v, da. split; auto.
Qed.

(** C28: the integral between any two depths of the profile. *)
Theorem C28_a_linear_between : forall m slabs z0 z1 a zs,
  stack z0 z1 slabs -> slabs <> [] -> linear_in at_ ab slabs a -> (forall x, In x m -> x <> 0) ->
  (forall p, In p zs -> z0 <= fst p /\ fst p < snd p /\ snd p <= z1) ->
  exists A, dim1sin_a_linear_between m slabs zs = Ok A /\ length A = length zs /\
    forall k i, (k < length zs)%nat -> (i < length m)%nat ->
      is_RInt (fun z => a z * sin (nth i m 0 * z)) (fst (nth k zs (0, 0))) (snd (nth k zs (0, 0))) (entry A k i).
Proof.
  intros m slabs z0 z1 a zs Hst Hne Ha Hm. unfold dim1sin_a_linear_between.
  induction zs as [|p zs IH]; intros Hz.
  - exists []. cbn. repeat split; auto. intros; lia.
  - destruct IH as (A & E & L & HA); [intros; apply Hz; right; auto|].
    destruct (Hz p (or_introl eq_refl)) as (H1 & H2 & H3).
    destruct (a_between1_spec m slabs z0 z1 a (fst p) (snd p)) as (v & Ev & Lv & Hv); auto.
    exists (v :: A). cbn [mapM]. rewrite Ev. cbn [bind]. rewrite E. cbn [bind length]. split; [reflexivity|].
    split; [congruence|]. intros [|k] i Hk Hi; cbn [nth entry]; [apply (Hv i Hi)|]. apply HA; auto. lia.
Qed.
Print Assumptions C28_a_linear_between.
Theorem C28_avg_between : forall m z r i, (r < length z)%nat -> (i < length m)%nat ->
  fst (nth r z (0, 0)) <> snd (nth r z (0, 0)) -> nth i m 0 <> 0 ->
  is_RInt (fun t => sin (nth i m 0 * t)) (fst (nth r z (0, 0))) (snd (nth r z (0, 0)))
    ((snd (nth r z (0, 0)) - fst (nth r z (0, 0))) * entry (dim1sin_avg_between m z) r i).
Proof. exact avg_between_spec. Qed.
Print Assumptions C28_avg_between.
Example C28_witness : exists a A, linear_in at_ ab ex_slabs a /\
  dim1sin_a_linear_between ex_m ex_slabs [(1/5, 2/5); (2/5, 1/2); (0, 4/5)] = Ok A /\
  is_RInt (fun z => a z * sin (PI * 3 * z)) 0 (4/5) (entry A 2 2).
Proof.
  destruct (linear_in_exists at_ ab _ _ _ ex_stack) as [a Ha].
  destruct (C28_a_linear_between ex_m ex_slabs 0 1 a [(1/5, 2/5); (2/5, 1/2); (0, 4/5)]) as (A & E & L & H); auto.
  - exact ex_stack.
  - discriminate.
  - apply ex_eigenvalues.
  - intros p Hp. cbn in Hp. repeat destruct Hp as [<-|Hp]; cbn; try lra; contradiction.
  - exists a, A. repeat split; auto. apply (H 2%nat 2%nat); cbn; lia.
Qed.

(** C31 *)
Theorem C31_eigenvalues : forall i boundary v, m_from_sin_mx i boundary = Ok v ->
  (boundary = 0%Z /\ sin v = 0 \/ boundary = 1%Z /\ cos v = 0) /\ 0 < v /\
  (forall k w, (k < i)%nat -> m_from_sin_mx k boundary = Ok w -> w < v).
Proof.
  intros i bd v H.
  assert (Hb : bd = 0%Z \/ bd = 1%Z).
  { unfold m_from_sin_mx in H. destruct (Z.eqb_spec bd 0); auto. destruct (Z.eqb_spec bd 1); auto. discriminate. }
  pose proof PI_RGT_0. pose proof (pos_INR i).
  destruct Hb as [-> | ->].
  - rewrite m_from_0 in H. assert (E : v = PI * INR (S i)) by congruence. subst v. split; [left; split; auto; apply sin_nat_PI|].
    split; [rewrite S_INR; nra|]. intros k w Hk Hw. rewrite m_from_0 in Hw.
    assert (E : w = PI * INR (S k)) by congruence. subst w. apply Rmult_lt_compat_l; auto. apply lt_INR. lia.
  - rewrite m_from_1 in H. assert (E : v = PI * (INR i + / 2)) by congruence. subst v. split; [right; split; auto; apply cos_half_PI|].
    split; [nra|]. intros k w Hk Hw. rewrite m_from_1 in Hw.
    assert (E : w = PI * (INR k + / 2)) by congruence. subst w. apply Rmult_lt_compat_l; auto. apply lt_INR in Hk. lra.
Qed.
(** Every root is found: nothing is skipped between consecutive eigenvalues. *)
Theorem C31_all_roots : forall boundary x, (boundary = 0%Z \/ boundary = 1%Z) -> 0 < x ->
  (if Z.eqb boundary 0 then sin x = 0 else cos x = 0) -> exists i, m_from_sin_mx i boundary = Ok x.
Proof.
  intros bd x Hb Hx H. pose proof PI_RGT_0 as HPI.
  assert (Sroot : forall y, 0 < y -> sin y = 0 -> exists n, y = PI * INR (S n)).
  { intros y Hy Hs. destruct (sin_eq_0_0 y Hs) as (k & Hk).
    assert (0 < IZR k). { apply Rmult_lt_reg_r with PI; auto. rewrite Rmult_0_l, <- Hk. auto. }
    apply lt_IZR in H0. exists (Z.to_nat (k - 1)). rewrite Hk, Rmult_comm. f_equal.
    rewrite INR_IZR_INZ. f_equal. lia. }
  destruct Hb as [-> | ->]; cbn in H.
  - destruct (Sroot x Hx H) as (n & ->). exists n. apply m_from_0.
  - assert (Hs : sin (x + PI / 2) = 0) by (rewrite sin_plus, cos_PI2, sin_PI2, H; ring).
    destruct (Sroot (x + PI / 2)) as (n & Hn); [lra|auto|].
    exists n. rewrite m_from_1. f_equal. rewrite S_INR in Hn. lra.
Qed.
Theorem C31_rejects_other_boundaries : forall i boundary, boundary <> 0%Z -> boundary <> 1%Z ->
  m_from_sin_mx i boundary = Err ValueError.
Proof.
  intros i b H0 H1. unfold m_from_sin_mx. destruct (Z.eqb_spec b 0); [contradiction|]. destruct (Z.eqb_spec b 1); [contradiction|]. reflexivity.
Qed.
(** The rows of dim1sin are the depths, its columns the modes: column j holds the values at the given
    depths of the solution of phi'' = -m_j^2 phi that vanishes at the (drained) top; with the library's
    eigenvalues it also vanishes at a drained bottom and has no slope at an undrained one. *)
Theorem C31_basis_modes : forall boundary n m z,
  mapM (fun k => m_from_sin_mx k boundary) (seq 0 n) = Ok m ->
  exists phi phi' : nat -> R -> R,
    (forall j x, is_derive (phi j) x (phi' j x)) /\
    (forall j x, is_derive (phi' j) x (- (nth j m 0) ^ 2 * phi j x)) /\
    (forall j, phi j 0 = 0 /\ phi' j 0 = nth j m 0) /\
    (forall j, (j < n)%nat -> if Z.eqb boundary 0 then phi j 1 = 0 else phi' j 1 = 0) /\
    length (dim1sin m z) = length z /\
    (forall i, (i < length z)%nat -> length (nth i (dim1sin m z) []) = n) /\
    (forall i j, (i < length z)%nat -> (j < n)%nat -> entry (dim1sin m z) i j = phi j (nth i z 0)).
Proof.
  intros bd n m z Hm.
  assert (L : length m = n) by (destruct n; [cbn in Hm; assert (m = []) by congruence; subst; auto|]; apply (m_from_ok bd (S n) m Hm); lia).
  exists (fun j x => sin (x * nth j m 0)), (fun j x => nth j m 0 * cos (x * nth j m 0)).
  split; [intros j x; auto_derive; [auto|ring]|].
  split; [intros j x; auto_derive; [auto|ring]|].
  split; [intros j; rewrite Rmult_0_l, sin_0, cos_0; split; ring|].
  split.
  { intros j Hj. rewrite !Rmult_1_l.
    assert (E : m_from_sin_mx j bd = Ok (nth j m 0)).
    { clear L. assert (G : forall a n' m', mapM (fun k => m_from_sin_mx k bd) (seq a n') = Ok m' ->
        forall j', (j' < n')%nat -> m_from_sin_mx (a + j') bd = Ok (nth j' m' 0)).
      { intros a n'. revert a. induction n' as [|n' IH]; intros a m' H j' Hj'; [lia|].
        cbn [seq mapM] in H. destruct (m_from_sin_mx a bd) as [v|] eqn:E1; cbn in H; [|discriminate].
        destruct (mapM (fun k => m_from_sin_mx k bd) (seq (S a) n')) as [vs|] eqn:E2; cbn in H; [|discriminate].
        assert (m' = v :: vs) by congruence. subst m'. destruct j' as [|j']; [rewrite Nat.add_0_r; exact E1|].
        cbn [nth]. replace (a + S j')%nat with (S a + j')%nat by lia. apply IH; auto. lia. }
      exact (G 0%nat n m Hm j Hj). }
    destruct (C31_eigenvalues _ _ _ E) as ([[-> Hs]|[-> Hc]] & _).
    - cbn. exact Hs.
    - cbn. rewrite Hc. ring. }
  split; [unfold dim1sin; apply map_length|].
  unfold dim1sin, entry. split.
  - intros i Hi. rewrite (nth_indep _ [] (map (fun mm => sin (0 * mm)) m)) by (rewrite map_length; auto).
    rewrite (map_nth (fun zz => map (fun mm => sin (zz * mm)) m)). rewrite map_length. auto.
  - intros i j Hi Hj. rewrite (nth_indep _ [] (map (fun mm => sin (0 * mm)) m)) by (rewrite map_length; auto).
    rewrite (map_nth (fun zz => map (fun mm => sin (zz * mm)) m)).
    rewrite (nth_indep _ 0 (sin (nth i z 0 * 0))) by (rewrite map_length; lia).
    rewrite (map_nth (fun mm => sin (nth i z 0 * mm))). reflexivity.
Qed.
Print Assumptions C31_basis_modes.
Print Assumptions C31_eigenvalues.
Print Assumptions C31_all_roots.
Print Assumptions C31_rejects_other_boundaries.
Example C31_witness : m_from_sin_mx 2 1 = Ok (PI * (INR 2 + / 2)) /\ m_from_sin_mx 0 0 = Ok (PI * INR 1).
Proof. split; [apply m_from_1|apply m_from_0]. Qed.

(** C66: with the library's eigenvalues and a uniform unit property the "mass" matrix is 1/2 times the identity. *)
Theorem C66_sine_modes_orthogonal : forall im boundary n m slabs i j,
  mapM (fun k => m_from_sin_mx k boundary) (seq 0 n) = Ok m ->
  stack 0 1 slabs -> (forall s, In s slabs -> at_ s = 1 /\ ab s = 1) ->
  (i < n)%nat -> (j < n)%nat ->
  entry (dim1sin_af_linear im m slabs) i j = if Nat.eqb i j then 1 / 2 else 0.
Proof.
  intros im bd n m slabs i j Hm Hst H1 Hi Hj.
  assert (L : length m = n) by (destruct n; [cbn in Hm; assert (m = []) by congruence; subst; auto|]; apply (m_from_ok bd (S n) m Hm); lia).
  rewrite <- L in Hi, Hj.
  destruct (eig_facts bd n m Hm i j Hi Hj) as (P1 & P2 & P3 & P4).
  destruct (eig_facts bd n m Hm i i Hi Hi) as (_ & _ & Q3 & _). rewrite !Rmult_1_r in Q3.
  rewrite (mass_matrix im m slabs i j); auto; [|lra]. destruct (Nat.eqb i j); lra.
Qed.
Print Assumptions C66_sine_modes_orthogonal.
Example C66_witness : exists m, mapM (fun k => m_from_sin_mx k 1) (seq 0 3) = Ok m /\
  let slabs := [mkSlab 0 (1/3) 1 1 0 0 0 0; mkSlab (1/3) 1 1 1 0 0 0 0] in
  stack 0 1 slabs /\ entry (dim1sin_af_linear scalar m slabs) 1 2 = 0 /\ entry (dim1sin_af_linear scalar m slabs) 2 2 = 1 / 2.
Proof.
  assert (E : exists m, mapM (fun k => m_from_sin_mx k 1) (seq 0 3) = Ok m).
  { eexists. rewrite (mapM_map _ (fun i => PI * (INR i + / 2))) by (intros; apply m_from_1). reflexivity. }
  destruct E as (m & E). exists m. split; auto. cbv zeta.
  set (slabs := [_; _]).
  assert (A : stack 0 1 slabs).
  { assert (A : stack (1/3) 1 [mkSlab (1/3) 1 1 1 0 0 0 0]).
    { apply (stack_cons (mkSlab (1/3) 1 1 1 0 0 0 0)); cbn; [lra|constructor]. }
    apply (stack_cons (mkSlab 0 (1/3) 1 1 0 0 0 0)); cbn; [lra|exact A]. }
  assert (B : forall s, In s slabs -> at_ s = 1 /\ ab s = 1) by (intros s [<-|[<-|[]]]; cbn; auto).
  split; auto. split.
  - apply (C66_sine_modes_orthogonal scalar 1 3 m slabs 1 2); auto; lia.
  - apply (C66_sine_modes_orthogonal scalar 1 3 m slabs 2 2); auto; lia.
Qed.
