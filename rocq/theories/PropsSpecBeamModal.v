(** * C169: SpecBeam with use_analytical=True *)
From Coq Require Import Reals List Arith Lia Lra Bool.
From Coquelicot Require Import Coquelicot.
From Verif Require Import Base PiecewiseModel SpecPiecewise PolyLineModel SpectralModel SpectralProofs LoadModel SpecLoad BeamModel DingModel LoadComplexModel PropsBeam6
  SpecComplex ComplexCalc SpecGalerkin SpecModal SpecBeamModel SpecBeamModalModel SpecBeamMotion ModalProofs1 ModalProofs2 ModalProofs3 ModalProofs4.
Import ListNotations.
Local Open Scope R_scope.
Local Notation at_ := SpecPiecewise.at_.

Lemma coef_rat A i j : coef A i j = rat A i j. Proof. reflexivity. Qed.
Lemma ccoef_cat A i j : ccoef A i j = cat A i j. Proof. reflexivity. Qed.
Lemma two n : (2 * n = n + n)%nat. Proof. lia. Qed.
Lemma ltb_lt i n : (i < n)%nat -> (i <? n)%nat = true. Proof. apply Nat.ltb_lt. Qed.
Lemma ltb_ge i n : (n + i <? n)%nat = false. Proof. apply Nat.ltb_ge. lia. Qed.
Lemma sub_n n i : (n + i - n = i)%nat. Proof. lia. Qed.
(** rows of the matrices *)
Lemma gam_top n L (z : nat -> C) i : (i < n)%nat -> csum (2 * n) (fun j => Cmult (RtoC (rat (make_gam n L) i j)) (z j)) = z i.
Proof.
  intros Hi. rewrite (Cg_ext (2 * n) _ (fun j => Cmult (RtoC (if Nat.eqb i j then 1 else 0)) (z j))); [apply Cg_pick; lia|].
  intros j Hj. unfold make_gam. rewrite rat_table by lia. rewrite ltb_lt by auto. reflexivity.
Qed.
Lemma gam_bottom n L (z : nat -> C) k : (k < n)%nat -> csum (2 * n) (fun j => Cmult (RtoC (rat (make_gam n L) (n + k) j)) (z j)) = csum n (fun j => Cmult (RtoC (rat L k j)) (z (n + j)%nat)).
Proof.
  intros Hk. rewrite two, csum_app. rewrite (Cg_ext n _ (fun _ => RtoC 0)).
  - rewrite Cg_zero, Cplus_0_l. apply Cg_ext. intros j Hj. unfold make_gam. rewrite rat_table by lia. rewrite !ltb_ge, !sub_n. reflexivity.
  - intros j Hj. unfold make_gam. rewrite rat_table by lia. rewrite ltb_ge, ltb_lt by auto. ring.
Qed.
Lemma psi_top n P Q (z : nat -> C) i : (i < n)%nat -> csum (2 * n) (fun j => Cmult (RtoC (rat (make_psi n P Q) i j)) (z j)) = Copp (z (n + i)%nat).
Proof.
  intros Hi. rewrite two, csum_app. rewrite (Cg_ext n _ (fun _ => RtoC 0)).
  - rewrite Cg_zero, Cplus_0_l. rewrite (Cg_ext n _ (fun j => Cmult (RtoC (if Nat.eqb i j then 1 else 0)) (Copp (z (n + j)%nat)))); [apply (Cg_pick n i (fun j => Copp (z (n + j)%nat))); auto|].
    intros j Hj. unfold make_psi. rewrite rat_table by lia. rewrite ltb_lt, ltb_ge, sub_n by auto. destruct (Nat.eqb i j); apply C_eq; cbn; ring.
  - intros j Hj. unfold make_psi. rewrite rat_table by lia. rewrite !ltb_lt by auto. ring.
Qed.
Lemma psi_bottom n P Q (z : nat -> C) k : (k < n)%nat -> csum (2 * n) (fun j => Cmult (RtoC (rat (make_psi n P Q) (n + k) j)) (z j)) =
  Copp (Cplus (csum n (fun j => Cmult (RtoC (rat P k j)) (z j))) (csum n (fun j => Cmult (RtoC (rat Q k j)) (z (n + j)%nat)))).
Proof.
  intros Hk. rewrite two, csum_app.
  rewrite (Cg_ext n _ (fun j => Cmult (RtoC (-1)) (Cmult (RtoC (rat P k j)) (z j)))).
  2:{ intros j Hj. unfold make_psi. rewrite rat_table by lia. rewrite ltb_ge, ltb_lt, sub_n by auto. rewrite RtoC_mult. ring. }
  rewrite Cg_scal. rewrite (Cg_ext n (fun k0 => Cmult (RtoC (rat (make_psi n P Q) (n + k) (n + k0))) (z (n + k0)%nat)) (fun j => Cmult (RtoC (-1)) (Cmult (RtoC (rat Q k j)) (z (n + j)%nat)))).
  2:{ intros j Hj. unfold make_psi. rewrite rat_table by lia. rewrite !ltb_ge, !sub_n. rewrite RtoC_mult. ring. }
  rewrite Cg_scal. apply C_eq; cbn; ring.
Qed.
(** real coefficients *)
Lemma csum_parts n (g : nat -> R) (z : nat -> C) : fst (csum n (fun j => Cmult (RtoC (g j)) (z j))) = sum n (fun j => g j * fst (z j)) /\ snd (csum n (fun j => Cmult (RtoC (g j)) (z j))) = sum n (fun j => g j * snd (z j)).
Proof. unfold csum, sum. generalize (seq 0 n). intros l. induction l as [|j l [I1 I2]]; [split; reflexivity|]. cbn [map fold_right]. split; [rewrite <- I1|rewrite <- I2]; cbn; ring. Qed.
Lemma csum_RR n (g z : nat -> R) : csum n (fun j => Cmult (RtoC (g j)) (RtoC (z j))) = RtoC (sum n (fun j => g j * z j)).
Proof. rewrite (Cg_ext n _ (fun j => RtoC (g j * z j))) by (intros; apply C_eq; cbn; ring). apply csum_R. Qed.
Lemma nth_fst (A : list (list C)) a b : nth b (nth a (map (map fst) A) []) 0 = fst (nth b (nth a A []) (RtoC 0)).
Proof. transitivity (nth b (map fst (nth a A [])) 0); [f_equal; exact (map_nth (map fst) A [] a)|exact (map_nth fst (nth a A []) (RtoC 0) b)]. Qed.
(** times at which something happens *)
Definition events (o : sb) : list R :=
  flat_map (fun v => flat_map (fun a => [mt0 v + (if Rltb (speed v) 0 then a - span v else - a) / speed v; mt0 v + (if Rltb (speed v) 0 then a else span v - a) / speed v]) (mxt v)) (vehicles o) ++
  concat (map (fun q => px (snd q)) (stands o)).
Lemma not_event o t : (forall v, In v (vehicles o) -> ready v) -> ~ In t (events o) -> quiet o t.
Proof.
  intros HV N. split.
  - intros v a Hv Ha. destruct (HV v Hv) as (s & L & EV & HS & EL & HL & _). unfold axle, span, speed in *. rewrite EV, EL. unfold axle_at.
    assert (N' : ~ In t [mt0 v + (if Rltb s 0 then a - L else - a) / s; mt0 v + (if Rltb s 0 then a else L - a) / s]).
    { intros X. apply N. unfold events. apply in_or_app. left. apply in_flat_map. exists v. split; auto. apply in_flat_map. exists a. split; auto. unfold speed, span. rewrite EV, EL. exact X. }
    split; intros X; apply N'; destruct (Rltb s 0); cbn [In].
    + left. apply (Rmult_eq_reg_l s); auto. field_simplify; auto. lra.
    + left. apply (Rmult_eq_reg_l s); auto. field_simplify; auto. lra.
    + right; left. apply (Rmult_eq_reg_l s); auto. field_simplify; auto. lra.
    + right; left. apply (Rmult_eq_reg_l s); auto. field_simplify; auto. lra.
  - intros q Hq Ht. apply N. unfold events. apply in_or_app. right. apply in_concat. exists (px (snd q)). split; auto. apply (in_map (fun q => px (snd q))). auto.
Qed.

Section Motion.
Variable inv : list (list R) -> result (list (list R)).
Variable cinv : list (list C) -> result (list (list C)).
Variable eig : list (list R) -> result (list C * list (list C)).
Variable cos_E : impl -> list R -> list R -> R -> R -> list C -> list R -> result (list (list C)).
Hypothesis Hinv : inverts_both inv.
Hypothesis Hcinv : cinverts cinv.
Hypothesis Heig : cdiagonalises eig.
Variables (o : sb) (M : mats) (eigs : list C) (v Igamv : list (list C)) (F : points -> R -> R) (T0 : R).
Local Notation n := (b_nterms (s_in o)).
Hypothesis HM : time_independant_matrices o = Ok M.
Hypothesis HE : eigs_and_v inv cinv eig n M = Ok (eigs, v, Igamv).
Hypothesis HG : good_loads o F.

Local Notation gam := (make_gam n (lam_qdotdot M)).
Local Notation psi := (make_psi n (psi_q M) (psi_qdot M)).
Let G i j := RtoC (rat gam i j).
Let Psi i j := RtoC (rat psi i j).
Let V := cat v.
Let N := cat Igamv.
Let lam j := nth j eigs (RtoC 0).
Local Notation nn := (2 * n)%nat.
Definition is_system (N0 : nat -> nat -> C) : Prop := length eigs = nn /\
  (forall i j, (i < nn)%nat -> (j < nn)%nat -> csum nn (fun k => Cmult (G i k) (N0 k j)) = RtoC (if Nat.eqb i j then 1 else 0)) /\
  (forall i j, (i < nn)%nat -> (j < nn)%nat -> csum nn (fun k => Cmult (N0 i k) (G k j)) = RtoC (if Nat.eqb i j then 1 else 0)) /\
  (forall i j, (i < nn)%nat -> (j < nn)%nat -> csum nn (fun k => Cmult (csum nn (fun p => Cmult (N0 i p) (Psi p k))) (V k j)) = Cmult (V i j) (lam j)) /\
  (forall i j, (i < nn)%nat -> (j < nn)%nat -> csum nn (fun k => Cmult (csum nn (fun p => Cmult (G i p) (V p k))) (N k j)) = RtoC (if Nat.eqb i j then 1 else 0)) /\
  (forall i j, (i < nn)%nat -> (j < nn)%nat -> csum nn (fun k => Cmult (N i k) (csum nn (fun p => Cmult (G k p) (V p j)))) = RtoC (if Nat.eqb i j then 1 else 0)).
Lemma the_system : exists N0, is_system N0.
Proof using Hinv Hcinv Heig HE.
  unfold eigs_and_v in HE. destruct (inv gam) as [ig|] eqn:EI; [|discriminate HE]. cbn [bind] in HE. destruct (eig _) as [[w V']|] eqn:EE; [|discriminate HE]. cbn [bind fst snd] in HE.
  destruct (cinv _) as [Ig|] eqn:EC; [|discriminate HE]. cbn [bind] in HE. assert (E3 : w = eigs /\ V' = v /\ Ig = Igamv) by (injection HE; auto). destruct E3 as (-> & -> & ->).
  exists (fun i j => RtoC (rat ig i j)).
  destruct (Hinv _ _ EI) as [_ HI]. destruct (Heig _ _ _ EE) as (_ & HL & HD). destruct (Hcinv _ _ EC) as [_ HC].
  assert (LG : length gam = nn) by apply table_length.
  assert (LM : length (mdot nn nn nn ig psi) = nn) by apply table_length.
  assert (LR : length (rcdot nn nn nn gam v) = nn) by apply table_length.
  rewrite LG in HI. rewrite LM in HL, HD. rewrite LR in HC.
  unfold is_system. split; auto.
  assert (LI : forall i j, (i < nn)%nat -> (j < nn)%nat -> csum nn (fun k => Cmult (G i k) (RtoC (rat ig k j))) = RtoC (if Nat.eqb i j then 1 else 0)).
  { intros i j Hi Hj. unfold G. rewrite csum_RR. f_equal. apply (HI i j); auto. }
  assert (RI : forall i j, (i < nn)%nat -> (j < nn)%nat -> csum nn (fun k => Cmult (RtoC (rat ig i k)) (G k j)) = RtoC (if Nat.eqb i j then 1 else 0)).
  { intros i j Hi Hj. unfold G. rewrite csum_RR. f_equal. apply (HI i j); auto. }
  split; [exact LI|]. split; [exact RI|].
  split.
  { intros i j Hi Hj. unfold lam, V, Psi. rewrite <- ccoef_cat. rewrite <- (HD i j Hi Hj). apply Cg_ext. intros k Hk. f_equal. rewrite csum_RR. unfold mdot. rewrite coef_rat, rat_table by auto. reflexivity. }
  assert (GV : forall i k, (i < nn)%nat -> (k < nn)%nat -> csum nn (fun p => Cmult (G i p) (V p k)) = cat (rcdot nn nn nn gam v) i k) by (intros i k Hi Hk; unfold rcdot; rewrite cat_table by auto; reflexivity).
  split.
  - intros i j Hi Hj. destruct (HC i j Hi Hj) as [X1 _]. rewrite <- X1. apply Cg_ext. intros k Hk. rewrite GV by auto. reflexivity.
  - intros i j Hi Hj. destruct (HC i j Hi Hj) as [_ X2]. rewrite <- X2. apply Cg_ext. intros k Hk. rewrite GV by auto. reflexivity.
Qed.
Lemma motion_unique q p q' p' : motion o M F T0 q p -> motion o M F T0 q' p' -> forall k t, (k < n)%nat -> q' k t = q k t /\ p' k t = p k t.
Proof using Hinv Hcinv Heig HE HG.
  intros [A D] [A' D']. destruct the_system as (N0 & HL & S1 & S2 & S3 & S4 & S5).
  set (w := fun i t => if (i <? n)%nat then q i t - q' i t else p (i - n)%nat t - p' (i - n)%nat t).
  assert (W1 : forall i t, (i < n)%nat -> w i t = q i t - q' i t) by (intros i t Hi; unfold w; rewrite ltb_lt by auto; auto).
  assert (W2 : forall i t, w (n + i)%nat t = p i t - p' i t) by (intros i t; unfold w; rewrite ltb_ge, sub_n; auto).
  assert (Z : forall i t, (i < nn)%nat -> RtoC (w i t) = RtoC 0).
  { apply (system_unique nn G N0 Psi V N lam (events o) S1 S2 S3 S4 S5 (fun i t => RtoC (w i t)) T0).
    - intros i t Hi. split; cbn [fst snd RtoC]; [|apply continuous_const]. unfold w. destruct (i <? n)%nat eqn:E.
      + apply Nat.ltb_lt in E. apply (continuous_minus (V := R_NormedModule)); [apply (A i E)|apply (A' i E)].
      + apply Nat.ltb_ge in E. apply (continuous_minus (V := R_NormedModule)); [apply (A (i - n)%nat)|apply (A' (i - n)%nat)]; lia.
    - intros t Ht. apply not_event in Ht; [|apply HG]. destruct (D t Ht) as (acc & Q). destruct (D' t Ht) as (acc' & Q').
      exists (fun i => RtoC (if (i <? n)%nat then p i t - p' i t else acc (i - n)%nat - acc' (i - n)%nat)). split.
      + intros i Hi. apply Cderive_R. unfold w. destruct (i <? n)%nat eqn:E.
        * apply Nat.ltb_lt in E. apply (is_derive_minus (V := R_NormedModule)); [apply (Q i E)|apply (Q' i E)].
        * apply Nat.ltb_ge in E. apply (is_derive_minus (V := R_NormedModule)); [apply (Q (i - n)%nat)|apply (Q' (i - n)%nat)]; lia.
      + intros i Hi. destruct (Nat.lt_ge_cases i n) as [L|L].
        * unfold G, Psi. rewrite gam_top, psi_top by auto. rewrite W2, ltb_lt by auto. ring.
        * replace i with (n + (i - n))%nat by lia. set (k := (i - n)%nat). assert (Hk : (k < n)%nat) by (unfold k; lia). clearbody k. unfold G, Psi. rewrite gam_bottom, psi_bottom by auto.
          destruct (Q k Hk) as (_ & _ & E). destruct (Q' k Hk) as (_ & _ & E').
          rewrite (Cg_ext n (fun j => Cmult (RtoC (rat (lam_qdotdot M) k j)) _) (fun j => Cmult (RtoC (rat (lam_qdotdot M) k j)) (RtoC (acc j - acc' j)))) by (intros j Hj; rewrite ltb_ge, sub_n; reflexivity).
          rewrite (Cg_ext n (fun j => Cmult (RtoC (rat (psi_q M) k j)) _) (fun j => Cmult (RtoC (rat (psi_q M) k j)) (RtoC (q j t - q' j t)))) by (intros j Hj; rewrite W1 by auto; reflexivity).
          rewrite (Cg_ext n (fun j => Cmult (RtoC (rat (psi_qdot M) k j)) _) (fun j => Cmult (RtoC (rat (psi_qdot M) k j)) (RtoC (p j t - p' j t)))) by (intros j Hj; rewrite W2 by auto; reflexivity).
          rewrite !csum_RR.
          assert (SM : forall c a b : nat -> R, sum n (fun j => c j * (a j - b j)) = sum n (fun j => c j * a j) - sum n (fun j => c j * b j)).
          { intros c a b. unfold sum. generalize (seq 0 n). intros l. induction l as [|j l IH]; cbn [map fold_right]; [ring|rewrite IH; ring]. }
          rewrite !SM. unfold coef in E, E'. unfold rat. rewrite E, E'. apply C_eq; cbn; ring.
    - intros i Hi. unfold w. destruct (i <? n)%nat eqn:E.
      + apply Nat.ltb_lt in E. destruct (A i E) as (-> & _ & _), (A' i E) as (-> & _ & _). f_equal. ring.
      + apply Nat.ltb_ge in E. destruct (A (i - n)%nat ltac:(lia)) as (_ & -> & _), (A' (i - n)%nat ltac:(lia)) as (_ & -> & _). f_equal. ring. }
  intros k t Hk. assert (Z1 := Z k t ltac:(lia)). assert (Z2 := Z (n + k)%nat t ltac:(lia)). apply RtoC_inj in Z1, Z2. rewrite W1 in Z1 by auto. rewrite W2 in Z2. lra.
Qed.
Hypothesis HU : unloaded_before o T0.
Hypothesis Hnz : forall l, In l eigs -> l <> RtoC 0.
Hypothesis Hres : forall l u k, In l eigs -> In u (vehicles o) -> (k < n)%nat -> l <> (0, speed u * nth k (s_beta o) 0) /\ l <> (0, - (speed u * nth k (s_beta o) 0)).
Lemma solution : exists (y : nat -> R -> C) vE, v_E_Igamv_the inv cinv eig cos_E o = Ok vE /\
  (forall i b, (i < nn)%nat -> (b < length (s_t o))%nat -> cat vE i b = y i (nth b (s_t o) 0)) /\
  (forall i t, (i < nn)%nat -> snd (y i t) = 0) /\ (forall i t, (i < nn)%nat -> t <= T0 -> y i t = RtoC 0) /\ motion o M F T0 (fun k t => fst (y k t)) (fun k t => fst (y (n + k)%nat t)).
Proof using Hinv Hcinv Heig HM HE HG HU Hnz Hres.
  destruct the_system as (N0 & HL & S1 & S2 & S3 & S4 & S5).
  destruct (E_computed cos_E o F T0 eigs Igamv HG HU HL Hnz Hres) as (ls & E & EE & HLn & HS & HEc).
  set (c := mode_c o F T0 eigs Igamv ls) in *. set (y := fun i t => csum nn (fun l => Cmult (V i l) (c l t))).
  assert (DR := fun e => mode_driven o F T0 eigs Igamv HG HU HL Hnz Hres ls e HLn HS). cbv beta in DR. fold c in DR.
  set (src := fun i t => if (i <? n)%nat then 0 else pushing o F (i - n) t).
  assert (Yc : forall i t, Ccont (y i) t). { intros i t. apply (Ccont_csum nn (fun l s => Cmult (V i l) (c l s))). intros l Hl. apply Ccont_mult; [apply Ccont_const|]. apply (DR l Hl). }
  assert (Yd : forall t, ~ In t (breaks o ls) -> exists y', (forall i, (i < nn)%nat -> is_Cderive (y i) t (y' i)) /\
    forall i, (i < nn)%nat -> Cplus (csum nn (fun j => Cmult (G i j) (y' j))) (csum nn (fun j => Cmult (Psi i j) (y j t))) = RtoC (src i t)).
  { intros t Ht. set (c' := fun l => Cminus (csum n (fun i => Cmult (cat Igamv l (n + i)) (RtoC (pushing o F i t)))) (Cmult (lam l) (c l t))).
    exists (fun i => csum nn (fun l => Cmult (V i l) (c' l))). split.
    - intros i Hi. apply (Cderive_csum nn (fun l s => Cmult (V i l) (c l s))). intros l Hl.
      replace (Cmult (V i l) (c' l)) with (Cplus (Cmult (RtoC 0) (c l t)) (Cmult (V i l) (c' l))) by ring. apply (Cderive_mult (fun _ => V i l) (c l)); [apply Cderive_const|]. apply (DR l Hl); auto.
    - apply (modes_to_system nn G N0 Psi V N lam S1 S3 S4 (fun l => c l t) c' (fun i => RtoC (src i t))).
      intros j Hj. unfold c'. replace (Cplus (Cminus (csum n (fun i => Cmult (cat Igamv j (n + i)) (RtoC (pushing o F i t)))) (Cmult (lam j) (c j t))) (Cmult (lam j) (c j t))) with (csum n (fun i => Cmult (cat Igamv j (n + i)) (RtoC (pushing o F i t)))) by ring.
      rewrite two, csum_app. rewrite (Cg_ext n (fun k => Cmult (N j k) (RtoC (src k t))) (fun _ => RtoC 0)) by (intros k Hk; unfold src; rewrite ltb_lt by auto; ring). rewrite Cg_zero, Cplus_0_l.
      apply Cg_ext. intros k Hk. unfold src. rewrite ltb_ge, sub_n. reflexivity. }
  assert (Y0 : forall i t, (i < nn)%nat -> t <= T0 -> y i t = RtoC 0).
  { intros i t Hi Ht. unfold y. rewrite (Cg_ext nn _ (fun _ => RtoC 0)); [apply Cg_zero|]. intros l Hl. rewrite (proj1 (DR l Hl) t Ht). ring. }
  assert (Yr : forall i t, (i < nn)%nat -> snd (y i t) = 0).
  { intros i t Hi. apply RtoC_inj. apply (system_unique nn G N0 Psi V N lam (breaks o ls) S1 S2 S3 S4 S5 (fun i t => RtoC (snd (y i t))) T0); auto.
    - intros j s Hj. split; cbn [fst snd RtoC]; [apply Yc|apply continuous_const].
    - intros s Hs. destruct (Yd s Hs) as (y' & D1 & D2). exists (fun j => RtoC (snd (y' j))). split; [intros j Hj; apply Cderive_R, (D1 j Hj)|].
      intros j Hj. unfold G, Psi. rewrite !csum_RR, <- RtoC_plus. f_equal. assert (X := f_equal snd (D2 j Hj)). cbn [snd RtoC Cplus] in X. unfold G, Psi in X.
      rewrite (proj2 (csum_parts nn (fun k => rat gam j k) y')), (proj2 (csum_parts nn (fun k => rat psi j k) (fun k => y k s))) in X. exact X.
    - intros j Hj. rewrite Y0 by (auto; lra). reflexivity. }
  exists y. unfold v_E_Igamv_the. rewrite HM. cbn [bind]. rewrite HE. cbn [bind]. rewrite EE. cbn [bind]. eexists. split; [reflexivity|].
  split. { intros i b Hi Hb. unfold cdot. rewrite cat_table by auto. rewrite isum_csum. apply Cg_ext. intros k Hk. rewrite HEc by auto. reflexivity. }
  split; auto. split; auto. split.
  - intros k Hk. split; [rewrite Y0 by (auto; lia || lra); reflexivity|]. split; [rewrite Y0 by (auto; lia || lra); reflexivity|]. intros t. split; apply Yc.
  - intros t Ht. apply (quiet_breaks o ls t HLn) in Ht. destruct (Yd t Ht) as (y' & D1 & D2). exists (fun k => fst (y' (n + k)%nat)). intros k Hk.
    assert (R1 := D2 k ltac:(lia)). unfold G, Psi in R1. rewrite gam_top, psi_top in R1 by auto. unfold src in R1. rewrite ltb_lt in R1 by auto.
    assert (R2 := D2 (n + k)%nat ltac:(lia)). unfold G, Psi in R2. rewrite gam_bottom, psi_bottom in R2 by auto. unfold src in R2. rewrite ltb_ge, sub_n in R2.
    split; [|split].
    + replace (fst (y (n + k)%nat t)) with (fst (y' k)); [apply (D1 k); lia|]. apply (f_equal fst) in R1. cbn [fst Cplus Copp RtoC] in R1. lra.
    + apply (D1 (n + k)%nat). lia.
    + apply (f_equal fst) in R2. cbn [fst Cplus Copp RtoC] in R2.
      rewrite (proj1 (csum_parts n (fun j => rat (lam_qdotdot M) k j) (fun j => y' (n + j)%nat))), (proj1 (csum_parts n (fun j => rat (psi_q M) k j) (fun j => y j t))), (proj1 (csum_parts n (fun j => rat (psi_qdot M) k j) (fun j => y (n + j)%nat t))) in R2.
      unfold coef. unfold rat in R2. lra.
Qed.
End Motion.

(** The deflections are the motion of the beam: there is exactly one motion from rest, and the program gives it.  No ValueError about imaginary parts. *)
Theorem C169_motion : forall inv cinv eig cos_E o M eigs v Igamv F T0,
  inverts_both inv -> cinverts cinv -> cdiagonalises eig ->
  time_independant_matrices o = Ok M -> eigs_and_v inv cinv eig (b_nterms (s_in o)) M = Ok (eigs, v, Igamv) ->
  good_loads o F -> unloaded_before o T0 ->
  (forall l, In l eigs -> l <> RtoC 0) ->
  (forall l u k, In l eigs -> In u (vehicles o) -> (k < b_nterms (s_in o))%nat -> l <> (0, speed u * nth k (s_beta o) 0) /\ l <> (0, - (speed u * nth k (s_beta o) 0))) ->
  exists q p, motion o M F T0 q p /\ (forall k t, (k < b_nterms (s_in o))%nat -> t <= T0 -> q k t = 0 /\ p k t = 0) /\
    (forall q' p', motion o M F T0 q' p' -> forall k t, (k < b_nterms (s_in o))%nat -> q' k t = q k t /\ p' k t = p k t) /\
    exists d, runme_analytical inv cinv eig cos_E o None None = Ok (d, option_map (fun L => map (map (fun y => y * L)) d) (b_L (s_in o))) /\ length d = length (s_x o) /\
      forall a b, (a < length (s_x o))%nat -> (b < length (s_t o))%nat ->
        nth b (nth a d []) 0 = sum (b_nterms (s_in o)) (fun k => q k (nth b (s_t o) 0) * modeshape o k (nth a (s_x o) 0)).
Proof.
  intros inv cinv eig cos_E o M eigs v Igamv F T0 Hinv Hcinv Heig HM HE HG HU Hnz Hres. set (n := b_nterms (s_in o)) in *.
  destruct (solution inv cinv eig cos_E Hinv Hcinv Heig o M eigs v Igamv F T0 HM HE HG HU Hnz Hres) as (y & vE & EV & HV & HR & H0 & HMo). fold n in HV, HR, HMo, H0.
  exists (fun k t => fst (y k t)), (fun k t => fst (y (n + k)%nat t)). split; auto. split; [intros k t Hk Ht; rewrite !H0 by (auto; lia); split; reflexivity|].
  split; [intros q' p' HM'; apply (motion_unique inv cinv eig Hinv Hcinv Heig o M eigs v Igamv F T0 HE HG _ _ _ _ HMo HM')|].
  assert (DE : forall a b, (a < length (s_x o))%nat -> (b < length (s_t o))%nat -> nth b (nth a (complex_defl o vE) []) (RtoC 0) = RtoC (sum n (fun k => fst (y k (nth b (s_t o) 0)) * modeshape o k (nth a (s_x o) 0)))).
  { intros a b Ha Hb. unfold complex_defl. set (f := fun x : R => _). rewrite (nth_indep _ [] (f 0)) by (rewrite map_length; auto). rewrite map_nth. unfold f. rewrite nth_map_seq0 by auto. rewrite isum_csum. fold n. rewrite <- csum_R.
    apply Cg_ext. intros k Hk. rewrite HV by (auto; lia). unfold modeshape. apply C_eq; cbn; rewrite (HR k) by lia; ring. }
  exists (map (map fst) (complex_defl o vE)). unfold runme_analytical. rewrite EV. destruct (b_force (s_in o)); cbn [bind]; unfold make_defl.
  all: assert (SI : small_imag (complex_defl o vE) = true).
  1,3: unfold small_imag; apply forallb_forall; intros row Hr; apply forallb_forall; intros z Hz; apply Rleb_true; unfold complex_defl in Hr; apply in_map_iff in Hr as (x & <- & _); apply in_map_iff in Hz as (b & <- & Hb); apply in_seq in Hb; rewrite isum_csum; fold n;
    rewrite (proj2 (csum_parts n (fun k => sin (nth k (s_beta o) 0 * x)) (fun k => cat vE k b))); replace (sum n _) with 0; [rewrite Rabs_R0; apply Rlt_le, Rdiv_lt_0_compat; [lra|apply pow_lt; lra]|];
    unfold sum; rewrite (map_ext_in _ (fun _ => 0)); [generalize (seq 0 n); intros l; induction l as [|? l IH]; cbn [map fold_right]; lra|]; intros k Hk; apply in_seq in Hk; rewrite HV by lia; rewrite (HR k) by lia; ring.
  all: rewrite SI; cbn [bind]; split; [destruct (b_L (s_in o)); reflexivity|]; split; [unfold complex_defl; rewrite !map_length; auto|]; intros a b Ha Hb; specialize (DE a b Ha Hb); apply (f_equal fst) in DE; cbn [fst RtoC] in DE; rewrite <- DE; apply nth_fst.
Qed.
Print Assumptions C169_motion.
