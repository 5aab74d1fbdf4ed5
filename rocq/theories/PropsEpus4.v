(** * EPUS: when Calresults succeeds, when it cannot; a run *)
From Coq Require Import Reals List ZArith Bool Lia Lra String.
From Coquelicot Require Import Rcomplements.
From Verif Require Import Base ConstitutiveModel ConstitutiveProofs LnBounds SwccModel EpusModel EpusSpec EpusProofs1 EpusProofs2 EpusProofs3 PropsEpus PropsEpus2 PropsEpus3.
Import ListNotations.
Local Open Scope R_scope.

Lemma fdiv_nz a b : b <> 0 -> fdiv a b = Ok (a / b).
Proof. intros H. unfold fdiv. rewrite Reqb_false; auto. Qed.
(** Parameters with which nothing is divided by zero. *)
Definition runnable (p : par) : Prop :=
  0 < sw_a (swcc p) /\ 0 < sw_b (swcc p) /\ Ccs p <> 0 /\ logRS p <> 0 /\ - (1 / 2) < K0 p /\ (2 <= NumSr p)%nat /\ MinSuction p < MaxSuction p /\
  ln (27 / 10 * sw_a (swcc p)) / sw_b (swcc p) <> 6 * ln 10 /\
  (forall i, (i < Npoint p)%nat -> sw_wsat (swcc p) * Gs p - Ccs p * (MinSuction p + INR i * ((MaxSuction p - MinSuction p) / INR (Npoint p))) - sw_wr (swcc p) * Gs p <> 0).
(** Steps that can be run: positive values, suctions between 10^MinSuction and 10^MaxSuction, not a single point. *)
Definition runnable_step (p : par) (s : step) : Prop := 0 < vl s /\ npp s <> 1%nat /\ (ist s = false -> Rpower 10 (MinSuction p) <= vl s <= Rpower 10 (MaxSuction p)).

Section Total.
Variable p : par.
Hypothesis HR : runnable p.
Lemma cs_total Str m s : 0 < Str -> 0 < s -> exists c, ChangeSuction p Str m s = Ok c /\ 0 < c.
Proof.
  intros S I. destruct HR as (A & B & _). unfold ChangeSuction, Rleb. destruct (Rle_dec (1 * m) s); [exists 1; split; [auto|lra]|].
  rewrite fdiv_nz by lra. cbn [bind]. destruct (Rle_dec _ s); [exists 1; split; [auto|lra]|]. rewrite log10M_pos by auto. cbn [bind].
  destruct (Rle_dec _ 0); [exists 1; split; [auto|lra]|]. rewrite !log10M_pos by lra. cbn [bind].
  match goal with |- exists c, (if (if ?b then _ else _) then _ else _) = Ok c /\ _ => destruct b end; [exists 1; split; [auto|lra]|]. eexists. split; [reflexivity|]. lra.
Qed.
Definition no_singular (q : pore) : Prop := sw_wsat (swcc p) * Gs p - Ccs p * AEV q - sw_wr (swcc p) * Gs p <> 0.
Lemma cws_total Str m q w : 0 < Str -> 0 < w -> no_singular q -> exists c, ChangeWetSuction p Str m (pow10 (AEV q)) w = Ok c /\ 0 < c.
Proof.
  intros S W N. destruct HR as (A & B & _). unfold ChangeWetSuction, Rleb, Rltb. assert (I := pow10_pos (AEV q)). destruct (Rle_dec (1 * m) _); [exists 1; split; [auto|lra]|].
  rewrite fdiv_nz by lra. cbn [bind]. destruct (Rle_dec _ (pow10 (AEV q))); [exists 1; split; [auto|lra]|]. rewrite log10M_pos by auto. cbn [bind]. rewrite log10_pow10.
  destruct (Rlt_dec _ 0); [exists 1; split; [auto|lra]|]. rewrite !log10M_pos by lra. cbn [bind]. rewrite fdiv_nz by (unfold no_singular in N; lra). cbn [bind].
  match goal with |- exists c, (if (if ?b then _ else _) then _ else _) = Ok c /\ _ => destruct b end; [exists 1; split; [auto|lra]|]. eexists. split; [reflexivity|]. lra.
Qed.
Lemma dry_total Str ss q : 0 < Str -> 0 < ss -> 0 < YieldSt q -> exists q', dry_pore p Str ss q = Ok q'.
Proof.
  intros S W Y. unfold dry_pore. destruct (Filled q); [|eauto]. assert (I := pow10_pos (AEV q)). destruct (cs_total Str (YieldSt q) _ S I) as (c0 & E0 & C0). rewrite E0. cbn [bind].
  destruct (Rleb _ ss).
  - set (ys := if Rltb (YieldSt q) (Str + pow10 (AEV q)) then _ else _). destruct (cs_total Str ys _ S I) as (c1 & E1 & C1). rewrite E1. cbn [bind]. set (y := if Rltb (YieldSt q) (Str + pow10 (AEV q) / c1) then _ else _).
    assert (D : 0 < pow10 (AEV q) / c1) by (apply Rdiv_lt_0_compat; auto). assert (Y0 : 0 < y) by (unfold y, Rltb; destruct (Rlt_dec _ _); lra). rewrite !volume_pos by lra. cbn [bind]. eauto.
  - assert (Y0 : 0 < (if Rltb (YieldSt q) (Str + ss) then Str + ss else YieldSt q)) by (unfold Rltb; destruct (Rlt_dec _ _); lra). rewrite !volume_pos by lra. cbn [bind]. eauto.
Qed.
Lemma dry_yield_total ref st above q : Assumption p <> 1%Z -> exists q', dry_yield p ref st above q = Ok q'.
Proof. intros H. unfold dry_yield. destruct (Z.eqb_spec (Assumption p) 1); [contradiction|]. cbn. eauto. Qed.
Lemma wet_total Str ref ss q : Assumption p <> 1%Z -> 0 < Str -> 0 < ss -> 0 < YieldSt q -> no_singular q -> exists q', wet_pore p Str ref ss q = Ok q'.
Proof.
  intros A S W Y N. unfold wet_pore. assert (I := pow10_pos (WEV q)). destruct (Filled q); cbn [negb].
  - assert (Y0 : 0 < (if Rltb (YieldSt q) (Str + ss) then Str + ss else YieldSt q)) by (unfold Rltb; destruct (Rlt_dec _ _); lra). rewrite !volume_pos by lra. cbn [bind]. eauto.
  - set (ys := if Rltb (YieldSt q) (Str + pow10 (WEV q)) then _ else _). destruct (cws_total Str ys q _ S I N) as (c & E & C). rewrite E. cbn [bind]. destruct (Rleb ss _).
    + assert (D : 0 < pow10 (WEV q) / c) by (apply Rdiv_lt_0_compat; auto). assert (Y0 : 0 < (if Rltb (YieldSt q) (pow10 (WEV q) / c + Str) then pow10 (WEV q) / c + Str else YieldSt q)) by (unfold Rltb; destruct (Rlt_dec _ _); lra).
      rewrite !volume_pos by lra. cbn [bind]. eauto.
    + apply dry_yield_total. auto.
Qed.
Lemma load_total Str Suc ref st q : Assumption p <> 1%Z -> 0 < Str -> 0 < Suc -> 0 < st -> 0 < YieldSt q -> no_singular q -> exists q', load_pore p Str Suc ref st q = Ok q'.
Proof.
  intros A S W T Y N. unfold load_pore. assert (I := pow10_pos (WEV q)). destruct (Filled q).
  - assert (Y0 : 0 < (if Rltb (YieldSt q) (st + Suc) then st + Suc else YieldSt q)) by (unfold Rltb; destruct (Rlt_dec _ _); lra). rewrite !volume_pos by lra. cbn [bind]. eauto.
  - set (ys := if Rltb (YieldSt q) (st + pow10 (WEV q)) then _ else _). assert (Y0 : 0 < ys) by (unfold ys, Rltb; destruct (Rlt_dec _ _); lra).
    destruct (cws_total Str ys q _ S I N) as (c & E & C). rewrite E. cbn [bind]. destruct (Rltb Suc _); [|apply dry_yield_total; auto]. rewrite !volume_pos by lra. cbn [bind]. eauto.
Qed.
Lemma unload_total Suc st q : 0 < Suc -> 0 < st -> 0 < YieldSt q -> exists q', unload_pore p Suc st q = Ok q'.
Proof. intros. unfold unload_pore. destruct (Filled q); [|eauto]. rewrite volume_pos by lra. cbn [bind]. eauto. Qed.
Lemma mapM_exists {A B} (f : A -> result B) l : (forall a, In a l -> exists b, f a = Ok b) -> exists r, mapM f l = Ok r.
Proof. induction l as [|a l IH]; intros H; [cbn; eauto|]. destruct (H a) as (b & E); [cbn; auto|]. destruct IH as (r & E2); [intros; apply H; cbn; auto|]. cbn [mapM]. rewrite E, E2. cbn [bind]. eauto. Qed.

Definition alive (o : state) : Prop :=
  List.Forall (fun q => 0 < YieldSt q /\ no_singular q) (pores o) /\ 0 < Suction o /\ 0 < Stress o /\ List.length (Srdry o) = NumSr p /\ List.length (Srwet o) = NumSr p.
Lemma index_ok l ss : List.length l = NumSr p -> Rpower 10 (MinSuction p) <= ss <= Rpower 10 (MaxSuction p) -> exists r, bind (RfSr_index p ss) (np_index l) = Ok r.
Proof.
  intros L H. destruct HR as (_ & _ & _ & _ & _ & N & M & _). assert (E : forall x, Rpower 10 x = pow10 x) by (intros; unfold Rpower, pow10; f_equal; ring). rewrite !E in H.
  assert (P0 := pow10_pos (MinSuction p)). assert (S0 : 0 < ss) by lra. assert (L1 := log10_le _ _ P0 (proj1 H)). assert (L2 := log10_le _ _ S0 (proj2 H)). rewrite log10_pow10 in L1, L2.
  assert (N1 : 1 <= INR (NumSr p) - 1) by (apply le_INR in N; cbn in N; lra). unfold RfSr_index. rewrite log10M_pos by auto. cbn [bind]. rewrite fdiv_nz by lra. cbn [bind].
  assert (H0 : 0 < (MaxSuction p - MinSuction p) / (INR (NumSr p) - 1)) by (apply Rdiv_lt_0_compat; lra). rewrite fdiv_nz by lra. cbn [bind].
  set (x := (log10 ss - MinSuction p) / ((MaxSuction p - MinSuction p) / (INR (NumSr p) - 1))).
  assert (X0 : 0 <= x) by (apply Rmult_le_pos; [lra|left; apply Rinv_0_lt_compat; auto]).
  assert (X1 : x <= INR (NumSr p) - 1). { unfold x. apply Rmult_le_reg_r with ((MaxSuction p - MinSuction p) / (INR (NumSr p) - 1)); auto. unfold Rdiv at 1. rewrite Rmult_assoc, Rinv_l by lra. rewrite Rmult_1_r. replace ((INR (NumSr p) - 1) * ((MaxSuction p - MinSuction p) / (INR (NumSr p) - 1))) with (MaxSuction p - MinSuction p) by (field; lra). lra. }
  clearbody x. unfold py_int, np_index. rewrite (proj2 (Base.Rltb_false x 0)) by lra || (unfold Rltb; destruct (Rlt_dec x 0); [lra|]).
  destruct (base_Int_part x) as (B1 & B2). assert (I0 : (0 <= Int_part x)%Z). { assert (IZR (-1) < IZR (Int_part x)) by (cbn; lra). apply lt_IZR in H1. lia. }
  assert (I1 : (Int_part x < Z.of_nat (NumSr p))%Z). { apply lt_IZR. rewrite <- INR_IZR_INZ. lra. }
  destruct (Z.ltb_spec (Int_part x) 0); [lia|]. cbn zeta. destruct (Z.ltb_spec (Int_part x) 0); [lia|]. destruct (nth_error l (Z.to_nat (Int_part x))) eqn:NE; [eauto|]. apply nth_error_None in NE. rewrite L in NE. lia.
Qed.
Lemma call_total m o : Assumption p <> 1%Z -> alive o ->
  match m with Dry x | Wet x => Rpower 10 (MinSuction p) <= x <= Rpower 10 (MaxSuction p) | Load x | Unload x => 0 < x end -> exists o', call p m o = Ok o' /\ alive o'.
Proof.
  intros AS (A1 & A2 & A3 & A4 & A5) H. assert (X : exists o', call p m o = Ok o').
  { assert (PP : forall x, 0 < Rpower 10 x) by (intros; apply exp_pos). rewrite Forall_forall in A1. destruct m; cbn [call].
    - assert (0 < ss) by (specialize (PP (MinSuction p)); lra). unfold Drying. assert (R : exists cr, dry_reference p o ss = Ok cr). { destruct (index_ok _ _ A4 H) as (r & E). change (RfSr_dry p o ss = Ok r) in E. unfold dry_reference. rewrite !E. cbn [bind]. destruct (Z.eqb _ 1); [eauto|]. destruct (_ || _)%bool; eauto. }
      destruct R as (cr & ->). cbn [bind]. destruct (mapM_exists (dry_pore p (Stress o) ss) (pores o)) as (f & ->); [intros q I; apply dry_total; auto; apply A1; auto|]. cbn [bind]. eauto.
    - assert (0 < ss) by (specialize (PP (MinSuction p)); lra). unfold Wetting. assert (R : exists cr, wet_reference p o ss = Ok cr). { destruct (index_ok _ _ A5 H) as (r & E). change (RfSr_wet p o ss = Ok r) in E. unfold wet_reference. rewrite !E. cbn [bind]. destruct (_ || _)%bool; [eauto|]. destruct (Z.eqb _ 3); eauto. }
      destruct R as (cr & ->). cbn [bind]. destruct (mapM_exists (wet_pore p (Stress o) (RefSr o) ss) (pores o)) as (f & ->); [intros q I; apply wet_total; auto; apply A1; auto|]. cbn [bind]. eauto.
    - unfold Loading. destruct (mapM_exists (load_pore p (Stress o) (Suction o) (RefSr o) st) (pores o)) as (f & ->); [intros q I; apply load_total; auto; apply A1; auto|]. cbn [bind]. eauto.
    - unfold Unloading. destruct (mapM_exists (unload_pore p (Suction o) st) (pores o)) as (f & ->); [intros q I; apply unload_total; auto; apply A1; auto|]. cbn [bind]. eauto. }
  destruct X as (o' & E). exists o'. split; auto. pose proof (method_groups _ _ _ _ E) as G. pose proof (call_state _ _ _ _ E) as C. pose proof (call_Sr _ _ _ _ E) as (D1 & D2). unfold alive. rewrite D1, D2.
  split. { clear - G A1. revert A1. induction G as [|q q' l r ((E & _) & Y & _) G IH]; intros F; constructor; inversion F; subst; auto. destruct H1 as (H1 & H3). split; [lra|]. unfold no_singular in *. rewrite E. auto. }
  assert (PP : 0 < Rpower 10 (MinSuction p)) by apply exp_pos. destruct m; destruct C as (-> & ->); repeat split; auto; lra.
Qed.
Lemma geometric_between c v n x lo hi : 0 < c -> 0 < v -> lo <= c <= hi -> lo <= v <= hi -> In x (geometric c v n) -> n <> 1%nat -> lo <= x <= hi.
Proof.
  intros C V LC LV I N. destruct (In_nth_error _ _ I) as (j & E). assert (L : (j < n)%nat). { rewrite <- (geometric_length c v n). apply nth_error_Some. congruence. }
  assert (F : nth_error (geometric c v n) 0 = Some c) by (apply C163_geometric; auto; lia). assert (G : nth_error (geometric c v n) (n - 1) = Some v) by (apply C163_geometric; auto; lia).
  destruct (Rle_dec c v).
  - assert (M : forall i k a b, (i <= k)%nat -> nth_error (geometric c v n) i = Some a -> nth_error (geometric c v n) k = Some b -> a <= b). { apply (chain Rle); [intros; lra|intros; lra|]. intros k a b E1 E2. destruct (geometric_step _ _ _ _ _ _ C V E1 E2) as (X & _). auto. }
    assert (c <= x) by (apply (M 0%nat j); auto; lia). assert (x <= v) by (apply (M j (n - 1)%nat); auto; lia). lra.
  - assert (M : forall i k a b, (i <= k)%nat -> nth_error (geometric c v n) i = Some a -> nth_error (geometric c v n) k = Some b -> b <= a). { apply (chain (fun a b => b <= a)); [intros; lra|intros; lra|]. intros k a b E1 E2. destruct (geometric_step _ _ _ _ _ _ C V E1 E2) as (_ & X). apply X. lra. }
    assert (x <= c) by (apply (M 0%nat j); auto; lia). assert (v <= x) by (apply (M j (n - 1)%nat); auto; lia). lra.
Qed.
Lemma run_points_total go js : Assumption p <> 1%Z -> (forall j o, In j js -> alive o -> let '(op, _, _) := go j in exists o', op o = Ok o' /\ alive o') -> forall o, alive o -> exists r, run_points p go js o = Ok r /\ alive (fst r).
Proof.
  intros AS. induction js as [|j js IH]; intros H o A; cbn [run_points]; [exists (o, []); auto|]. pose proof (H j o (or_introl eq_refl) A) as X. destruct (go j) as [[op ss] st]. destruct X as (o' & -> & A'). cbn [bind].
  destruct (IH (fun j o I => H j o (or_intror I)) o' A') as (r & -> & A''). cbn [bind]. eexists. split; [reflexivity|]. auto.
Qed.
Lemma run_step_total s cs ct o : Assumption p <> 1%Z -> runnable_step p s -> alive o -> Rpower 10 (MinSuction p) <= cs <= Rpower 10 (MaxSuction p) -> 0 < ct ->
  exists o' d, run_step p s cs ct o = Ok (o', d, if ist s then (cs, vl s) else (vl s, ct)) /\ alive o'.
Proof.
  intros AS (V & N & SU) A CS CT. assert (PP : 0 < Rpower 10 (MinSuction p)) by apply exp_pos. assert (CS0 : 0 < cs) by lra.
  assert (N1 : INR (npp s) - 1 <> 0). { intros X. assert (INR (npp s) = INR 1) by (cbn; lra). apply INR_eq in H. contradiction. }
  assert (K : 0 < CVStress p). { destruct HR as (_ & _ & _ & _ & K & _). unfold CVStress. lra. }
  assert (IV : forall c, 0 < c -> interval (vl s) c (npp s) = Ok ((log10 (vl s) - log10 c) / (INR (npp s) - 1))) by (intros c C; unfold interval; rewrite !log10M_pos by auto; cbn [bind]; apply fdiv_nz; auto).
  unfold run_step. destruct (ist s) eqn:I.
  - rewrite IV by auto. cbn [bind]. edestruct (run_points_total (fun j => let st := pow10 (INR j * ((log10 (vl s) - log10 ct) / (INR (npp s) - 1)) + log10 ct) in
      (if Rltb 0 ((log10 (vl s) - log10 ct) / (INR (npp s) - 1)) then Loading p (st * CVStress p) else Unloading p (st * CVStress p), cs, st)) (seq 0 (npp s)) AS) as (r & E & A').
    { intros j o' _ Ao. cbn zeta. set (st := pow10 _). assert (0 < st * CVStress p) by (apply Rmult_lt_0_compat; auto; apply pow10_pos). destruct (Rltb 0 _); [apply (call_total (Load (st * CVStress p))); auto|apply (call_total (Unload (st * CVStress p))); auto]. }
    { exact A. } cbn zeta in E. rewrite E. cbn [bind]. exists (fst r), (snd r). auto.
  - rewrite IV by auto. cbn [bind]. edestruct (run_points_total (fun j => let ss := pow10 (INR j * ((log10 (vl s) - log10 cs) / (INR (npp s) - 1)) + log10 cs) in
      (if Rltb 0 ((log10 (vl s) - log10 cs) / (INR (npp s) - 1)) then Drying p ss else Wetting p ss, ss, ct)) (seq 0 (npp s)) AS) as (r & E & A').
    { intros j o' J Ao. cbn zeta. rewrite progression by auto. set (ss := cs * _). assert (HB : Rpower 10 (MinSuction p) <= ss <= Rpower 10 (MaxSuction p)). { apply (geometric_between cs (vl s) (npp s)); auto. unfold geometric, ss. apply (in_map (fun j => cs * Rpower (vl s / cs) (INR j / (INR (npp s) - 1)))). auto. }
      destruct (Rltb 0 _); [apply (call_total (Dry ss)); auto|apply (call_total (Wet ss)); auto]. }
    { exact A. } cbn zeta in E. rewrite E. cbn [bind]. exists (fst r), (snd r). auto.
Qed.
Lemma run_steps_total l : Assumption p <> 1%Z -> List.Forall (runnable_step p) l -> forall cs ct o, alive o -> Rpower 10 (MinSuction p) <= cs <= Rpower 10 (MaxSuction p) -> 0 < ct -> exists r, run_steps p l cs ct o = Ok r.
Proof.
  intros AS. induction 1 as [|s l S L IH]; intros cs ct o A CS CT; cbn [run_steps]; [eauto|]. destruct (run_step_total s cs ct o AS S A CS CT) as (o' & d & -> & A'). cbn [bind].
  destruct S as (V & _ & SU). destruct (ist s); (match goal with |- context [run_steps p l ?a ?b ?c] => destruct (IH a b c) as (r & ->) end); auto; cbn [bind]; eauto.
Qed.
Lemma slurry_total o : List.length (Srdry o) = NumSr p -> List.length (Srwet o) = NumSr p -> exists o', SlurryPoreSize p o = Ok o' /\ alive o'.
Proof.
  intros L1 L2. destruct HR as (A & B & C & D & K & N & M & L & Z).
  assert (X : forall i, (i < Npoint p)%nat -> exists q, slurry_pore p i = Ok q /\ 0 < YieldSt q /\ no_singular q).
  { intros i I. unfold slurry_pore, dry_pore_size. cbn zeta. rewrite (fdiv_nz 1 (sw_b (swcc p))) by lra. cbn [bind]. rewrite (fdiv_nz _ (Ccs p)) by auto. cbn [bind]. rewrite !(fdiv_nz _ (logRS p)) by auto. cbn [bind].
    rewrite (fdiv_nz 1 (sw_b (swcc p) / logRS p)) by (apply Rmult_integral_contrapositive_currified; [lra|apply Rinv_neq_0_compat; auto]). cbn [bind].
    assert (LL : log10 (Rpower (27 / 10 * sw_a (swcc p)) (1 / sw_b (swcc p))) = ln (27 / 10 * sw_a (swcc p)) / sw_b (swcc p) / ln 10). { unfold log10, Rpower. rewrite ln_exp. unfold Rdiv. ring. }
    rewrite LL. assert (L10 := ln10_pos). destruct (Rltb _ _).
    - rewrite fdiv_nz. 2:{ intros E. apply L. apply Rmult_eq_reg_r with (/ ln 10); [|apply Rinv_neq_0_compat; lra]. unfold Rdiv in E. rewrite Rmult_assoc, Rinv_r, Rmult_1_r by lra. unfold Rdiv. lra. }
      cbn [bind]. eexists. split; [reflexivity|]. unfold no_singular. cbn [YieldSt AEV]. split; [lra|]. rewrite (Rplus_comm _ (MinSuction p)). apply Z. auto.
    - cbn [bind]. eexists. split; [reflexivity|]. unfold no_singular. cbn [YieldSt AEV]. split; [lra|]. rewrite (Rplus_comm _ (MinSuction p)). apply Z. auto. }
  unfold SlurryPoreSize. destruct (mapM_exists (slurry_pore p) (seq 0 (Npoint p))) as (f & E). { intros i I. apply in_seq in I. destruct (X i) as (q & Q & _); [lia|]. eauto. }
  rewrite E. cbn [bind]. eexists. split; [reflexivity|]. unfold alive. cbn [pores Suction Stress Srdry Srwet]. assert (P0 := pow10_pos (MinSuction p)). repeat (match goal with |- _ /\ _ => split end); auto; [|lra].
  apply mapM_Ok_Forall2 in E. assert (IN : forall i, In i (seq 0 (Npoint p)) -> (i < Npoint p)%nat) by (intros i I; apply in_seq in I; lia). revert IN E. generalize (seq 0 (Npoint p)). intros l IN E. induction E as [|i q l f E1 E IH]; constructor.
  - destruct (X i) as (q' & Q & Y); [apply IN; cbn; auto|]. rewrite E1 in Q. injection Q as <-. exact Y.
  - apply IH. intros j J. apply IN. cbn. auto.
Qed.
End Total.
(** C163: with dry pores incompressible (Assumption other than 1) every sensible path runs through. *)
Theorem C163_runs p l o : runnable p -> Assumption p <> 1%Z -> used p o -> List.Forall (runnable_step p) l -> exists r, Calresults p l o = Ok r.
Proof.
  intros HR AS U L. destruct (used_lengths _ _ U) as (L1 & L2 & _). unfold Calresults. destruct (Z.eqb_spec (Assumption p) 1); [contradiction|]. cbn [bind]. destruct (slurry_total p HR o L1 L2) as (o' & E & A). rewrite E. cbn [bind].
  apply slurry_all in E as (_ & _ & S1 & S2 & _). rewrite S1, S2. assert (P0 := pow10_pos (MinSuction p)). apply run_steps_total; auto; [|lra].
  assert (E : forall x, Rpower 10 x = pow10 x) by (intros; unfold Rpower, pow10; f_equal; ring). rewrite !E. destruct HR as (_ & _ & _ & _ & _ & _ & M & _). split; [lra|]. apply pow10_mono. lra.
Qed.
(** Values of zero or less cannot be run. *)
Theorem C163_bad_values p l s o : In s l -> vl s <= 0 -> exists e, Calresults p l o = Err e.
Proof.
  intros I B. destruct (Calresults p l o) as [r|e] eqn:E; [|eauto]. exfalso.
  apply calresults_run in E as (oa & ob & S & R). apply path_positive in R. rewrite Forall_forall in R. specialize (R _ I). lra.
Qed.
(** Known defect: with the documented defaults (logRS = 0) nothing can be calculated. *)
Theorem C163_defaults_refuted c l o : Calresults (default_par c) l o = Err ZeroDivisionError.
Proof.
  assert (X : forall i, dry_pore_size (default_par c) i = Err ZeroDivisionError).
  { intros i. unfold dry_pore_size. cbn zeta. cbn [default_par make_par swcc logDS logRS Ccs Css CcdAll Gs Npoint MaxSuction MinSuction]. unfold fdiv at 1. destruct (Reqb _ 0); [reflexivity|]. cbn [bind]. unfold fdiv at 1. destruct (Reqb _ 0); [reflexivity|]. cbn [bind].
    unfold fdiv at 1. rewrite Reqb_true by reflexivity. reflexivity. }
  assert (S : forall o, SlurryPoreSize (default_par c) o = Err ZeroDivisionError). { intros o'. unfold SlurryPoreSize. change (Npoint (default_par c)) with 1000%nat. change (seq 0 1000) with (0%nat :: seq 1 999). cbn [mapM]. unfold slurry_pore at 1. rewrite X. reflexivity. }
  unfold Calresults. change (Assumption (default_par c)) with 1%Z. cbn [Z.eqb Pos.eqb]. unfold DegreeofsaturationSWCC. rewrite S. reflexivity.
Qed.
