(** * EpusProfile: soundness of the unit weights and stresses; what calc does not report; compression indexes; permeability *)
From Coq Require Import Reals List ZArith Bool Lia Lra String Sorting.
From Verif Require Import Base ConstitutiveModel ConstitutiveProofs ConstitutiveProofs2 SwccModel FourierModel FourierProofs2 EpusModel EpusExtModel EpusSpec EpusProofs1 EpusProofs2 EpusProofs3 EpusProfileModel PropsEpus PropsEpus3 PropsEpus4 PropsEpusExt PropsSwcc PropsEpusProfile.
Import ListNotations.
Local Open Scope R_scope.

(** ** The two implementations of EPUS as calc uses them: a new object for every point and pass *)
Definition with_Npoint (p : par) (n : nat) : par :=
  mkPar (swcc p) (logDS p) (logRS p) (Ccs p) (Css p) (CcdAll p) (Gs p) (Assumption p) (beta p) (pm p) (Pore_shape p) (K0 p) n (NumSr p) (MaxSuction p) (MinSuction p).
Definition python_epus (p : par) (n : nat) (l : list step) : result (list DataResults) :=
  r <- Calresults (with_Npoint p n) l (new_object (with_Npoint p n)) ;; Ok (snd r).
Definition fortran_epus (p : par) (m1 m2 : list R) (outside : Z -> R) (n : nat) (l : list step) : result (list DataResults) := FCalresults (with_Npoint p n) l m1 m2 outside.
Definition an_epus (p : par) (ep : nat -> list step -> result (list DataResults)) : Prop := ep = python_epus p \/ exists m1 m2 outside, ep = fortran_epus p m1 m2 outside.

Lemma get_last_in {A} (l : list A) x : get_last l = Ok x -> In x l.
Proof. intros E. unfold get_last in E. destruct (rev l) eqn:R0; [discriminate|]. apply ok_eq in E. subst. apply in_rev. rewrite R0. left. auto. Qed.
Lemma last_point_in ds d : last_point ds = Ok d -> In d (List.concat ds).
Proof. unfold last_point. intros E. destruct (get_last ds) as [x|] eqn:E1; [|discriminate]. cbn [bind] in E. apply get_last_in in E, E1. apply in_concat. eauto. Qed.
Lemma an_epus_sound p ep n l ds d sr : an_epus p ep -> 0 < Gs p -> 0 <= beta p <= 1 -> ep n l = Ok ds -> last_point ds = Ok d -> d_Sr d = Some sr -> 0 < d_e d /\ 0 <= sr <= 1 /\ sr * d_e d = Gs p * d_w d.
Proof.
  intros A G B E L S0. apply last_point_in in L.
  assert (X : 0 <= d_e d /\ 0 <= d_w d /\ d_w d * Gs (with_Npoint p n) <= d_e d /\
    match d_Sr d, d_vw d with
    | Some sr, Some v => 0 < d_e d /\ 0 <= sr <= 1 /\ sr * d_e d = Gs (with_Npoint p n) * d_w d /\ 0 <= v < 1 /\ v * (1 + d_e d) = Gs (with_Npoint p n) * d_w d
    | None, None => d_e d = 0
    | _, _ => False
    end).
  { destruct A as [->|(m1 & m2 & outside & ->)].
    - unfold python_epus in E. destruct (Calresults _ _ _) as [[o' ds']|] eqn:C; [|discriminate]. cbn [bind snd] in E. apply ok_eq in E. subst ds'. eapply C159_saturation; eauto.
    - unfold fortran_epus in E. eapply C164_saturation; eauto. }
  rewrite S0 in X. destruct (d_vw d); [|tauto]. cbn [with_Npoint Gs] in X. tauto.
Qed.

(** ** C165: unit weights and stresses are those of a soil *)
Lemma weighs_sorted (gs gw z0 : R) : 0 < gw -> forall pr t, StronglySorted Rlt (map r_z pr) -> List.Forall (fun r => r_uw r = (r_z r - z0) * gw /\ 0 < r_gam r <= gs) pr -> weighs t pr ->
  StronglySorted (fun r s => 0 < total_stress s - total_stress r <= gs * (r_z s - r_z r) /\ (r_uw s <= 0 -> r_st r < r_st s)) pr /\ match pr with [] => True | r :: _ => total_stress r = t end.
Proof.
  intros GW. induction pr as [|r pr IH]; intros t SS F W; [split; [constructor|exact I]|]. cbn [weighs] in W. destruct W as (W1 & W2). cbn [map] in SS. apply StronglySorted_inv in SS as (SS & SR). apply List.Forall_cons_iff in F as (Fr & F).
  split; [|exact W1]. destruct pr as [|r' pr]; [constructor; constructor|]. destruct (IH _ SS F W2) as (I1 & I2). constructor; [exact I1|].
  pose proof SR as SR0. apply List.Forall_cons_iff in SR as (Z' & _). apply List.Forall_cons_iff in F as (Fr' & F).
  set (g := (r_gam r + r_gam r') / 2) in *. assert (Gb : 0 < g <= gs) by (unfold g; lra).
  assert (BASE : total_stress r' - total_stress r = (r_z r' - r_z r) * g) by lra.
  assert (STEP : forall s, r_z r < r_z s -> r_uw s = (r_z s - z0) * gw -> 0 < total_stress s - total_stress r -> r_uw s <= 0 -> r_st r < r_st s).
  { intros s Zs U T N. unfold total_stress in T. rewrite (Rmax_right (r_uw s) 0) in T by lra. rewrite (Rmax_right (r_uw r) 0) in T; [lra|]. destruct Fr as (Fr & _). rewrite Fr. rewrite U in N. assert (r_z s - z0 <= 0) by (apply Rmult_le_reg_r with gw; lra). nra. }
  assert (FIRST : 0 < total_stress r' - total_stress r <= gs * (r_z r' - r_z r)) by (rewrite BASE; nra).
  constructor; [split; [exact FIRST|apply STEP; [exact Z'|tauto|lra]]|]. apply StronglySorted_inv in I1 as (_ & I1). rewrite List.Forall_forall in *. intros s IS. specialize (I1 s IS). destruct I1 as (I1 & _). assert (ZS : r_z r < r_z s). { apply SR0. cbn [map]. right. apply in_map. auto. }
  assert (T : 0 < total_stress s - total_stress r <= gs * (r_z s - r_z r)) by lra. split; [exact T|]. apply STEP; [auto|apply F; auto|lra].
Qed.
(** An EPUS that keeps to the laws of C159 and C164. *)
Definition lawful (G : R) (ep : nat -> list step -> result (list DataResults)) : Prop :=
  forall n l ds d sr, ep n l = Ok ds -> last_point ds = Ok d -> d_Sr d = Some sr -> 0 < d_e d /\ 0 <= sr <= 1 /\ sr * d_e d = G * d_w d.
Theorem C165_lawful p ep : an_epus p ep -> 0 < Gs p -> 0 <= beta p <= 1 -> lawful (Gs p) ep.
Proof. intros A G B n l ds d sr E L S0. eapply an_epus_sound; eauto. Qed.
Theorem C165_physical a ep pr ns : lawful (Gs_ a) ep -> 1 <= Gs_ a -> 0 < gamw_ a -> 0 < H_ a -> calc a ep = Ok (Some pr, ns) ->
  List.Forall (fun r => 0 < r_e r /\ 0 <= r_Sr r <= 1 /\ r_Sr r * r_e r = Gs_ a * r_w r /\ 0 < r_gam r <= Gs_ a * gamw_ a /\ (r_Sr r = 1 -> gamw_ a <= r_gam r)) pr /\
  StronglySorted (fun r s => 0 < total_stress s - total_stress r <= Gs_ a * gamw_ a * (r_z s - r_z r) /\ (r_uw s <= 0 -> r_st r < r_st s)) pr /\
  (exists r, hd_error pr = Some r /\ r_z r = 0 /\ total_stress r = q0_ a).
Proof.
  intros A G GW HH E. apply C165_calc in E as (_ & _ & f & n & prev & _ & _ & GR & U & D & W & _).
  assert (F : List.Forall (fun r => 0 < r_e r /\ 0 <= r_Sr r <= 1 /\ r_Sr r * r_e r = Gs_ a * r_w r /\ 0 < r_gam r <= Gs_ a * gamw_ a /\ (r_Sr r = 1 -> gamw_ a <= r_gam r)) pr).
  { clear - A G GW D. induction D as [|x r prev pr D0 D IH]; constructor; auto. destruct D0 as (_ & (ds & d & sr & E & L & S0 & E1 & E2 & _ & _ & E3) & GA). destruct (A _ _ _ _ _ E L S0) as (X1 & X2 & X3).
    rewrite Rmin_left in E3 by lra. rewrite E1, E2, E3. split; [auto|]. split; [auto|]. split; [auto|]. rewrite E3, E1 in GA. rewrite GA.
    assert (IN : 0 < / (1 + d_e d)) by (apply Rinv_0_lt_compat; lra). assert (V : (1 + d_e d) * / (1 + d_e d) = 1) by (apply Rinv_r; lra). assert (0 <= sr * d_e d) by nra.
    assert (N : 0 < (Gs_ a + sr * d_e d) / (1 + d_e d)) by (unfold Rdiv; apply Rmult_lt_0_compat; lra).
    assert (UP : (Gs_ a + sr * d_e d) / (1 + d_e d) <= Gs_ a). { unfold Rdiv. apply Rmult_le_reg_r with (1 + d_e d); [lra|]. rewrite Rmult_assoc, (Rmult_comm (/ _)), V. nra. }
    split; [split; [nra|nra]|]. intros ->. assert (1 <= (Gs_ a + 1 * d_e d) / (1 + d_e d)). { unfold Rdiv. apply Rmult_le_reg_r with (1 + d_e d); [lra|]. rewrite Rmult_assoc, (Rmult_comm (/ _)), V. nra. } nra. }
  split; [exact F|]. destruct (C165_grid _ _ _ HH GR) as (SS & _ & I0 & _ & BD).
  edestruct (weighs_sorted (Gs_ a * gamw_ a) (gamw_ a) (zw a) GW pr (q0_ a) SS) as (T1 & T2); [|exact W|].
  { clear - F U. induction F; constructor; inversion U; subst; auto. tauto. }
  split; [exact T1|]. destruct pr as [|r pr]; [destruct I0|]. exists r. split; [reflexivity|]. split; [|exact T2]. cbn [map] in *. destruct I0 as [<-|I0]; [auto|]. apply StronglySorted_inv in SS as (_ & SS). rewrite List.Forall_forall in SS. specialize (SS _ I0). specialize (BD (r_z r) (or_introl eq_refl)). lra.
Qed.

(** ** What calc does not report *)
Definition total (ep : nat -> list step -> result (list DataResults)) : Prop := forall n l, l <> [] -> exists ds d sr v, ep n l = Ok ds /\ last_point ds = Ok d /\ d_Sr d = Some sr /\ d_vw d = Some v.
Lemma pass_total a ep npoint npp pr : total ep -> pr <> [] -> exists pr', one_pass a ep npoint npp pr = Ok pr' /\ pr' <> [].
Proof.
  intros T N. unfold one_pass. assert (X : exists p1, e_and_Sr a ep npoint npp pr = Ok p1).
  { unfold e_and_Sr. apply mapM_exists. intros r _. unfold from_epus. destruct (T npoint (point_path a npp r)) as (ds & d & sr & v & E & L & S0 & V); [unfold point_path; destruct (Rleb _ _); discriminate|]. rewrite E. cbn [bind]. rewrite L. cbn [bind]. rewrite S0, V. eauto. }
  destruct X as (p1 & E). rewrite E. cbn [bind]. eexists. split; [reflexivity|]. destruct (pass_derived a ep npoint npp pr (stress_from_overburden a (update_density a p1))) as (D & _); [unfold one_pass; rewrite E; reflexivity|]. intros X. rewrite X in D. inversion D; subst. contradiction.
Qed.
Lemma passes_total a ep npoint npp n : total ep -> forall j pr, pr <> [] -> (0 < n)%nat -> exists pr' j', passes a ep npoint npp n j pr = Ok (pr', j') /\ pr' <> [] /\ (j' < j + n)%nat /\ (atol a < 0 -> rtol a = 0 -> S j' = (j + n)%nat).
Proof.
  intros T. induction n as [|n IH]; intros j pr N P; [lia|]. cbn [passes]. destruct (pass_total a ep npoint npp pr T N) as (p1 & E & N1). rewrite E. cbn [bind].
  destruct (close a pr p1) eqn:C; [exists p1, j; repeat (split; [solve [auto|lia]|])|destruct n as [|n]; [exists p1, j; repeat split; auto; lia|]].
  - intros A R0. exfalso. unfold close in C. apply pass_derived in E as (D & _). inversion D; subst; [contradiction|]. cbn [combine forallb fst snd] in C. apply andb_true_iff in C as (C & _). apply Base.Rleb_true in C. pose proof (Rabs_pos (r_st x - r_st y)). rewrite R0 in C. lra.
  - destruct (IH (S j) p1 N1) as (pr' & j' & -> & NE & L & K); [lia|]. exists pr', j'. split; [reflexivity|]. split; [auto|]. split; [lia|]. intros A R0. rewrite K by auto. lia.
Qed.
Lemma blank_total a nz : (2 <= nz)%nat -> exists new, blank_profile a nz = Ok new /\ new <> [].
Proof.
  intros N. destruct (proj2 (C165_grid_points a nz) N) as (g & E). unfold blank_profile. rewrite E. cbn [bind]. eexists. split; [reflexivity|]. intros X. apply map_eq_nil in X. subst g.
  unfold grid in E. destruct (get _ 1); [|discriminate]. cbn [bind] in E. destruct (get _ 0); [|discriminate]. cbn [bind] in E. apply ok_eq in E. assert (I0 : In (INR 0 * (H_ a / (INR nz - 1))) []); [rewrite <- E|destruct I0]. apply unique_in, in_app_iff. left. apply in_map_iff. exists 0%nat. split; [auto|]. apply in_seq. lia.
Qed.
Lemma refine_total a ep f old : total ep -> initial_stress a = None -> (1 <= max_iter a)%nat -> (2 <= scaled (fst f) (nz_ a))%nat -> old <> Some [] ->
  exists pr n, refine a ep f old = Ok (pr, n) /\ pr <> [] /\ (atol a < 0 -> rtol a = 0 -> n = max_iter a).
Proof.
  intros T IS M N O. unfold refine. cbn zeta. destruct (blank_total a _ N) as (new & E & NE). rewrite E. cbn [bind].
  match goal with |- exists pr n, bind ?m _ = _ /\ _ => assert (X : exists st, m = Ok st /\ st <> []) end.
  { destruct old as [o|].
    - assert (CO : combine (map r_z o) (map r_st o) <> []) by (destruct o; [contradiction|discriminate]).
      match goal with |- exists st, ?m = Ok st /\ _ => assert (Y : exists st, m = Ok st) end. { apply mapM_exists. intros r _. rewrite np_interp_ok by auto. cbn [bind]. eauto. }
      destruct Y as (st & Y). exists st. split; [exact Y|]. apply mapM_Ok_Forall2 in Y. intros ->. inversion Y; subst. contradiction.
    - unfold initialize_stress. rewrite IS. eexists. split; [reflexivity|]. intros X. apply map_eq_nil in X. contradiction. }
  destruct X as (st & -> & NS). cbn [bind]. destruct (passes_total a ep (scaled (fst f) (Npoint_ a)) (scaled (fst f) (npp_ a)) (max_iter a) T 0 st NS) as (pr' & j' & -> & NP & L & K); [lia|]. cbn [bind fst snd].
  destruct (Nat.leb_spec (max_iter a) j'); [lia|]. exists pr', (S j'). split; [reflexivity|]. split; [auto|]. intros A R0. rewrite K by auto. lia.
Qed.
(** Known defect: calc never reports that it has not converged. *)
Theorem C165_nonconvergence_refuted a ep : total ep -> initial_stress a = None -> (1 <= max_iter a)%nat -> List.Forall (fun f => (2 <= scaled f (nz_ a))%nat) (nz_refine a) ->
  exists pr ns, calc a ep = Ok (pr, ns) /\ (atol a < 0 -> rtol a = 0 -> List.Forall (fun n => n = max_iter a) ns).
Proof.
  intros T IS M N. unfold calc. assert (NF : List.Forall (fun f => (2 <= scaled (fst f) (nz_ a))%nat) (combine (nz_refine a) (combine (Npoint_refine a) (npp_refine a)))).
  { rewrite List.Forall_forall in *. intros [f g] I0. apply in_combine_l in I0. cbn [fst]. auto. }
  assert (O : @None (list row) <> Some []) by discriminate. revert O. generalize (@None (list row)) as old. induction NF as [|f l F NF IH]; intros old O; cbn [refinements]; [exists old, []; split; [auto|intros; constructor]|].
  destruct (refine_total a ep f old T IS M F O) as (pr & n & -> & NP & K). cbn [bind fst snd]. destruct (IH (Some pr)) as (pr' & ns & -> & KS); [congruence|]. cbn [bind fst snd]. exists pr', (n :: ns). split; [reflexivity|]. intros A R0. constructor; auto.
Qed.
(** Known defect: only nz_refine matters; the factors of Npoint_refine and npp_refine do not. *)
Lemma passes_ext a b ep npoint npp n : q0_ a = q0_ b -> Gs_ a = Gs_ b -> gamw_ a = gamw_ b -> MinSuc a = MinSuc b -> atol a = atol b -> rtol a = rtol b -> forall j pr, passes a ep npoint npp n j pr = passes b ep npoint npp n j pr.
Proof.
  intros Q G W M A R0. assert (O : forall pr, one_pass a ep npoint npp pr = one_pass b ep npoint npp pr). { intros pr. unfold one_pass, e_and_Sr, update_density, stress_from_overburden, point_path, floored. rewrite Q, G, W, M. reflexivity. }
  induction n as [|n IH]; intros j pr; cbn [passes]; [auto|]. rewrite O. destruct (one_pass b ep npoint npp pr) as [p1|]; cbn [bind]; [|auto]. unfold close. rewrite A, R0. destruct (forallb _ _); [auto|]. destruct n; [auto|apply IH].
Qed.
Definition with_refine (a : profile_par) (l1 l2 : list R) : profile_par :=
  mkProfilePar (MinSuc a) (Gs_ a) (H_ a) (zw_ a) (q0_ a) (gamw_ a) (nz_ a) (Npoint_ a) (npp_ a) (nz_refine a) l1 l2 (atol a) (rtol a) (max_iter a) (initial_stress a).
Theorem C165_refine_refuted a ep l1 l2 : List.length l1 = List.length (Npoint_refine a) -> List.length l2 = List.length (npp_refine a) -> calc (with_refine a l1 l2) ep = calc a ep.
Proof.
  intros L1 L2. unfold calc. cbn [with_refine nz_refine Npoint_refine npp_refine].
  assert (RE : forall f g old, fst f = fst g -> refine (with_refine a l1 l2) ep f old = refine a ep g old).
  { intros f g old FG. unfold refine. cbn zeta. rewrite FG. change (blank_profile (with_refine a l1 l2)) with (blank_profile a). change (initialize_stress (with_refine a l1 l2)) with (initialize_stress a). cbn [with_refine nz_ Npoint_ npp_ max_iter]. destruct (blank_profile a _); [|auto]. cbn [bind]. destruct old as [o|].
    - destruct (mapM _ _); [|auto]. cbn [bind]. rewrite (passes_ext (with_refine a l1 l2) a) by reflexivity. reflexivity.
    - destruct (initialize_stress _ _); [|auto]. cbn [bind]. rewrite (passes_ext (with_refine a l1 l2) a) by reflexivity. reflexivity. }
  assert (RS : forall l m old, map fst l = map fst m -> refinements (with_refine a l1 l2) ep l old = refinements a ep m old).
  { induction l as [|f l IH]; intros [|g m] old E; try discriminate; [reflexivity|]. cbn [map] in E. injection E as E1 E2. cbn [refinements]. rewrite (RE f g) by auto. destruct (refine a ep g old) as [r|]; [|auto]. cbn [bind]. rewrite (IH m) by auto. reflexivity. }
  apply RS. revert L1 L2. generalize (Npoint_refine a) as k1. generalize (npp_refine a) as k2. generalize (nz_refine a) as k. clear. intros k k2 k1. revert k k2 k1 l2. induction l1 as [|x l1 IH]; intros k k2 k1 l2 A B; destruct k1 as [|y k1]; try discriminate; [destruct k; reflexivity|]. destruct l2 as [|u l2], k2 as [|v k2]; try discriminate; [destruct k; reflexivity|]. destruct k as [|w k]; [reflexivity|]. cbn [combine map fst]. f_equal. apply IH; cbn in *; lia.
Qed.

(** A case: ten metres, water table at four metres, and an EPUS that always answers e = 1, w = 10/27, Sr = 1. *)
Definition plain_epus : nat -> list step -> result (list DataResults) := fun _ l => Ok (map (fun s => [mkDatum 1 (vl s) 1 (10 / 27) (Some 1) (Some (1 / 2))]) l).
Definition ten_metres : profile_par := mkProfilePar (-3) (27 / 10) 10 (Some 4) 20 (981 / 100) 50 1000 100 [1; 1] [1; 1] [1; 1] (1 / 10) (1 / 100) 50 None.
Lemma plain_last l : l <> [] -> exists d, last_point (map (fun s => [mkDatum 1 (vl s) 1 (10 / 27) (Some 1) (Some (1 / 2))]) l) = Ok d /\ d_e d = 1 /\ d_w d = 10 / 27 /\ d_Sr d = Some 1 /\ d_vw d = Some (1 / 2).
Proof.
  intros N. destruct (exists_last N) as (l' & s & ->). exists (mkDatum 1 (vl s) 1 (10 / 27) (Some 1) (Some (1 / 2))). rewrite map_app. unfold last_point, get_last. rewrite rev_app_distr. cbn. auto.
Qed.
Example C165_example : lawful (Gs_ ten_metres) plain_epus /\ total plain_epus /\ 1 <= Gs_ ten_metres /\ 0 < gamw_ ten_metres /\ 0 < H_ ten_metres /\
  List.Forall (fun f => (2 <= scaled f (nz_ ten_metres))%nat) (nz_refine ten_metres) /\ exists pr ns, calc ten_metres plain_epus = Ok (Some pr, ns).
Proof.
  assert (T : total plain_epus). { intros n l N. destruct (plain_last l N) as (d & L & _ & _ & S0 & V). unfold plain_epus. eauto 10. }
  assert (SC : scaled 1 50 = 50%nat). { unfold scaled, py_int, Rltb. destruct (Rlt_dec _ _) as [X|X]; [pose proof (pos_INR 50); lra|]. rewrite Rmult_1_l. rewrite Int_part_INR. apply Nat2Z.id. }
  split; [|split; [exact T|]].
  { intros n l ds d sr E L S0. unfold plain_epus in E. apply ok_eq in E. subst ds. assert (N : l <> []) by (intros ->; discriminate). destruct (plain_last l N) as (d' & L' & E1 & E2 & E3 & _). rewrite L in L'. apply ok_eq in L'. subst d'. rewrite S0 in E3. injection E3 as ->. rewrite E1, E2. cbn [Gs_ ten_metres]. lra. }
  split; [cbn; lra|]. split; [cbn; lra|]. split; [cbn; lra|].
  assert (F : List.Forall (fun f => (2 <= scaled f (nz_ ten_metres))%nat) (nz_refine ten_metres)). { cbn [ten_metres nz_refine nz_]. apply List.Forall_cons; [rewrite SC; lia|apply List.Forall_cons; [rewrite SC; lia|apply List.Forall_nil]]. }
  split; [exact F|]. unfold calc. cbn [ten_metres nz_refine Npoint_refine npp_refine combine refinements].
  destruct (refine_total ten_metres plain_epus (1, (1, 1)) None T eq_refl) as (pr & n & -> & NP & _); [cbn; lia|cbn [fst ten_metres nz_]; rewrite SC; lia|discriminate|]. cbn [bind fst snd].
  destruct (refine_total ten_metres plain_epus (1, (1, 1)) (Some pr) T eq_refl) as (pr' & n' & -> & _ & _); [cbn; lia|cbn [fst ten_metres nz_]; rewrite SC; lia|congruence|]. cbn [bind fst snd]. eauto.
Qed.
