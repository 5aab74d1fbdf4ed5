(** * EpusProfile: the grid, the hydrostatic pressure, the equilibrium that calc returns *)
From Coq Require Import Reals List ZArith Bool Lia Lra String Sorting.
From Verif Require Import Base ConstitutiveModel ConstitutiveProofs SwccModel FourierModel FourierProofs2 EpusModel EpusExtModel EpusSpec EpusProofs1 EpusProofs2 EpusProofs3 EpusProfileModel PropsEpus PropsEpusExt.
Import ListNotations.
Local Open Scope R_scope.

Lemma ok_eq {A} (x y : A) : Ok x = Ok y -> x = y.
Proof. congruence. Qed.

(** ** C165: the grid *)
Theorem C165_grid a nz g : 0 < H_ a -> grid a nz = Ok g ->
  let d := H_ a / (INR nz - 1) / 5 in
  StronglySorted Rlt g /\
  (forall z, In z g <-> (exists k, (k < nz)%nat /\ z = INR k * H_ a / (INR nz - 1)) \/ ((z = zw a - d \/ z = zw a \/ z = zw a + d) /\ 0 < z < H_ a)) /\
  In 0 g /\ In (H_ a) g /\ (forall z, In z g -> 0 <= z <= H_ a).
Proof.
  intros HH E d. unfold grid in E. set (zt := map _ (seq 0 nz)) in E. destruct nz as [|[|n]]; [discriminate|discriminate|]. set (m := S (S n)) in *.
  assert (N1 : 0 < INR m - 1) by (unfold m; rewrite !S_INR; pose proof (pos_INR n); lra).
  assert (G1 : get zt 1 = Ok (INR 1 * (H_ a / (INR m - 1)))) by reflexivity. assert (G0 : get zt 0 = Ok (INR 0 * (H_ a / (INR m - 1)))) by reflexivity. rewrite G1, G0 in E. cbn [bind] in E.
  assert (D : (INR 1 * (H_ a / (INR m - 1)) - INR 0 * (H_ a / (INR m - 1))) / 5 = d) by (unfold d; cbn [INR]; field; lra). rewrite D in E. apply ok_eq in E. subst g.
  assert (I : forall z, In z (unique (zt ++ filter (fun z => (Rltb 0 z && Rltb z (H_ a))%bool) [zw a - d; zw a; zw a + d])) <-> (exists k, (k < m)%nat /\ z = INR k * H_ a / (INR m - 1)) \/ ((z = zw a - d \/ z = zw a \/ z = zw a + d) /\ 0 < z < H_ a)).
  { intros z. rewrite unique_in, in_app_iff, filter_In. unfold zt. rewrite in_map_iff. rewrite andb_true_iff, !Base.Rltb_true. cbn [In]. split.
    - intros [(k & <- & K)|(K & L)]; [left; exists k; apply in_seq in K; split; [lia|unfold Rdiv; ring]|right]. intuition auto.
    - intros [(k & K & ->)|(K & L)]; [left; exists k; split; [unfold Rdiv; ring|apply in_seq; lia]|right; intuition auto]. }
  split; [apply unique_sorted|]. split; [exact I|]. split; [apply I; left; exists 0%nat; split; [lia|cbn [INR]; unfold Rdiv; ring]|]. split.
  - apply I. left. exists (S n). split; [lia|]. unfold m. rewrite !S_INR. field. unfold m in N1. rewrite !S_INR in N1. lra.
  - intros z Z. apply I in Z as [(k & K & ->)|(_ & Z)]; [|lra]. assert (0 <= INR k) by apply pos_INR. assert (INR k <= INR m - 1). { assert (INR k <= INR (m - 1)) by (apply le_INR; lia). rewrite minus_INR in H0 by lia. cbn [INR] in H0. lra. }
    assert (IN : 0 < / (INR m - 1)) by (apply Rinv_0_lt_compat; auto). split; [apply Rmult_le_pos; [apply Rmult_le_pos; lra|lra]|]. apply Rmult_le_reg_r with (INR m - 1); auto. unfold Rdiv. rewrite Rmult_assoc, Rinv_l by lra. nra.
Qed.
(** Fewer than two points are refused. *)
Theorem C165_grid_points a nz : (exists g, grid a nz = Ok g) <-> (2 <= nz)%nat.
Proof. destruct nz as [|[|n]]; [split; [intros (g & E); discriminate|lia]|split; [intros (g & E); discriminate|lia]|split; [lia|intros _; unfold grid; cbn; eauto]]. Qed.
(** Hydrostatic pore water pressure, suction above the water table. *)
Theorem C165_hydrostatic a nz pr : blank_profile a nz = Ok pr -> grid a nz = Ok (map r_z pr) /\ List.Forall (fun r => r_uw r = (r_z r - zw a) * gamw_ a /\ r_ss r = Rmax 0 (- r_uw r)) pr.
Proof.
  unfold blank_profile. intros E. destruct (grid a nz) as [g|]; [|discriminate]. cbn [bind] in E. injection E as <-. split; [rewrite map_map; cbn [r_z]; rewrite map_id; auto|]. rewrite List.Forall_forall. intros r I. apply in_map_iff in I as (z & <- & _). cbn [r_uw r_ss r_z]. split; [auto|].
  unfold Rltb, Rmax. destruct (Rlt_dec _ _), (Rle_dec _ _); lra.
Qed.

(** ** Passes keep depths and water pressures *)
Definition same_place (r s : row) : Prop := r_z s = r_z r /\ r_uw s = r_uw r.
(** Total vertical stress: effective stress plus positive pore water pressure. *)
Definition total_stress (r : row) : R := r_st r + Rmax (r_uw r) 0.
(** The trapezoidal rule for the weight of the soil above. *)
Fixpoint weighs (t : R) (pr : list row) : Prop :=
  match pr with
  | [] => True
  | r :: s => total_stress r = t /\ match s with [] => True | r' :: _ => weighs (t + (r_z r' - r_z r) * ((r_gam r + r_gam r') / 2)) s end
  end.
Lemma overburden_from pr : forall acc q,
  let dsig := map (fun rs => (r_z (snd rs) - r_z (fst rs)) * ((r_gam (snd rs) + r_gam (fst rs)) * (1 / 2))) (combine pr (tl pr)) in
  let out := map (fun rt => let s := snd rt in with_st (fst rt) (if Rltb 0 (r_uw (fst rt)) then s - r_uw (fst rt) else s)) (combine pr ((q + acc) :: map (fun x => q + x) (cumsum_from acc dsig))) in
  Forall2 (fun r s => s = with_st r (r_st s)) pr out /\ weighs (q + acc) out.
Proof.
  induction pr as [|r pr IH]; intros acc q; cbn zeta; [split; constructor|].
  assert (T : forall t, total_stress (with_st r (if Rltb 0 (r_uw r) then t - r_uw r else t)) = t). { intros t. unfold total_stress. cbn [with_st r_st r_uw]. unfold Rltb, Rmax. destruct (Rlt_dec _ _), (Rle_dec _ _); lra. }
  destruct pr as [|r' pr]; [cbn; split; [constructor; [reflexivity|constructor]|split; [apply T|exact I]]|].
  cbn [tl combine map cumsum_from fst snd]. specialize (IH (acc + (r_z r' - r_z r) * ((r_gam r' + r_gam r) * (1 / 2))) q). cbn zeta in IH. cbn [tl combine map cumsum_from fst snd] in IH. destruct IH as (I1 & I2). split.
  - constructor; [reflexivity|exact I1].
  - cbn [weighs]. split; [apply T|]. cbn [with_st r_z r_gam]. replace (q + acc + (r_z r' - r_z r) * ((r_gam r + r_gam r') / 2)) with (q + (acc + (r_z r' - r_z r) * ((r_gam r' + r_gam r) * (1 / 2)))) by field. exact I2.
Qed.
Lemma overburden a pr : Forall2 (fun r s => s = with_st r (r_st s)) pr (stress_from_overburden a pr) /\ weighs (q0_ a) (stress_from_overburden a pr).
Proof.
  unfold stress_from_overburden. assert (X := overburden_from pr 0 (q0_ a)). cbn zeta in X. rewrite Rplus_0_r in X. exact X.
Qed.
(** What one pass leaves: from the stresses before it to void ratio and saturation by EPUS, from these to unit weights. *)
Definition derived (a : profile_par) (ep : nat -> list step -> result (list DataResults)) (npoint npp : nat) (r s : row) : Prop :=
  same_place r s /\ (exists ds d sr, ep npoint (point_path a npp r) = Ok ds /\ last_point ds = Ok d /\ d_Sr d = Some sr /\ r_e s = d_e d /\ r_w s = d_w d /\ r_ss s = d_ss d /\ d_vw d = Some (r_vw s) /\ r_Sr s = Rmin sr 1) /\
  r_gam s = (Gs_ a + r_Sr s * r_e s) / (1 + r_e s) * gamw_ a.
Lemma pass_derived a ep npoint npp pr pr' : one_pass a ep npoint npp pr = Ok pr' -> Forall2 (derived a ep npoint npp) pr pr' /\ weighs (q0_ a) pr'.
Proof.
  unfold one_pass. intros E. destruct (e_and_Sr a ep npoint npp pr) as [p1|] eqn:E1; [|discriminate]. cbn [bind] in E. injection E as <-. destruct (overburden a (update_density a p1)) as (O1 & O2). split; [|exact O2].
  apply mapM_Ok_Forall2 in E1. unfold update_density in *. set (out := stress_from_overburden _ _) in *. clearbody out. clear O2. revert out O1. induction E1 as [|r s pr p1 E E1 IH]; intros out O1; cbn [map] in O1; inversion O1; subst; constructor; auto.
  match goal with X : ?y = with_st _ _ |- derived _ _ _ _ _ ?y => rename X into Y; rewrite Y end. clear - E. unfold from_epus in E. destruct (ep npoint (point_path a npp r)) as [ds|] eqn:D; [|discriminate]. cbn [bind] in E. destruct (last_point ds) as [d|] eqn:L; [|discriminate]. cbn [bind] in E.
  destruct (d_Sr d) as [sr|] eqn:S; [|discriminate]. destruct (d_vw d) as [vw|] eqn:V; [|discriminate]. injection E as <-. unfold derived, same_place. cbn [with_st with_gam with_datum r_z r_uw r_gam r_e r_w r_ss r_Sr r_vw]. split; [auto|]. split; [|reflexivity].
  exists ds, d, sr. repeat (match goal with |- _ /\ _ => split end); auto. unfold Rltb, Rmin. destruct (Rlt_dec _ _), (Rle_dec _ _); lra.
Qed.
Lemma passes_last a ep npoint npp n : forall j pr pr' j', passes a ep npoint npp n j pr = Ok (pr', j') ->
  exists prev, Forall2 same_place pr prev /\ one_pass a ep npoint npp prev = Ok pr' /\ (j <= j' < j + n)%nat /\ ((S j' < j + n)%nat -> close a prev pr' = true).
Proof.
  induction n as [|n IH]; intros j pr pr' j' E; cbn [passes] in E; [discriminate|]. destruct (one_pass a ep npoint npp pr) as [p1|] eqn:P; [|discriminate]. cbn [bind] in E.
  assert (RF : Forall2 same_place pr pr) by (clear; induction pr; constructor; auto; split; auto).
  destruct (close a pr p1) eqn:C; [injection E as <- <-; exists pr; repeat split; auto; lia|]. destruct n as [|n]; [injection E as <- <-; exists pr; repeat split; auto; lia|].
  apply IH in E as (prev & S & O & B & K). exists prev. split; [|split; [auto|split; [lia|intros; apply K; lia]]]. apply pass_derived in P as (P & _). clear - P S. revert prev S. induction P as [|r s l p1 (X & _) P IH]; intros prev F; inversion F; subst; constructor; auto. destruct X, H1. split; congruence.
Qed.
Lemma interp_same (l : list row) zs ss r : mapM (fun r => s <- np_interp (r_z r) zs ss ;; Ok (with_st r s)) l = Ok r -> Forall2 same_place l r.
Proof. intros E. apply mapM_Ok_Forall2 in E. eapply Forall2_impl; [|exact E]. intros a b X. cbn beta in X. destruct (np_interp _ _ _); [|discriminate]. cbn [bind] in X. injection X as <-. split; reflexivity. Qed.
Lemma refine_last a ep f old pr n : refine a ep f old = Ok (pr, n) ->
  exists new prev, blank_profile a (scaled (fst f) (nz_ a)) = Ok new /\ Forall2 same_place new prev /\ one_pass a ep (scaled (fst f) (Npoint_ a)) (scaled (fst f) (npp_ a)) prev = Ok pr /\ (1 <= n <= max_iter a)%nat /\ ((n < max_iter a)%nat -> close a prev pr = true).
Proof.
  unfold refine. cbn zeta. intros E. destruct (blank_profile a _) as [new|]; [|discriminate]. cbn [bind] in E. match type of E with bind ?m _ = _ => destruct m as [start|] eqn:ST; [|discriminate] end. cbn [bind] in E.
  destruct (passes _ _ _ _ _ _ _) as [[pr' j]|] eqn:P; [|discriminate]. cbn [bind fst snd] in E. destruct (max_iter a <=? j)%nat; [discriminate|]. injection E as <- <-. apply passes_last in P as (prev & S & O & B & C). exists new, prev. split; [auto|]. split.
  - assert (X : Forall2 same_place new start). { destruct old as [o|]; [eapply interp_same; eauto|]. unfold initialize_stress in ST. destruct (initial_stress a) as [[zi si]|]; [eapply interp_same; eauto|]. injection ST as <-. clear. induction new; cbn [map]; constructor; auto. split; reflexivity. }
    clear - X S. revert prev S. induction X as [|r s l p1 X P IH]; intros prev F; inversion F; subst; constructor; auto. destruct X, H1. split; congruence.
  - split; [auto|]. split; [lia|]. intros; apply C; lia.
Qed.
Lemma refinements_last a ep l : forall old pr ns, refinements a ep l old = Ok (Some pr, ns) -> List.length ns = List.length l /\ List.Forall (fun n => (1 <= n <= max_iter a)%nat) ns /\
  match rev l with [] => old = Some pr | f :: _ => exists o n, refine a ep f o = Ok (pr, n) /\ hd_error (rev ns) = Some n end.
Proof.
  induction l as [|f l IH]; intros old pr ns E; cbn [refinements] in E; [injection E as -> <-; cbn; auto|]. destruct (refine a ep f old) as [[p1 n]|] eqn:R1; [|discriminate]. cbn [bind fst snd] in E.
  destruct (refinements a ep l (Some p1)) as [[p2 ms]|] eqn:R2; [|discriminate]. cbn [bind fst snd] in E. injection E as -> <-. apply IH in R2 as (L & B & M). split; [cbn; lia|]. split; [constructor; auto; apply refine_last in R1 as (? & ? & _ & _ & _ & X & _); auto|].
  cbn [rev]. destruct (rev l) as [|g t] eqn:RL.
  - injection M as <-. cbn [app]. assert (l = []) by (apply (f_equal (@rev _)) in RL; rewrite rev_involutive in RL; auto). subst. destruct ms; [|discriminate]. exists old, n. auto.
  - cbn [app]. destruct M as (o & k & R & K). exists o, k. split; [auto|]. destruct (rev ms); [discriminate|]. exact K.
Qed.
(** C165: what calc returns. *)
Theorem C165_calc a ep pr ns : calc a ep = Ok (Some pr, ns) ->
  List.length ns = Nat.min (List.length (nz_refine a)) (Nat.min (List.length (Npoint_refine a)) (List.length (npp_refine a))) /\
  List.Forall (fun n => (1 <= n <= max_iter a)%nat) ns /\
  exists f n prev, In f (nz_refine a) /\ hd_error (rev ns) = Some n /\
    grid a (scaled f (nz_ a)) = Ok (map r_z pr) /\
    List.Forall (fun r => r_uw r = (r_z r - zw a) * gamw_ a) pr /\
    Forall2 (derived a ep (scaled f (Npoint_ a)) (scaled f (npp_ a))) prev pr /\
    weighs (q0_ a) pr /\
    ((n < max_iter a)%nat -> Forall2 (fun o r => Rabs (r_st o - r_st r) <= atol a + rtol a * Rabs (r_st r)) prev pr).
Proof.
  unfold calc. intros E. apply refinements_last in E as (L & B & M). rewrite !combine_length in L. split; [auto|]. split; [auto|].
  destruct (rev (combine _ _)) as [|f t] eqn:RL; [discriminate|]. destruct M as (o & n & R & K). assert (FI : In f (combine (nz_refine a) (combine (Npoint_refine a) (npp_refine a)))) by (apply in_rev; rewrite RL; cbn; auto).
  apply refine_last in R as (new & prev & BL & S & O & _ & C). exists (fst f), n, prev. split; [destruct f as [f1 f2]; apply in_combine_l in FI; auto|]. split; [auto|].
  apply pass_derived in O as (D & W). apply C165_hydrostatic in BL as (G & HU). 
  assert (SP : Forall2 same_place new pr). { clear - S D. revert pr D. induction S as [|r s l p1 X P IH]; intros pr F; inversion F; subst; constructor; auto. destruct H1 as ((Z1 & U1) & _). destruct X. split; congruence. }
  split. { rewrite G. f_equal. clear - SP. induction SP as [|r s l p1 (X & _) P IH]; cbn [map]; congruence. }
  split. { clear - SP HU. induction SP as [|r s l p1 (X & Y) P IH]; constructor; inversion HU; subst; auto. rewrite X, Y. tauto. }
  split; [auto|]. split; [auto|]. intros LT. specialize (C LT). unfold close in C. clear - C D. induction D as [|r s l p1 _ P IH]; constructor; cbn [combine forallb fst snd] in C; apply andb_true_iff in C as (C1 & C2); auto. apply Base.Rleb_true. exact C1.
Qed.
