(** * EpusProfile: compression indexes and permeabilities *)
From Coq Require Import Reals List ZArith Bool Lia Lra String Sorting.
From Verif Require Import Base ConstitutiveModel ConstitutiveProofs ConstitutiveProofs2 SwccModel SpecSwcc FourierModel EpusModel EpusExtModel EpusProofs1 EpusProofs2 EpusProfileModel PropsEpus PropsEpus3 PropsEpus4 PropsSwcc PropsEpusProfile PropsEpusProfile2.
Import ListNotations.
Local Open Scope R_scope.

(** ** Specification: the stress paths *)
(** What a path ends in: the stress and the suction last asked for ([st0], [ss0]: nothing asked for). *)
Fixpoint ends (st0 ss0 : R) (l : list step) : R * R :=
  match l with [] => (st0, ss0) | s :: t => if ist s then ends (vl s) ss0 t else ends st0 (vl s) t end.
Lemma ends_app st ss l m : ends st ss (l ++ m) = ends (fst (ends st ss l)) (snd (ends st ss l)) m.
Proof. revert st ss. induction l as [|s l IH]; intros st ss; [reflexivity|]. cbn [app ends]. destruct (ist s); apply IH. Qed.
(** The point first gets its own stress (not below a thousandth of the least suction) and, when it is above the least suction, its own suction. *)
Theorem C166_paths a npp dsig dpsi r :
  let smin := Rpower 10 (MinSuc a) in let st := Rmax (r_st r) (smin / 1000) in
  ends 0 0 (point_path a npp r) = (st, if Rle_dec (r_ss r) smin then 0 else r_ss r) /\
  ends 0 0 (dsig_point a npp dsig r) = (st + dsig, if Rle_dec (r_ss r) smin then 0 else r_ss r) /\
  ends 0 0 (dpsi_point a npp dpsi r) =
    (if Rlt_dec (r_uw r) 0 then (st, r_ss r + dpsi)
     else if Rle_dec smin (r_uw r - dpsi) then (st + dpsi, if Rle_dec (r_ss r) smin then 0 else r_ss r)
     else (st + r_uw r, dpsi - r_uw r)).
Proof.
  intros smin st. assert (P : pow10 (MinSuc a) = smin) by (unfold smin, Rpower, pow10; f_equal; ring).
  assert (F : floored a (r_st r) = st). { unfold floored, st. cbn zeta. rewrite P. unfold Rltb, Rmax. destruct (Rlt_dec _ _), (Rle_dec _ _); lra. }
  assert (E : ends 0 0 (point_path a npp r) = (st, if Rle_dec (r_ss r) smin then 0 else r_ss r)). { unfold point_path. rewrite F, P. unfold Rleb. destruct (Rle_dec (r_ss r) smin); reflexivity. }
  split; [exact E|]. split; [unfold dsig_point; rewrite ends_app, E, F; reflexivity|].
  unfold dpsi_point. cbn zeta. rewrite ends_app, E, F, P. unfold Rltb, Rleb. destruct (Rlt_dec (r_uw r) 0); [reflexivity|]. destruct (Rle_dec smin (r_uw r - dpsi)); reflexivity.
Qed.
(** What EPUS makes of a path. *)
Definition response (ep : nat -> list step -> result (list DataResults)) (npoint : nat) (l : list step) (e sr : R) : Prop :=
  exists ds d s, ep npoint l = Ok ds /\ last_point ds = Ok d /\ d_e d = e /\ d_Sr d = Some s /\ sr = Rmin s 1.
Lemma from_epus_response ep npoint l r r' : from_epus ep npoint l r = Ok r' -> response ep npoint l (r_e r') (r_Sr r').
Proof.
  unfold from_epus, response. intros E. destruct (ep npoint l) as [ds|]; [|discriminate]. cbn [bind] in E. destruct (last_point ds) as [d|] eqn:L; [|discriminate]. cbn [bind] in E. destruct (d_Sr d) as [s|] eqn:S0; [|discriminate]. destruct (d_vw d); [|discriminate]. apply ok_eq in E. subst r'. cbn [with_datum r_e r_Sr].
  exists ds, d, s. repeat (match goal with |- _ /\ _ => split end); auto. unfold Rltb, Rmin. destruct (Rlt_dec _ _), (Rle_dec _ _); lra.
Qed.
(** C166: strain of the soil skeleton and change of water volume, per unit of stress and per unit of suction; air is the difference. *)
Theorem C166_indexes a ep npoint npp dsig dpsi pr l : compression_indexes a ep npoint npp dsig dpsi pr = Ok l ->
  Forall2 (fun r m => exists e1 s1 e2 s2,
    response ep npoint (dsig_point a npp dsig r) e1 s1 /\ response ep npoint (dpsi_point a npp dpsi r) e2 s2 /\ dsig <> 0 /\ dpsi <> 0 /\
    m1s m = (e1 - r_e r) / (1 + r_e r) / dsig /\ m2s m = (e2 - r_e r) / (1 + r_e r) / dpsi /\
    m1w m = (s1 * e1 - r_Sr r * r_e r) / (1 + r_e r) / dsig /\ m2w m = (s2 * e2 - r_Sr r * r_e r) / (1 + r_e r) / dpsi /\
    m1w m + m1a m = m1s m /\ m2w m + m2a m = m2s m) pr l.
Proof.
  unfold compression_indexes. intros E. destruct (mapM _ pr) as [p1|] eqn:E1; [|discriminate]. cbn [bind] in E. match type of E with bind ?m _ = _ => destruct m as [p2|] eqn:E2; [|discriminate] end. cbn [bind] in E.
  apply mapM_Ok_Forall2 in E1, E2, E. revert p2 E2 l E. induction E1 as [|r r1 pr p1 X1 E1 IH]; intros p2 E2 l E; inversion E2; subst; cbn [combine] in E; inversion E; subst; constructor; [|eapply IH; eauto].
  match goal with X : point_indexes _ _ _ _ _ = Ok _ |- _ => rename X into Q end. match goal with X : from_epus _ _ (dpsi_point _ _ _ _) _ = Ok _ |- _ => rename X into X2 end. cbn [fst snd] in Q. apply from_epus_response in X1, X2. eexists _, _, _, _. split; [exact X1|]. split; [exact X2|].
  unfold point_indexes in Q. cbn zeta in Q. destruct (Reqb dsig 0) eqn:D1; [discriminate|]. destruct (Reqb dpsi 0) eqn:D2; [discriminate|]. cbn [orb] in Q. apply ok_eq in Q. subst. cbn [m1s m2s m1w m2w m1a m2a].
  unfold Reqb in *. destruct (Req_EM_T dsig 0); [discriminate|]. destruct (Req_EM_T dpsi 0); [discriminate|]. repeat (match goal with |- _ /\ _ => split end); auto; ring.
Qed.
(** Known defect: a point just below the water table, where the pressure is not less than dpsi and exceeds it by less than the least suction, cannot be calculated. *)
Theorem C166_water_table_refuted p a npoint npp dsig dpsi pr r : In r pr -> 0 <= r_uw r -> dpsi <= r_uw r < dpsi + Rpower 10 (MinSuc a) -> exists e, compression_indexes a (python_epus p) npoint npp dsig dpsi pr = Err e.
Proof.
  intros I0 U B. destruct (compression_indexes _ _ _ _ _ _ _) as [l|e] eqn:E; [exfalso|eauto]. unfold compression_indexes in E. destruct (mapM _ pr) as [p1|]; [|discriminate]. cbn [bind] in E. match type of E with bind ?m _ = _ => destruct m as [p2|] eqn:E2; [|discriminate] end. clear E.
  apply mapM_Ok_Forall2 in E2. assert (X : exists r', from_epus (python_epus p) npoint (dpsi_point a npp dpsi r) r = Ok r'). { clear - I0 E2. induction E2; [destruct I0|]. destruct I0 as [->|I0]; [eauto|apply IHE2; auto]. }
  destruct X as (r' & X). unfold from_epus in X. destruct (python_epus p npoint _) as [ds|] eqn:P; [|discriminate]. clear X. unfold python_epus in P. destruct (Calresults _ _ _) as [o|] eqn:CA; [|discriminate].
  edestruct (C163_bad_values (with_Npoint p npoint) (dpsi_point a npp dpsi r) (suction_step npp (dpsi - r_uw r))) as (e & Y); [| |rewrite CA in Y; discriminate].
  - unfold dpsi_point. cbn zeta. apply in_app_iff. right. assert (PW : pow10 (MinSuc a) = Rpower 10 (MinSuc a)) by (unfold Rpower, pow10; f_equal; ring). rewrite PW. unfold Rltb, Rleb. destruct (Rlt_dec (r_uw r) 0); [lra|]. destruct (Rle_dec _ _); [lra|]. right. left. reflexivity.
  - cbn [suction_step vl]. lra.
Qed.
(** The profile of the object is as before when the calculation succeeds... *)
Lemma in_place_spec f pr : match mapM f pr with
  | Ok l => in_place f pr = (l, None)
  | Err e => exists p1 r p2 l1, pr = p1 ++ r :: p2 /\ mapM f p1 = Ok l1 /\ f r = Err e /\ in_place f pr = (l1 ++ r :: p2, Some e)
  end.
Proof.
  induction pr as [|r pr IH]; [reflexivity|]. cbn [mapM in_place]. destruct (f r) as [r'|e] eqn:E; cbn [bind]; [|exists [], r, pr, []; auto]. destruct (mapM f pr) as [l|e]; cbn [bind]; [rewrite IH; reflexivity|].
  destruct IH as (p1 & x & p2 & l1 & -> & M & F & ->). exists (r :: p1), x, p2, (r' :: l1). cbn [mapM app]. rewrite E, M. cbn [bind fst snd]. auto.
Qed.
Theorem C166_profile_kept a ep npoint npp dsig dpsi pr l : compression_indexes a ep npoint npp dsig dpsi pr = Ok l -> compression_indexes_profile a ep npoint npp dsig dpsi pr = (pr, None).
Proof.
  unfold compression_indexes, compression_indexes_profile. cbn zeta. intros E. match goal with |- context [in_place ?f pr] => assert (S1 := in_place_spec f pr) end. destruct (mapM _ pr) as [p1|]; [|discriminate]. cbn [bind] in E. rewrite S1. cbn [snd].
  match goal with |- context [in_place ?f pr] => assert (S2 := in_place_spec f pr) end. match type of E with bind ?m _ = _ => destruct m as [p2|]; [|discriminate] end. rewrite S2. reflexivity.
Qed.
(** ...known defect: when it fails at a point, the points above it are left with the results of the failed calculation. *)
Theorem C166_profile_refuted a ep npoint npp dsig dpsi p1 r p2 l1 q e : mapM (fun r => from_epus ep npoint (dsig_point a npp dsig r) r) (p1 ++ r :: p2) = Ok l1 ->
  mapM (fun r => from_epus ep npoint (dpsi_point a npp dpsi r) r) p1 = Ok q -> from_epus ep npoint (dpsi_point a npp dpsi r) r = Err e ->
  compression_indexes a ep npoint npp dsig dpsi (p1 ++ r :: p2) = Err e /\ compression_indexes_profile a ep npoint npp dsig dpsi (p1 ++ r :: p2) = (q ++ r :: p2, Some e) /\
  Forall2 (fun r r' => response ep npoint (dpsi_point a npp dpsi r) (r_e r') (r_Sr r')) p1 q.
Proof.
  intros M1 M2 F. assert (S1 := in_place_spec (fun r => from_epus ep npoint (dsig_point a npp dsig r) r) (p1 ++ r :: p2)). rewrite M1 in S1. 
  assert (X : forall f : row -> result row, mapM f p1 = Ok q -> f r = Err e -> mapM f (p1 ++ r :: p2) = Err e /\ in_place f (p1 ++ r :: p2) = (q ++ r :: p2, Some e)).
  { clear. intros f. revert q. induction p1 as [|x p1 IH]; intros q M F; cbn [mapM app in_place] in *; [apply ok_eq in M; subst q; rewrite F; auto|]. destruct (f x) as [x'|]; [|discriminate]. cbn [bind] in *. destruct (mapM f p1) as [q'|]; [|discriminate]. cbn [bind] in M. apply ok_eq in M. subst q. destruct (IH q' eq_refl F) as (-> & ->). auto. }
  destruct (X _ M2 F) as (X1 & X2). unfold compression_indexes, compression_indexes_profile. cbn zeta. rewrite M1. cbn [bind]. rewrite X1, S1. cbn [snd bind]. rewrite X2. cbn [snd]. split; [auto|]. split; [auto|].
  apply mapM_Ok_Forall2 in M2. eapply Forall2_impl; [|exact M2]. intros x y E. apply from_epus_response in E. exact E.
Qed.

(** ** C167: permeabilities *)
Theorem C167_water a ep k npoint npp nsw pr l : water_permeability a ep k npoint npp nsw pr = Ok l ->
  Forall2 (fun r kw =>
    (r_ss r <= Rpower 10 (MinSuc a) -> kw = k (r_e r)) /\
    (Rpower 10 (MinSuc a) < r_ss r -> exists ds c kr,
       ep npoint [stress_step npp (Rmax (r_st r) (Rpower 10 (MinSuc a) / 1000)); suction_step nsw million] = Ok ds /\
       get_last ds = Ok c /\ List.Forall (fun x => d_vw x <> None) c /\
       kw = k (r_e r) * kr /\ (forall curve, Forall2 (fun x y => fst y = d_ss x /\ Some (snd y) = d_vw x) c curve ->
         kwrel_from_discrete_swcc (r_ss r) curve = Ok kr /\
         (proper_curve curve -> suction curve 0 <= r_ss r -> 0 <= kr <= 1)))) pr l.
Proof.
  unfold water_permeability. intros E. destruct (mapM _ pr) as [kr|] eqn:K; [|discriminate]. cbn [bind] in E. apply ok_eq in E. subst l. apply mapM_Ok_Forall2 in K. induction K as [|r x pr kr X K IH]; cbn [combine map]; constructor; [|exact IH]. cbn [fst snd].
  assert (PW : pow10 (MinSuc a) = Rpower 10 (MinSuc a)) by (unfold Rpower, pow10; f_equal; ring).
  unfold kr_point in X. unfold Rleb in X. destruct (Rle_dec _ _) as [L|L]; rewrite PW in L.
  - apply ok_eq in X. subst x. split; [intros _; ring|intros; lra].
  - split; [intros; lra|intros _]. assert (F : floored a (r_st r) = Rmax (r_st r) (Rpower 10 (MinSuc a) / 1000)). { unfold floored. cbn zeta. rewrite PW. unfold Rltb, Rmax. destruct (Rlt_dec _ _), (Rle_dec _ _); lra. } rewrite F in X.
    destruct (ep npoint _) as [ds|]; [|discriminate]. cbn [bind] in X. destruct (get_last ds) as [c|] eqn:G; [|discriminate]. cbn [bind] in X. destruct (mapM _ c) as [curve|] eqn:C0; [|discriminate]. cbn [bind] in X. apply mapM_Ok_Forall2 in C0.
    exists ds, c, x. split; [auto|]. split; [auto|]. split; [|split; [ring|]].
    + clear - C0. induction C0 as [|d y c curve Y C0 IH]; constructor; auto. destruct (d_vw d); [discriminate|discriminate].
    + intros cv F2. assert (cv = curve). { clear - C0 F2. revert cv F2. induction C0 as [|d y c curve Y C0 IH]; intros cv F2; inversion F2; subst; [auto|]. f_equal; [|apply IH; auto]. destruct (d_vw d); [|discriminate]. apply ok_eq in Y. subst y. destruct H1 as (A & B). destruct y0. cbn [fst snd] in *. congruence. }
      subst cv. split; [auto|]. intros PC S0. destruct (C106_discrete_relative_permeability curve PC) as (_ & R1 & _ & _ & _ & R2). destruct (Rlt_or_le (r_ss r) (suction curve (List.length curve - 1))) as [LT|LE]; [|rewrite (R2 _ LE) in X; discriminate].
      destruct (R1 (r_ss r)) as (v & V & B); [split; auto|]. rewrite X in V. apply ok_eq in V. subst v. exact B.
Qed.
Theorem C167_air k q pr : 0 < q -> List.Forall (fun r => 0 <= r_Sr r <= 1 /\ 0 <= k (r_e r)) pr ->
  Forall2 (fun r ka => 0 <= ka <= k (r_e r) /\ (r_Sr r = 1 -> ka = 0) /\ (r_Sr r = 0 -> ka = k (r_e r)) /\
    (0 < r_Sr r < 1 -> ka = k (r_e r) * (sqrt (1 - r_Sr r) * Rpower (1 - Rpower (r_Sr r) (1 / q)) (2 * q)))) pr (air_permeability k q pr).
Proof.
  intros Q F. destruct (C107_air_permeability q Q) as (A1 & A2 & A3 & _ & A4). unfold air_permeability. induction F as [|r pr (B & K) F IH]; cbn [map]; constructor; [|exact IH]. specialize (A4 _ B). split; [split; nra|]. split; [intros ->; rewrite A3; ring|]. split; [intros ->; rewrite A2; ring|]. intros S0. rewrite A1 by auto. reflexivity.
Qed.
(** A case: two points, one above and one below the water table. *)
Definition two_points : list row := [mkRow 3 18 (- 981 / 100) (981 / 100) 60 1 (10 / 27) 1 (1 / 2); mkRow 5 18 (981 / 100) 1 90 1 (10 / 27) 1 (1 / 2)].
Lemma plain_from npoint l r : l <> [] -> exists r', from_epus plain_epus npoint l r = Ok r'.
Proof. intros N. destruct (plain_last l N) as (d & L & _ & _ & S0 & V). unfold from_epus, plain_epus. cbn [bind]. rewrite L. cbn [bind]. rewrite S0, V. eauto. Qed.
Example C166_example : (exists l, compression_indexes ten_metres plain_epus 1000 100 10 10 two_points = Ok l) /\ (exists r, In r two_points /\ 0 <= r_uw r /\ 981 / 100 <= r_uw r < 981 / 100 + Rpower 10 (MinSuc ten_metres)).
Proof.
  split.
  - unfold compression_indexes. match goal with |- exists l, bind ?m _ = _ => assert (X : exists p1, m = Ok p1) end. { apply mapM_exists. intros r _. apply plain_from. unfold dsig_point. destruct (point_path _ _ _); discriminate. }
    destruct X as (p1 & ->). cbn [bind]. match goal with |- exists l, bind ?m _ = _ => assert (X : exists p1, m = Ok p1) end. { apply mapM_exists. intros r _. apply plain_from. unfold dpsi_point, point_path. destruct (Rleb _ _); discriminate. }
    destruct X as (p2 & ->). cbn [bind]. apply mapM_exists. intros x _. unfold point_indexes. cbn zeta. unfold Reqb. destruct (Req_EM_T 10 0); [lra|]. cbn [orb]. eauto.
  - eexists. split; [right; left; reflexivity|]. cbn [r_uw]. assert (0 < Rpower 10 (MinSuc ten_metres)) by apply exp_pos. lra.
Qed.
Example C167_example : exists l, water_permeability ten_metres plain_epus (fun _ => 1) 1000 100 500 [mkRow 5 18 (981 / 100) (1 / 2000) 90 1 (10 / 27) 1 (1 / 2)] = Ok l.
Proof.
  unfold water_permeability. cbn [mapM]. unfold kr_point. cbn [r_ss MinSuc ten_metres]. assert (P : pow10 (-3) = / 1000). { assert (PW : pow10 (-3) = Rpower 10 (-3)) by (unfold Rpower, pow10; f_equal; ring). rewrite PW. replace (-3) with (- INR 3) by (cbn; ring). rewrite Rpower_Ropp, Rpower_pow by lra. f_equal. ring. }
  rewrite P. unfold Rleb. destruct (Rle_dec _ _) as [|X]; [cbn [bind]; eauto|exfalso; apply X; lra].
Qed.
