(** * C170: the two paths of SpecBeam agree on linear springs *)
From Coq Require Import Reals List Arith ZArith Bool Lia Lra.
From Coquelicot Require Import Coquelicot.
From Verif Require Import Base PiecewiseModel PolyLineModel SpecPiecewise SpecLoad SpectralModel BeamModel DingModel PropsDing PropsBeam6 SpecGalerkin SpecBeamModel SpecBeamSpec SpecBeamProofs2 SpecModal SpecBeamMotion SpecBeamModalModel PropsSpecBeamModal ModalProofs5 PropsSpecBeamModal3.
Import ListNotations.
Local Open Scope R_scope.

(** The motion of C169 follows the equations handed to odeint: wherever vectorfield returns, it returns the rates of the motion. *)
Theorem C170_field : forall solve inv cinv eig i o M eigs v Igamv F T0 T1 q p t d,
  solves solve -> inverts_both inv -> cinverts cinv -> cdiagonalises eig ->
  sb_init solve i = Ok o -> time_independant_matrices o = Ok M -> s_k3 o = 0 -> eigs_and_v inv cinv eig (b_nterms (s_in o)) M = Ok (eigs, v, Igamv) ->
  good_loads o F -> (forall u, In u (vehicles o) -> made u) -> (forall w, In w (stands o) -> covers T0 T1 (snd w)) ->
  motion o M F T0 q p -> T0 < t < T1 -> quiet o t ->
  sb_field solve o M (map (fun k => q k t) (seq 0 (b_nterms (s_in o))) ++ map (fun k => p k t) (seq 0 (b_nterms (s_in o)))) t = Ok d ->
  forall k, (k < b_nterms (s_in o))%nat -> is_derive (q k) t (nth k d 0) /\ is_derive (p k) t (nth (b_nterms (s_in o) + k) d 0).
Proof.
  intros solve inv cinv eig i o M eigs v Igamv F T0 T1 q p t d Hs Hi Hc He HO HM HK HE HG HV HC [_ D] Ht HQ Ed. set (n := b_nterms (s_in o)) in *.
  destruct (D t HQ) as (acc & Q). assert (FM := field_motion solve Hs i o M HO HM HK F T0 T1 q p t d HG HV HC Ht HQ Ed). fold n in FM.
  assert (Z : forall k, (k < n)%nat -> nth (n + k) d 0 - acc k = 0).
  { apply (mass_injective inv cinv eig Hi Hc He o M eigs v Igamv HE (fun k => nth (n + k) d 0 - acc k)). intros k Hk. fold n in Hk |- *. destruct (FM k Hk) as [_ E1]. destruct (Q k Hk) as (_ & _ & E2).
    assert (SM : forall c a b : nat -> R, sum n (fun j => c j * (a j - b j)) = sum n (fun j => c j * a j) - sum n (fun j => c j * b j)).
    { intros c a b. unfold sum. generalize (seq 0 n). intros l. induction l as [|j l IH]; cbn [map fold_right]; [ring|rewrite IH; ring]. }
    rewrite (SM (fun j => coef (lam_qdotdot M) k j) (fun j => nth (n + j) d 0) acc). rewrite E1, E2. ring. }
  intros k Hk. destruct (FM k Hk) as [-> _]. destruct (Q k Hk) as (D1 & D2 & _). split; auto. replace (nth (n + k) d 0) with (acc k); auto. specialize (Z k Hk). lra.
Qed.
Print Assumptions C170_field.

(** Whatever follows the equations of the numerical path from rest is, at every reported time, the deflection of the analytical path. *)
Theorem C170_agrees : forall solve inv cinv eig cos_E i o M eigs v Igamv F T0 T1 q p,
  solves solve -> inverts_both inv -> cinverts cinv -> cdiagonalises eig ->
  sb_init solve i = Ok o -> time_independant_matrices o = Ok M -> s_k3 o = 0 -> eigs_and_v inv cinv eig (b_nterms (s_in o)) M = Ok (eigs, v, Igamv) ->
  good_loads o F -> unloaded_before o T0 -> (forall u, In u (vehicles o) -> made u) -> (forall w, In w (stands o) -> covers T0 T1 (snd w)) ->
  (forall l, In l eigs -> l <> RtoC 0) ->
  (forall l u k, In l eigs -> In u (vehicles o) -> (k < b_nterms (s_in o))%nat -> l <> (0, speed u * nth k (s_beta o) 0) /\ l <> (0, - (speed u * nth k (s_beta o) 0))) ->
  follows solve o M T0 T1 q p -> exists d w, runme_analytical inv cinv eig cos_E o None None = Ok (d, w) /\ length d = length (s_x o) /\
  forall a b, (a < length (s_x o))%nat -> (b < length (s_t o))%nat -> T0 <= nth b (s_t o) 0 <= T1 ->
    nth b (nth a d []) 0 = sum (b_nterms (s_in o)) (fun k => q k (nth b (s_t o) 0) * modeshape o k (nth a (s_x o) 0)).
Proof.
  intros solve inv cinv eig cos_E i o M eigs v Igamv F T0 T1 q p Hs Hi Hc He HO HM HK HE HG HU HV HC Hnz Hres [A D].
  destruct (C169_motion inv cinv eig cos_E o M eigs v Igamv F T0 Hi Hc He HM HE HG HU Hnz Hres) as (q' & p' & HMo & _ & _ & d & Ed & Ld & Hd).
  eexists. eexists. split; [exact Ed|]. split; [exact Ld|]. intros a b Ha Hb Ht. rewrite Hd by auto. unfold sum. f_equal. apply map_ext_in. intros k Hk. apply in_seq in Hk. f_equal. symmetry.
  apply (motion_until_unique inv cinv eig Hi Hc He o M eigs v Igamv F HE HG T0 T1 q' p' q p); auto; try lra; try lia.
  intros t Htt HQ. destruct (D t Htt HQ) as (dd & E1 & E2). exists (fun j => nth (b_nterms (s_in o) + j) dd 0). intros k' Hk'. destruct (E2 k' Hk') as [D1 D2].
  destruct (field_motion solve Hs i o M HO HM HK F T0 T1 q p t dd HG HV HC Htt HQ E1 k' Hk') as [F1 F2]. split; [rewrite <- F1; exact D1|]. split; auto.
Qed.
Print Assumptions C170_agrees.

(** odeint returns, at the given times, the values of functions that follow the field from the initial values *)
Definition exact_odeint (odeint : (list R -> R -> result (list R)) -> list R -> list R -> result (list (list R))) (solve : list (list R) -> list R -> result (list R)) (o : sb) (M : mats) (T0 T1 : R) : Prop :=
  forall rows, odeint (sb_field solve o M) (repeat 0 (2 * b_nterms (s_in o))) (s_t o) = Ok rows -> exists q p, follows solve o M T0 T1 q p /\
    rows = map (fun t => map (fun k => q k t) (seq 0 (b_nterms (s_in o))) ++ map (fun k => p k t) (seq 0 (b_nterms (s_in o)))) (s_t o).
(** runme without and with use_analytical: the same numbers *)
Theorem C170_runs : forall solve odeint inv cinv eig cos_E i o M eigs v Igamv F T0 T1 d w,
  solves solve -> inverts_both inv -> cinverts cinv -> cdiagonalises eig -> exact_odeint odeint solve o M T0 T1 ->
  sb_init solve i = Ok o -> time_independant_matrices o = Ok M -> s_k3 o = 0 -> eigs_and_v inv cinv eig (b_nterms (s_in o)) M = Ok (eigs, v, Igamv) ->
  good_loads o F -> unloaded_before o T0 -> (forall u, In u (vehicles o) -> made u) -> (forall u, In u (stands o) -> covers T0 T1 (snd u)) ->
  (forall l, In l eigs -> l <> RtoC 0) ->
  (forall l u k, In l eigs -> In u (vehicles o) -> (k < b_nterms (s_in o))%nat -> l <> (0, speed u * nth k (s_beta o) 0) /\ l <> (0, - (speed u * nth k (s_beta o) 0))) ->
  (forall t, In t (s_t o) -> T0 <= t <= T1) ->
  runme solve odeint o None None = Ok (d, w) -> exists d' w', runme_analytical inv cinv eig cos_E o None None = Ok (d', w') /\
  forall a b, (a < length (s_x o))%nat -> (b < length (s_t o))%nat -> nth b (nth a d []) 0 = nth b (nth a d' []) 0.
Proof.
  intros solve odeint inv cinv eig cos_E i o M eigs v Igamv F T0 T1 d w Hs Hi Hc He HX HO HM HK HE HG HU HV HC Hnz Hres HT H.
  unfold runme in H. assert (HQ : (if b_force (s_in o) then true else true) = true) by (destruct (b_force (s_in o)); auto).
  assert (H' : (q <- sb_qk solve odeint o ;; sb_wofx o q (s_x o) true) = Ok d) by (destruct (b_force (s_in o)); unbind H; congruence). clear H HQ.
  unfold sb_qk in H'. rewrite HM in H'. cbn [bind] in H'. destruct (odeint _ _ _) as [rows|] eqn:ER; [|discriminate]. cbn [bind] in H'. destruct (HX rows ER) as (q & p & HF & ->).
  destruct (C170_agrees solve inv cinv eig cos_E i o M eigs v Igamv F T0 T1 q p Hs Hi Hc He HO HM HK HE HG HU HV HC Hnz Hres HF) as (d' & w' & E' & _ & Hd').
  exists d', w'. split; auto. intros a b Ha Hb. rewrite Hd' by (auto; apply HT, nth_In; auto).
  unfold sb_wofx in H'. injection H' as <-. destruct (init_parts solve i o HO) as (I2 & I7 & _). rewrite <- I2 in I7. set (n := b_nterms (s_in o)) in *.
  set (f := fun xx : R => _). rewrite (nth_indep _ [] (f 0)) by (rewrite map_length; auto). rewrite map_nth. unfold f. rewrite map_map.
  set (g := fun t : R => _). rewrite (nth_indep _ 0 (g 0)) by (rewrite map_length; auto). rewrite map_nth. unfold g.
  rewrite firstn_app, len_map_seq, Nat.sub_diag, firstn_O, app_nil_r, firstn_all2 by (rewrite len_map_seq; lia).
  unfold sb_w, sum, sumR. f_equal. unfold modeshape. rewrite I7. apply nth_ext with (d := 0) (d' := 0); [rewrite !map_length, combine_length, !map_length, seq_length; lia|].
  intros k Hk. rewrite map_length, combine_length, !map_length, seq_length in Hk. rewrite (nth_combine_map _ _ k (0, 0)) by (rewrite combine_length, !map_length, seq_length; lia). rewrite combine_nth by (rewrite !map_length; auto). cbn [fst snd].
  rewrite (nth_map_seq (fun k => q k (nth b (s_t o) 0))) by lia. rewrite (nth_map_seq (fun k => q k (nth b (s_t o) 0) * sin (nth k (map (fun k0 => PI * (INR k0 + 1)) (seq 0 n)) 0 * nth a (s_x o) 0))) by lia. reflexivity.
Qed.
Print Assumptions C170_runs.
(** What is kept from an earlier run is given again unless force_calc: first what the object holds, then the file; with force_calc neither matters. *)
Theorem C169_stored : forall inv cinv eig cos_E o disk earlier d,
  (b_force (s_in o) = true -> runme_analytical inv cinv eig cos_E o disk earlier = runme_analytical inv cinv eig cos_E o None None) /\
  (b_force (s_in o) = false -> runme_analytical inv cinv eig cos_E o disk (Some d) = Ok (d, option_map (fun L => map (map (fun y => y * L)) d) (b_L (s_in o))) /\
     runme_analytical inv cinv eig cos_E o (Some d) None = Ok (d, option_map (fun L => map (map (fun y => y * L)) d) (b_L (s_in o)))).
Proof.
  intros. unfold runme_analytical. split; intros ->; [destruct earlier, disk; reflexivity|]. cbn [bind]. split; destruct (b_L (s_in o)); reflexivity.
Qed.
Print Assumptions C169_stored.
