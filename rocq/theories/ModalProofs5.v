(** * SpecBeam: the numerical path follows the same motion as the analytical one (proofs) *)
From Coq Require Import Reals List Arith ZArith Bool Lia Lra.
From Coquelicot Require Import Coquelicot.
From Verif Require Import Base PiecewiseModel PiecewiseProofs PolyLineModel SpecPiecewise SpecLoad SpectralModel BeamModel DingModel DingProofs PropsBeam6 SpecGalerkin SpecBeamModel SpecBeamSpec SpecBeamProofs2 PropsSpecBeam SpecStein SteinProofs4 SpecModal SpecBeamMotion SpecBeamModalModel ComplexCalc ModalProofs1 ModalProofs3 PropsSpecBeamModal.
Import ListNotations.
Local Open Scope R_scope.

(** ** loads *)
(** the vehicle MovingPointLoads(x, p, offset, v, L, t0=0, x0) *)
Definition made (v : mpl) : Prop := exists x p off s L x0, mpl_init x p off (Some s) (Some L) 0 x0 = Ok v /\ s <> 0 /\ (s < 0 -> x0 = 0) /\ length p = length x.
(** between T0 and T1 the numerical path sees the table the load has: outside its table the end values are held *)
Definition covers (T0 T1 : R) (P : points) : Prop :=
  SpecPiecewise.at_ (px P) 0 < SpecPiecewise.at_ (px P) (length P - 1) /\ (SpecPiecewise.at_ (px P) 0 <= T0 \/ SpecPiecewise.at_ (py P) 0 = 0) /\ (T1 <= SpecPiecewise.at_ (px P) (length P - 1) \/ SpecPiecewise.at_ (py P) (length P - 1) = 0).

Lemma load_ok v t : made v -> exists o', point_loads_on_beam v t = Ok o'.
Proof.
  intros (x & p & off & s & L & x0 & HI & HV & HX & HL). destruct (C152_constructor _ _ _ _ _ _ _ _ HI HV) as (A1 & A2 & A3 & A4 & A5 & A6 & st & et & S1 & S2 & S3 & S4 & S5). unfold point_loads_on_beam. rewrite A3, A4, S1, S2.
  assert (PN : length (pnow v) = length x) by (unfold mpl_init, setv in HI; cbn [mL] in HI; injection HI as <-; cbn [pnow]; rewrite !map_length; auto). rewrite A2, PN, HL, Nat.eqb_refl. cbn [bind]. eauto.
Qed.
Lemma made_load v beta t : made v -> vehicle_load beta t v = Ok (pressing (fun x => sin (beta * x)) t v).
Proof.
  intros HM. destruct (load_ok v t HM) as (o' & EP). unfold vehicle_load. rewrite EP. cbn [bind]. f_equal. destruct HM as (x & p & off & s & L & x0 & HI & HV & HX & HL).
  destruct (C152_loads _ _ _ _ _ _ _ _ _ HI HV HX HL EP) as (P1 & P2 & P3).
  destruct (C152_constructor _ _ _ _ _ _ _ _ HI HV) as (A1 & A2 & A3 & A4 & A5 & A6 & _).
  unfold pressing, span, axle. rewrite A1, A2, A3, A4, A5, A6. unfold sumR. f_equal.
  apply nth_ext with (d := 0) (d' := 0); [rewrite !map_length, !combine_length, map_length; lia|]. intros i Hi. rewrite map_length, combine_length, P1, P2, Nat.min_id in Hi.
  rewrite (nth_combine_map _ _ i (0, 0)) by (rewrite combine_length; lia). rewrite (nth_combine_map _ _ i (0, 0)) by (rewrite combine_length, map_length; lia).
  rewrite !combine_nth by (rewrite ?map_length; lia). cbn [fst snd]. destruct (P3 i Hi) as (Q1 & Q2 & Q3). rewrite (nth_map1 (fun a => a + off)) by auto. unfold is_on in Q2, Q3. rewrite <- Q1 in Q2, Q3 |- *.
  destruct (Rleb x0 (nth i (xnow o') 0)) eqn:E1; [apply Rleb_true in E1; destruct (Rleb (nth i (xnow o') 0) (x0 + L)) eqn:E2; [apply Rleb_true in E2|apply Rleb_false in E2]|apply Rleb_false in E1]; cbn [andb].
  - rewrite Q2 by lra. reflexivity.
  - rewrite Q3 by lra. ring.
  - rewrite Q3 by lra. ring.
Qed.
Lemma between (x : list R) t : ~ In t x -> forall m, (m < length x)%nat -> SpecPiecewise.at_ x 0 < t < SpecPiecewise.at_ x m -> exists k, (S k < length x)%nat /\ SpecPiecewise.at_ x k < t < SpecPiecewise.at_ x (S k).
Proof.
  intros N m. induction m as [|m IH]; intros Hm H; [lra|]. destruct (Rlt_dec (SpecPiecewise.at_ x m) t) as [L|L]; [exists m; split; [lia|lra]|].
  apply IH; [lia|]. split; [apply H|]. destruct (Req_dec (SpecPiecewise.at_ x m) t) as [E|E]; [|lra]. exfalso. apply N. rewrite <- E. apply nth_In. lia.
Qed.
Lemma table_value P f T0 T1 t : good_table P f -> covers T0 T1 P -> T0 < t < T1 -> ~ In t (px P) -> interp_x_y (px P) (py P) [t] false = Ok [f t].
Proof.
  intros (G1 & G2 & G3 & G4 & G5) (C0 & C1 & C2) Ht N. assert (LX : length (px P) = length P) by apply map_length. assert (LY : length (py P) = length P) by apply map_length.
  assert (NX : px P <> []) by (intros E; rewrite E in G2; cbn in G2; lia).
  destruct (interp1_ok (px P) (py P) false t ltac:(lia) NX) as (r & ER). unfold interp_x_y. rewrite LX, LY, Nat.eqb_refl. cbn [negb mapM]. rewrite ER. cbn [bind]. do 2 f_equal.
  destruct (interp1_load_value (px P) (py P) t r ltac:(lia) G1 NX ER) as (V1 & V2 & V3 & V4). rewrite LX in *.
  destruct (Rlt_dec t (SpecPiecewise.at_ (px P) 0)) as [L1|L1].
  - rewrite (G5 t) by auto. assert (Y0 : SpecPiecewise.at_ (py P) 0 = 0) by (destruct C1; [lra|auto]). rewrite <- Y0.
    apply V2; auto.
  - assert (N0 : SpecPiecewise.at_ (px P) 0 <> t) by (intros E; apply N; rewrite <- E; apply nth_In; lia).
    destruct (Rlt_dec (SpecPiecewise.at_ (px P) (length P - 1)) t) as [L2|L2].
    + rewrite (G5 t) by auto. destruct C2 as [C2|C2]; [lra|]. rewrite <- C2. apply V3; auto.
    + assert (N1 : SpecPiecewise.at_ (px P) (length P - 1) <> t) by (intros E; apply N; rewrite <- E; apply nth_In; lia).
      destruct (between (px P) t N (length P - 1)%nat ltac:(lia) ltac:(lra)) as (k & K1 & K2). rewrite LX in K1. rewrite (G4 k t) by (rewrite ?LX; auto). apply V1; [lia|lra].
Qed.
Lemma mapM_fold {A} (f : A -> result R) (g : A -> R) l : (forall a, In a l -> f a = Ok (g a)) -> mapM f l = Ok (map g l).
Proof. induction l as [|a l IH]; intros H; [reflexivity|]. cbn [mapM map]. rewrite H by (left; auto). cbn [bind]. rewrite IH by (intros; apply H; right; auto). reflexivity. Qed.
Lemma map_nth_seq {A B} (d : A) (g : A -> B) l : map (fun j => g (nth j l d)) (seq 0 (length l)) = map g l.
Proof. induction l as [|a l IH]; [reflexivity|]. cbn [length seq map nth]. f_equal. rewrite <- seq_shift, map_map. exact IH. Qed.
(** what the numerical path takes for the loads at one time *)
Lemma loads_pushing o F T0 T1 k t : good_loads o F -> (forall v, In v (vehicles o) -> made v) -> (forall q, In q (stands o) -> covers T0 T1 (snd q)) -> T0 < t < T1 -> quiet o t ->
  loads o (nth k (s_beta o) 0) t = Ok (pushing o F k t).
Proof.
  intros (G1 & G2 & G3) HV HC Ht [_ Q]. unfold loads, pushing, vehicles, stands in *.
  assert (A : match s_moving o with None => Ok 0 | Some l => r <- mapM (vehicle_load (nth k (s_beta o) 0) t) l ;; Ok (sumR r) end = Ok (fold_right Rplus 0 (map (pressing (modeshape o k) t) (match s_moving o with Some l => l | None => [] end)))).
  { destruct (s_moving o) as [l|]; [|reflexivity]. rewrite (mapM_fold _ (pressing (modeshape o k) t)); [reflexivity|]. intros v Hv. apply made_load; auto. }
  rewrite A. cbn [bind]. destruct (s_stat o) as [[[xs Ps] ops]|]; [|reflexivity]. destruct G3 as [LP ->].
  rewrite (mapM_fold _ (fun j => F (nth j Ps []) t * sin (nth k (s_beta o) 0 * nth j xs 0))).
  - cbn [bind]. do 2 f_equal. unfold sumR. f_equal. rewrite <- (map_nth_seq (0, []) (fun q : R * points => F (snd q) t * modeshape o k (fst q))). rewrite combine_length, LP, Nat.min_id. apply map_ext_in. intros j Hj. apply in_seq in Hj. rewrite combine_nth by auto. reflexivity.
  - intros j Hj. apply in_seq in Hj. assert (IN : In (nth j xs 0, nth j Ps []) (combine xs Ps)) by (rewrite <- combine_nth by auto; apply nth_In; rewrite combine_length; lia).
    unfold stationary_load. rewrite (get_lt xs j 0) by lia. rewrite (get_lt Ps j []) by lia. cbn [bind].
    assert (TV := table_value _ (F (nth j Ps [])) T0 T1 t (G2 _ IN) (HC _ IN) Ht (Q _ IN)). cbn [snd] in TV. rewrite TV. cbn [bind].
    rewrite (get_lt (map (fun _ => None) xs) j None) by (rewrite map_length; lia). cbn [bind].
    replace (nth j (map (fun _ : R => None) xs) None) with (@None (R * R)) by (symmetry; generalize j; clear; intros j; revert j; induction xs as [|a xs IH]; intros [|j]; cbn; auto). cbn [nth]. f_equal. f_equal. f_equal. ring.
Qed.
