(** * EPUS: paths of stress changes only (saturated soil), and running an object again *)
From Coq Require Import Reals List ZArith Bool Lia Lra.
From Coquelicot Require Import Rcomplements.
From Verif Require Import Base ConstitutiveModel ConstitutiveProofs SwccModel EpusModel EpusSpec EpusProofs1 EpusProofs2 EpusProofs3 PropsEpus.
Import ListNotations.
Local Open Scope R_scope.

(** ** C160 *)
Definition sat (f0 : list pore) (y S0 : R) (o : state) : Prop :=
  Suction o = S0 /\ Forall2 (fun q0 q => same_group q0 q /\ Filled q = true /\ Airentrapped q = false /\ YieldSt q = y) f0 (pores o).
Fixpoint expect (p : par) (f0 : list pore) (S0 y : R) (h : list (bool * R)) : list R :=
  match h with
  | [] => []
  | bx :: t => let y' := if fst bx then Rmax y (S0 + snd bx * ((1 + 2 * K0 p) / 3)) else y in
               total (map (fun q => group_volume p q y' (S0 + snd bx * ((1 + 2 * K0 p) / 3))) f0) :: expect p f0 S0 y' t
  end.
Definition top (p : par) (S0 y : R) (h : list (bool * R)) : R := fold_left (fun (y : R) (bx : bool * R) => if fst bx then Rmax y (S0 + snd bx * ((1 + 2 * K0 p) / 3)) else y) h y.
Lemma expect_app p f0 S0 y h1 h2 : expect p f0 S0 y (h1 ++ h2) = expect p f0 S0 y h1 ++ expect p f0 S0 (top p S0 y h1) h2.
Proof. revert y. induction h1 as [|[b x] h1 IH]; intros y; cbn; [reflexivity|]. rewrite IH. reflexivity. Qed.
Lemma expect_nth p f0 S0 h : forall y k e, nth_error (expect p f0 S0 y h) k = Some e ->
  exists b x, nth_error h k = Some (b, x) /\ e = total (map (fun q => group_volume p q (top p S0 y (firstn (S k) h)) (S0 + x * ((1 + 2 * K0 p) / 3))) f0).
Proof.
  induction h as [|[b x] h IH]; intros y k e H; [destruct k; discriminate|]. destruct k as [|k]; cbn [nth_error expect fst snd] in H.
  - injection H as <-. exists b, x. split; reflexivity.
  - apply IH in H as (b' & x' & A & ->). exists b', x'. split; auto.
Qed.
Lemma sat_sum p f0 y S0 o c : sat f0 y S0 o -> (forall q, In q (pores o) -> RVC q = vol p q y c) ->
  void_ratio (pores o) = total (map (fun q => group_volume p q y c) f0) /\ water_content p (pores o) = total (map (fun q => group_volume p q y c / Gs p) f0).
Proof.
  intros (_ & F) V. revert V. induction F as [|q0 q f0 f (G & Fi & Ai & Y) F IH]; intros V; [split; reflexivity|]. destruct IH as (I1 & I2); [intros; apply V; cbn; auto|].
  rewrite void_cons, water_cons, I1, I2, Fi, Ai. rewrite (V q) by (cbn; auto). rewrite (vol_same p q0 q _ _ G). cbn [map total fold_right].
  assert (E : vol p q0 y c = group_volume p q0 y c). { unfold vol, group_volume, log10. f_equal. ring. } rewrite E. split; reflexivity.
Qed.
Lemma total_div g l : total (map (fun x : R => x / g) l) = total l / g.
Proof. unfold total. induction l as [|a l IH]; cbn; [unfold Rdiv; ring|]. rewrite IH. unfold Rdiv. ring. Qed.
Lemma cv p : CVStress p = (1 + 2 * K0 p) / 3. Proof. unfold CVStress. f_equal. ring. Qed.
Lemma sat_load p f0 y S0 o x o' : sat f0 y S0 o -> call p (Load x) o = Ok o' -> sat f0 (Rmax y (S0 + x)) S0 o' /\ (forall q, In q (pores o') -> RVC q = vol p q (Rmax y (S0 + x)) (S0 + x)).
Proof.
  intros (S1 & F) H. cbn [call] in H. unfold Loading in H. unbind H. injection H as <-. unfold sat. cbn [pores Suction]. rewrite S1 in *. apply mapM_Ok_Forall2 in Q.
  assert (X : Forall2 (fun q0 q => (same_group q0 q /\ Filled q = true /\ Airentrapped q = false /\ YieldSt q = Rmax y (S0 + x)) /\ RVC q = vol p q (Rmax y (S0 + x)) (S0 + x)) f0 a).
  { revert a Q. induction F as [|q0 q f0 f (G & Fi & Ai & Y) F IH]; intros a Q; inversion Q; subst; constructor; [|apply IH; auto].
    match goal with E : load_pore _ _ _ _ _ _ = Ok _ |- _ => apply load_stepped in E as ((E1 & _) & E2 & E3 & E4 & E5) end.
    destruct (E4 (E2 Fi)) as (E6 & _). rewrite (E5 Fi) in E6. repeat (match goal with |- _ /\ _ => split end); auto; try congruence.
    destruct G as (G1 & G2 & G3 & G4 & G5 & G6), E1 as (H1' & H2' & H3' & H4' & H5' & H6'). repeat split; congruence. }
  clear - X. split; [split; auto; eapply Forall2_impl; [|exact X]; cbn; tauto|]. intros q I. clear - X I. induction X as [|q0 q1 f0 f E X IH]; [destruct I|]. destruct I as [<-|I]; [tauto|auto].
Qed.
Lemma sat_unload p f0 y S0 o x o' : sat f0 y S0 o -> call p (Unload x) o = Ok o' -> sat f0 y S0 o' /\ (forall q, In q (pores o') -> RVC q = vol p q y (S0 + x)).
Proof.
  intros (S1 & F) H. cbn [call] in H. unfold Unloading in H. unbind H. injection H as <-. unfold sat. cbn [pores Suction]. rewrite S1 in *. apply mapM_Ok_Forall2 in Q.
  assert (X : Forall2 (fun q0 q => (same_group q0 q /\ Filled q = true /\ Airentrapped q = false /\ YieldSt q = y) /\ RVC q = vol p q y (S0 + x)) f0 a).
  { revert a Q. induction F as [|q0 q f0 f (G & Fi & Ai & Y) F IH]; intros a Q; inversion Q; subst; constructor; [|apply IH; auto].
    match goal with E : unload_pore _ _ _ _ = Ok _ |- _ => apply unload_stepped in E as ((E1 & _) & E2 & E3 & E4 & _ & E5) end.
    destruct (E5 (eq_trans E2 Fi)) as (E6 & _). rewrite E4 in E6. repeat (match goal with |- _ /\ _ => split end); auto; try congruence.
    destruct G as (G1 & G2 & G3 & G4 & G5 & G6), E1 as (H1' & H2' & H3' & H4' & H5' & H6'). repeat split; congruence. }
  clear - X. split; [split; auto; eapply Forall2_impl; [|exact X]; cbn; tauto|]. intros q I. clear - X I. induction X as [|q0 q1 f0 f E X IH]; [destruct I|]. destruct I as [<-|I]; [tauto|auto].
Qed.
Lemma sat_points p f0 S0 cs (b : bool) xs : forall y o o' d, sat f0 y S0 o -> points_run p (map (fun x => (if b then Load (x * CVStress p) else Unload (x * CVStress p), cs, x)) xs) o o' d ->
  sat f0 (top p S0 y (map (pair b) xs)) S0 o' /\ map d_e d = expect p f0 S0 y (map (pair b) xs) /\ map d_w d = map (fun e => e / Gs p) (map d_e d).
Proof.
  induction xs as [|x xs IH]; intros y o o' d S H; inversion H as [|m0 ss0 st0 l0 oo o1 o2 d0 C P]; subst; [split; [exact S|split; reflexivity]|].
  assert (X : sat f0 (if b then Rmax y (S0 + x * CVStress p) else y) S0 o1 /\ (forall q, In q (pores o1) -> RVC q = vol p q (if b then Rmax y (S0 + x * CVStress p) else y) (S0 + x * CVStress p))).
  { destruct b; [eapply sat_load; eauto|eapply sat_unload; eauto]. }
  destruct X as (X1 & X2). destruct (IH _ _ _ _ X1 P) as (A & B & D). destruct (sat_sum p _ _ _ _ _ X1 X2) as (E1 & E2).
  cbn [map]. unfold finish at 1 2 3. cbn [d_e d_w map expect fst snd]. rewrite !cv in *. split; [exact A|]. rewrite B, D, E1, E2. split; [reflexivity|].
  f_equal; [|rewrite B; reflexivity]. rewrite <- total_div, map_map. reflexivity.
Qed.
Lemma sat_path p f0 S0 l : forall y cs ct o o' ds, (forall s, In s l -> ist s = true) -> sat f0 y S0 o -> path_run p l cs ct o o' ds ->
  map d_e (concat ds) = expect p f0 S0 y (stresses ct l) /\ map d_w (concat ds) = map (fun e => e / Gs p) (map d_e (concat ds)).
Proof.
  induction l as [|s l IH]; intros y cs ct o o' ds A S H; inversion H; subst; [split; reflexivity|].
  assert (I : ist s = true) by (apply A; cbn; auto). unfold step_points in *. rewrite I in *.
  match goal with P : points_run _ _ _ _ _ |- _ => set (b := if Rlt_dec ct (vl s) then true else false); assert (P' : points_run p (map (fun x => (if b then Load (x * CVStress p) else Unload (x * CVStress p), cs, x)) (geometric ct (vl s) (npp s))) o o1 d) by (unfold b; destruct (Rlt_dec ct (vl s)); exact P) end.
  apply (sat_points p f0 S0) with (y := y) in P' as (P1 & P2 & P3); auto. match goal with P : path_run _ l _ _ _ _ _ |- _ => apply (IH (top p S0 y (map (pair b) (geometric ct (vl s) (npp s))))) in P as (Q1 & Q2) end; auto; [|intros; apply A; cbn; auto].
  cbn [concat stresses]. fold b. change (map (fun x : R => (b, x)) (geometric ct (vl s) (npp s))) with (map (pair b) (geometric ct (vl s) (npp s))). rewrite !map_app, expect_app, <- P2, <- Q1. split; [reflexivity|]. rewrite <- P3, <- Q2. reflexivity.
Qed.
(** A path of stress changes only: the soil stays saturated, and the void ratio at a point depends on the stress there and the highest loading stress so far, nothing else. *)
Theorem C160_saturated p l o o' ds : 0 < Gs p -> (forall s, In s l -> ist s = true) -> Calresults p l o = Ok (o', ds) ->
  exists o0, SlurryPoreSize p (new_object p) = Ok o0 /\
  forall k d, nth_error (concat ds) k = Some d ->
    exists b x, nth_error (stresses (at_stress p []) l) k = Some (b, x) /\
      d_e d = total (map (fun q => group_volume p q (highest p (firstn (S k) (stresses (at_stress p []) l))) (Rpower 10 (MinSuction p) + x * ((1 + 2 * K0 p) / 3))) (pores o0)) /\
      d_w d * Gs p = d_e d /\ (d_e d <> 0 -> d_Sr d = Some 1).
Proof.
  intros G A H. assert (FIN : forall d, In d (concat ds) -> d_Sr d = if Reqb (d_e d) 0 then None else Some (d_w d * Gs p / d_e d)).
  { pose proof H as H0. apply calresults_run in H0 as (oa & ob & S & R). cbn [fst snd] in R. apply path_nonneg in R; [|eapply slurry_dry_ok; eauto]. intros d I. apply in_concat in I as (ds0 & I1 & I2).
    rewrite Forall_forall in R. specialize (R _ I1). rewrite Forall_forall in R. destruct (R _ I2) as (ss & st & f & N & ->). reflexivity. }
  apply calresults_run in H as (oa & ob & S & R). cbn [fst snd] in R.
  assert (E : Rpower 10 (MinSuction p) = pow10 (MinSuction p)) by (unfold Rpower, pow10; f_equal; ring).
  assert (SO : exists o0, SlurryPoreSize p (new_object p) = Ok o0 /\ pores o0 = pores ob). { unfold SlurryPoreSize in S |- *. unbind S. injection S as <-. cbn [bind]. eexists. split; [reflexivity|reflexivity]. }
  destruct SO as (o0 & SO & PO). exists o0. split; auto. rewrite PO. apply slurry_all in S as (F & _ & S1 & _).
  assert (ST : sat (pores ob) (1 / 10000) (pow10 (MinSuction p)) ob). { split; auto. clear - F. induction F as [|q f (F1 & F2 & F3 & _) F IH]; constructor; auto. repeat split; auto. }
  apply (sat_path _ _ _ _ _ _ _ _ _ _ A ST) in R as (R1 & R2). intros k d N. unfold at_stress. cbn [fold_left]. rewrite E.
  assert (N1 : nth_error (map d_e (concat ds)) k = Some (d_e d)) by (rewrite nth_error_map, N; reflexivity). rewrite R1 in N1. apply expect_nth in N1 as (b & x & B1 & B2).
  assert (N2 : nth_error (map d_w (concat ds)) k = Some (d_w d)) by (rewrite nth_error_map, N; reflexivity). rewrite R2, map_map, nth_error_map, N in N2. cbn in N2. injection N2 as N2.
  exists b, x. split; auto. split. { rewrite B2. unfold highest. rewrite E. reflexivity. }
  assert (W : d_w d * Gs p = d_e d) by (rewrite <- N2; field; lra). split; auto. intros Z. rewrite (FIN d) by (eapply nth_error_In; eauto). unfold Reqb. destruct (Req_EM_T _ _); [contradiction|]. rewrite W. f_equal. field. auto.
Qed.
