(** * Proofs about the layered soil with a drain: a run *)
From Coq Require Import Reals List Arith ZArith Bool Lia Lra.
From Coquelicot Require Import Coquelicot.
From Verif Require Import Base PiecewiseModel RootModel ConstitutiveModel SpecRoot SpecPiecewise SpecLoad SpecStein SteinModel NogamiModel SpecNogami PropsRoot TerzaghiProofs SteinProofs SteinProofs3 SteinProofs4 PropsStein NogamiProofs NogamiProofs2 NogamiProofs3 NogamiProofs4.
Import ListNotations.
Local Open Scope R_scope.

(** The numbers used by a run: the radial ones sn and, for each, a row of vertical ones.  The radial ones are
    the answers of the solver in intervals where the radial function changes sign, met when going up from
    g_rx0; those of a row the same with the vertical function, going up from g_vx0 or, after the first
    row, from the first number of the row before (plus 1e-7 or the step, if less, without a drain). *)
Definition row_start (P : nogami) (sn : list R) (alps : list (list R)) (n : nat) : R :=
  (match n with O => g_vx0 P | S m => at_ (nth m alps []) 0 end) + (if Req_EM_T (at_ sn n) 0 then Rmin (/ 10^7) (g_vdx P) else 0).
Definition numbers_of (J Y : nat -> R -> R) (fsolve : (R -> R) -> R -> R) (P : nogami) (sn : list R) (alps : list (list R)) : Prop :=
  match g_drain P with
  | None => sn = [0]
  | Some d => length sn = d_nh d /\ exists is, searched (radial_characteristic J Y d) (fsolve (radial_characteristic J Y d)) (/ 10^8) (/ 10^5) (fun w => 0 < w) (g_rx0 P) is sn
  end /\
  length alps = length sn /\ forall n, (n < length sn)%nat -> length (nth n alps []) = g_nv P /\
  exists a0 i is, phia0 P = Ok a0 /\ phi_i_check P = Ok i /\
    searched (vertical_characteristic P a0 i (at_ sn n)) (fsolve (vertical_characteristic P a0 i (at_ sn n))) (/ 10^8) (/ 10^5) (fun w => 0 < w) (row_start P sn alps n) is (nth n alps []).
(** all pairs *)
Definition pairs_of (sn : list R) (alps : list (list R)) : list (R * R) := concat (map (fun p => map (pair (fst p)) (snd p)) (combine sn alps)).

Lemma pairs_in sn alps p : length alps = length sn -> In p (pairs_of sn alps) <-> exists n, (n < length sn)%nat /\ fst p = at_ sn n /\ In (snd p) (nth n alps []).
Proof.
  intros L. unfold pairs_of. rewrite in_concat. split.
  - intros (row & Hr & Hp). apply in_map_iff in Hr. destruct Hr as (x & <- & Hx). apply in_map_iff in Hp. destruct Hp as (a & <- & Ha). cbn [fst snd].
    destruct (In_nth _ _ (0, []) Hx) as (n & Hn & E). rewrite combine_length in Hn. rewrite combine_nth in E by auto. exists n. split; [lia|]. subst x. cbn [fst snd] in *. auto.
  - intros (n & Hn & E1 & E2). exists (map (pair (fst p)) (nth n alps [])). split; [apply in_map_iff; exists (nth n (combine sn alps) (0, [])); rewrite combine_nth by auto; cbn [fst snd]; change (nth n sn 0) with (at_ sn n); rewrite <- E1; split; [auto|] |].
    + assert (Q := combine_nth sn alps n 0 [] (eq_sym L)). change (nth n sn 0) with (at_ sn n) in Q. rewrite <- E1 in Q. rewrite <- Q. apply nth_In. rewrite combine_length. lia.
    + apply in_map_iff. exists (snd p). split; [destruct p; auto|auto].
Qed.
Lemma pairs_len sn alps m : length alps = length sn -> (forall n, (n < length sn)%nat -> length (nth n alps []) = m) -> length (pairs_of sn alps) = (length sn * m)%nat.
Proof.
  revert alps. induction sn as [|x sn IH]; intros alps L H; [reflexivity|]. destruct alps as [|r alps]; [discriminate|]. unfold pairs_of. cbn [combine map concat length]. rewrite app_length, map_length.
  cbn [snd]. change (concat (map (fun p => map (pair (fst p)) (snd p)) (combine sn alps))) with (pairs_of sn alps). pose proof (H 0%nat ltac:(cbn; lia)) as H0. cbn [nth] in H0. rewrite IH; [lia|cbn in L; lia|].
  intros n Hn. apply (H (S n)). cbn. lia.
Qed.
Lemma pairs_terms {T} (f : R -> R -> T) sn alps : concat (map (fun p => map (f (fst p)) (snd p)) (combine sn alps)) = map (fun p => f (fst p) (snd p)) (pairs_of sn alps).
Proof.
  unfold pairs_of. rewrite concat_map, map_map. f_equal. apply map_ext. intros p. rewrite map_map. reflexivity.
Qed.
Lemma Reqb_EM x y (a b : R) : (if Reqb x y then a else b) = if Req_EM_T x y then a else b.
Proof. destruct (Reqb x y) eqn:E; [apply Reqb_true in E|apply Reqb_false in E]; destruct Req_EM_T; auto; contradiction. Qed.

Section Run.
Variables J Y : nat -> R -> R.
Variable fsolve : (R -> R) -> R -> R.
Variable P : nogami.
Hypothesis Hf : forall f x, 0 < x -> 0 < fsolve f x.
Hypothesis Hx : 0 < g_rx0 P /\ 0 < g_rdx P /\ 0 < g_rp P /\ 0 < g_vx0 P /\ 0 < g_vdx P /\ 0 < g_vp P.
Lemma off_nonneg (x : R) : 0 <= (if Req_EM_T x 0 then Rmin (/ 10^7) (g_vdx P) else 0).
Proof. destruct Req_EM_T; [|lra]. apply Rmin_glb; [apply Rlt_le, Rinv_0_lt_compat, pow_lt; lra|lra]. Qed.
Lemma find_alp_ok fuel a0 i sn : forall prev rows, match prev with None => True | Some a => 0 < a end -> find_alp fsolve P fuel a0 i prev sn = Some (Ok rows) ->
  length rows = length sn /\ forall n, (n < length sn)%nat -> length (nth n rows []) = g_nv P /\ (forall a, In a (nth n rows []) -> exists x, 0 < x /\ a = fsolve (vertical_characteristic P a0 i (at_ sn n)) x) /\
  exists is, searched (vertical_characteristic P a0 i (at_ sn n)) (fsolve (vertical_characteristic P a0 i (at_ sn n))) (/ 10^8) (/ 10^5) (fun w => 0 < w)
    ((match n with O => match prev with None => g_vx0 P | Some a => a end | S m => at_ (nth m rows []) 0 end) + (if Req_EM_T (at_ sn n) 0 then Rmin (/ 10^7) (g_vdx P) else 0)) is (nth n rows []).
Proof.
  destruct Hx as (X1 & X2 & X3 & X4 & X5 & X6).
  induction sn as [|s sn IH]; intros prev rows Hp H; [cbn in H; injection H as <-; split; [reflexivity|intros n Hn; cbn in Hn; lia]|].
  cbn [find_alp] in H. destruct (find_n_roots _ _ _ _ _ _ _ _ _ _) as [[row|e]|] eqn:E; try discriminate.
  destruct (C47_search _ _ _ _ _ _ _ _ _ _ _ X6 X5 E) as (L & is & Se). rewrite Reqb_EM in Se.
  assert (S0 : 0 < match prev with None => g_vx0 P | Some a => a end + (if Req_EM_T s 0 then Rmin (/ 10^7) (g_vdx P) else 0)) by (pose proof (off_nonneg s); destruct prev; lra).
  pose proof (searched_pos _ (Hf (vertical_characteristic P a0 i s)) _ _ _ _ _ _ _ S0 Se) as Pos.
  assert (Z : length (row :: nil) = 1%nat) by reflexivity.
  destruct sn as [|s' sn].
  - injection H as <-. split; [reflexivity|]. intros n Hn. assert (n = 0%nat) by (cbn in Hn; lia). subst n. cbn [nth]. unfold at_ at 1. cbn [nth]. split; [auto|]. split; [intros a Ha; destruct (Pos a Ha) as (_ & x & Q); exists x; auto|]. exists is. exact Se.
  - destruct row as [|a row]; [discriminate|]. destruct (find_alp fsolve P fuel a0 i (Some a) (s' :: sn)) as [[rows'|e]|] eqn:E2; try discriminate. injection H as <-.
    destruct (IH (Some a) rows' (proj1 (Pos a (or_introl eq_refl))) E2) as (L2 & K). split; [cbn; cbn in L2; lia|].
    intros n Hn. destruct n as [|n].
    + cbn [nth]. unfold at_ at 1. cbn [nth]. split; [auto|]. split; [intros b Hb; destruct (Pos b Hb) as (_ & x & Q); exists x; auto|]. exists is. exact Se.
    + cbn [nth]. change (at_ (s :: s' :: sn) (S n)) with (at_ (s' :: sn) n). destruct (K n ltac:(cbn in *; lia)) as (K1 & K2 & is' & K3). split; [auto|]. split; [auto|]. exists is'.
      destruct n as [|n]; cbn [nth] in *; exact K3.
Qed.
Lemma run_numbers fuel zs ts tpor out : g_make_output J Y fsolve P fuel zs ts tpor = Some (Ok out) -> is_soil (nsoil P) ->
  exists sn alps a0, numbers_of J Y fsolve P sn alps /\ phia0 P = Ok a0 /\ g_after J Y P a0 sn alps zs ts tpor = Ok out /\ length sn = g_nh P /\
    (forall a, In a sn -> match g_drain P with None => a = 0 | Some d => 0 < a /\ exists x, 0 < x /\ a = fsolve (radial_characteristic J Y d) x end) /\
    forall n a, (n < length sn)%nat -> In a (nth n alps []) -> 0 < a /\ exists i x, phi_i_check P = Ok i /\ 0 < x /\ a = fsolve (vertical_characteristic P a0 i (at_ sn n)) x.
Proof.
  intros H Hs. destruct Hx as (X1 & X2 & X3 & X4 & X5 & X6). unfold g_make_output in H. destruct (negb _); [discriminate|]. destruct (find_sn J Y fsolve P fuel) as [[sn|e]|] eqn:E; try discriminate.
  destruct (phia0 P) as [a0|e] eqn:E0; [|discriminate].
  assert (Nz : Nat.eqb (g_layers P) 0 = false) by (apply Nat.eqb_neq; pose proof (gN_pos P Hs); lia). rewrite Nz in H.
  assert (S1 : match g_drain P with None => sn = [0] | Some d => length sn = d_nh d /\ exists is, searched (radial_characteristic J Y d) (fsolve (radial_characteristic J Y d)) (/ 10^8) (/ 10^5) (fun w => 0 < w) (g_rx0 P) is sn end).
  { unfold find_sn in E. destruct (g_drain P) as [d|]; [|injection E as <-; reflexivity]. exact (C47_search _ _ _ _ _ _ _ _ _ _ _ X3 X2 E). }
  assert (S2 : length sn = g_nh P) by (unfold g_nh; destruct (g_drain P); [apply S1|rewrite S1; reflexivity]).
  assert (S3 : forall a, In a sn -> match g_drain P with None => a = 0 | Some d => 0 < a /\ exists x, 0 < x /\ a = fsolve (radial_characteristic J Y d) x end).
  { intros a Ha. destruct (g_drain P) as [d|]; [|rewrite S1 in Ha; destruct Ha as [<-|[]]; reflexivity]. destruct S1 as (_ & is & Se). exact (searched_pos _ (Hf _) _ _ _ _ _ _ _ X1 Se a Ha). }
  destruct sn as [|s sn].
  { exists [], [], a0. split; [|injection H as H; split; [auto|]; split; [auto|]; split; [auto|]; split; [auto|intros n a Hn; cbn in Hn; lia]]. split; [auto|]. split; [reflexivity|]. intros n Hn; cbn in Hn; lia. }
  destruct (phi_i_check P) as [i|e] eqn:E1; [|discriminate]. destruct (find_alp fsolve P fuel a0 i None (s :: sn)) as [[alps|e]|] eqn:E2; try discriminate. injection H as H.
  destruct (find_alp_ok fuel a0 i (s :: sn) None alps I E2) as (L & K).
  exists (s :: sn), alps, a0. split; [|split; [auto|split; [auto|split; [auto|split; [auto|]]]]].
  - split; [auto|]. split; [auto|]. intros n Hn. destruct (K n Hn) as (K1 & _ & is & K3). split; [auto|]. exists a0, i, is. split; [auto|]. split; [auto|]. exact K3.
  - intros n a Hn Ha. destruct (K n Hn) as (_ & K2 & _). destruct (K2 a Ha) as (x & G1 & G2). split; [rewrite G2; auto|]. exists i, x. auto.
Qed.
Lemma a0_real a0 : phia0 P = Ok a0 -> exists p q, a0 = (RtoC p, RtoC q) /\ ((g_bctop P = 0%Z /\ p = 0 /\ q = 1) \/ (g_bctop P = 1%Z /\ p = 1 /\ q = 0)).
Proof.
  unfold phia0. destruct (Z.eqb_spec (g_bctop P) 0); [intros H; injection H as <-; exists 0, 1; auto|]. destruct (Z.eqb_spec (g_bctop P) 1); [|discriminate]. intros H; injection H as <-; exists 1, 0; auto.
Qed.
Lemma i_real i : phi_i_check P = Ok i -> (g_bcbot P = 0%Z /\ i = false) \/ (g_bcbot P = 1%Z /\ i = true).
Proof. unfold phi_i_check. destruct (Z.eqb_spec (g_bcbot P) 0); [intros H; injection H as <-; auto|]. destruct (Z.eqb_spec (g_bcbot P) 1); [intros H; injection H as <-; auto|discriminate]. Qed.

Section Results.
Hypothesis Hs : is_soil (nsoil P).
Hypothesis Hr : 0 < rad P.
Variable r : R -> R.
Hypothesis Hl : is_load (g_tim P) (g_mag P) r.
Variables p0 q0 : R.
Hypothesis Hpq : p0 <> 0 \/ q0 <> 0.
Variables (sn : list R) (alps : list (list R)).
Notation prs := (pairs_of sn alps).
Hypothesis Hp : forall p, In p prs -> 0 < snd p /\ forall k, (k < g_layers P)%nat -> coef P (snd p) (fst p) k <> 0.
Variables (zs : list R) (ts tpor : option (list R)) (out : g_output).
Hypothesis Hrun : g_after J Y P (RtoC p0, RtoC q0) sn alps zs ts tpor = Ok out.
Notation u := (gu J Y P p0 q0 prs (g_un J Y P)).
Notation s := (nsoil P).
Lemma results_por tp : tpor = Some tp -> exists A, o_por out = Some A /\ length A = length zs /\
  forall k j, (k < length zs)%nat -> (j < length tp)%nat -> 0 <= at_ zs k <= depth s (layers s) ->
  exists i, (i < layers s)%nat /\ depth s i <= at_ zs k <= depth s (S i) /\ nth j (nth k A []) 0 = u i (at_ zs k) (at_ tp j).
Proof.
  intros ->. pose proof Hrun as H. unfold g_after in H. rewrite pairs_terms in H. cbv zeta in H.
  destruct (mapM (fun z => mapM (g_por1 P _ z) tp) zs) as [A|e] eqn:EA; cbn [bind] in H; [|discriminate].
  assert (EO : o_por out = Some A). { destruct ts as [ts'|]; [destruct (mapM (g_avp1 P _) ts'); cbn [bind] in H; [|discriminate]|cbn [bind] in H]; injection H as <-; reflexivity. }
  exists A. split; [auto|]. apply mapM_Ok_Forall2 in EA. split; [eapply Forall2_len; eauto|]. intros k j Hk Hj Hz. rewrite <- (gN P Hs) in Hz. destruct (gin_layer P Hs (at_ zs k) Hz) as [I1 I2].
  exists (searchsorted (g_zlayer P) (at_ zs k)). split; [rewrite <- (gN P Hs); auto|]. split; [auto|]. pose proof (Forall2_nth _ _ _ 0 [] EA k Hk) as F. cbv beta in F. change (nth k zs 0) with (at_ zs k) in F. apply mapM_Ok_Forall2 in F.
  pose proof (Forall2_nth _ _ _ 0 0 F j Hj) as F2. cbv beta in F2. rewrite (por_eq J Y P Hs Hr r Hl p0 q0 Hpq prs Hp) in F2 by exact I1. injection F2 as F2. symmetry. exact F2.
Qed.
Lemma results_none : (tpor = None -> o_por out = None) /\ (ts = None -> o_avp out = None /\ o_set out = None).
Proof.
  pose proof Hrun as H. unfold g_after in H. cbv zeta in H.
  destruct tpor as [tp|]; [destruct (mapM _ zs) as [A|e]; cbn [bind] in H; [|discriminate]|cbn [bind] in H];
    (destruct ts as [ts'|]; [destruct (mapM (g_avp1 P _) ts'); cbn [bind] in H; [|discriminate]|cbn [bind] in H]; injection H as <-; cbn; split; intros; try discriminate; auto).
Qed.
Lemma results_avp ts' : ts = Some ts' -> length prs = (g_nh P * g_nv P)%nat -> (1 <= g_nh P)%nat -> (1 <= g_nv P)%nat ->
  exists av se, o_avp out = Some av /\ o_set out = Some se /\ length av = length ts' /\ length se = length ts' /\
  forall j, (j < length ts')%nat -> exists q, load_value (g_tim P) (g_mag P) (at_ ts' j) q /\
    over_depth s (fun _ => 1) (fun i z => u i z (at_ ts' j)) (at_ av j * depth s (layers s)) /\
    over_depth s (weight s) (fun i z => q - u i z (at_ ts' j)) (at_ se j).
Proof.
  intros -> Ln Hh Hv. pose proof Hrun as H. unfold g_after in H. rewrite pairs_terms in H. cbv zeta in H.
  set (X := match tpor with Some tp => _ | None => _ end) in H. destruct X as [por|e]; cbn [bind] in H; [|discriminate].
  destruct (mapM (g_avp1 P _) ts') as [sa|e] eqn:ES; cbn [bind] in H; [|discriminate]. injection H as H. apply mapM_Ok_Forall2 in ES. pose proof (Forall2_len _ _ _ ES) as Ls.
  exists (map fst sa), (map snd sa). rewrite <- H. cbn [o_avp o_set option_map]. split; [auto|]. split; [auto|]. rewrite !map_length. split; [auto|]. split; [auto|].
  intros j Hj. pose proof (Forall2_nth _ _ _ 0 (0, 0) ES j Hj) as F. cbv beta in F. change (nth j ts' 0) with (at_ ts' j) in F.
  destruct Hl as (L1 & L2 & L3 & L4).
  assert (Eq : exists q, interp1 (g_tim P) (g_mag P) false (at_ ts' j) = Ok q) by (apply PiecewiseProofs.interp1_ok; [auto|intros Q; rewrite Q in L2; cbn in L2; lia]).
  destruct Eq as (q & Eq). rewrite (avp_eq J Y P Hs Hr r Hl p0 q0 Hpq prs Hp _ _ Eq Ln Hh Hv) in F. injection F as F.
  pose proof (gN P Hs) as NL. pose proof (gN_pos P Hs) as NP.
  exists q. split; [apply interp1_load_value; auto; intros Q; rewrite Q in L2; cbn in L2; lia|]. split.
  - exists (fun i => gi J Y P p0 q0 prs (g_un J Y P) i (at_ ts' j)). split; [intros i Hi; rewrite <- NL in Hi; eapply gi_ok; eauto|].
    unfold at_ at 1. rewrite nth_indep with (d' := fst (0, 0)) by (rewrite map_length; lia). rewrite map_nth. rewrite <- F. cbn [fst]. rewrite <- NL.
    assert (0 < depth s (g_layers P)). { replace (g_layers P) with (S (g_layers P - 1)) by lia. apply (depth_pos (as_stein P) Hs). change (nlayers (as_stein P)) with (g_layers P). lia. }
    unfold Rdiv. rewrite Rmult_assoc, Rinv_l by lra. rewrite Rmult_1_r. apply total_ext. intros i Hi. ring.
  - exists (fun i => q * gh P i - gi J Y P p0 q0 prs (g_un J Y P) i (at_ ts' j)). split.
    + intros i Hi. rewrite <- NL in Hi. apply (is_RInt_minus (V := R_NormedModule)); [|eapply gi_ok; eauto].
      eapply rint_val; [apply (is_RInt_const (V := R_NormedModule))|]. rewrite (gdepth P) by auto. unfold scal; cbn; unfold mult; cbn. match goal with |- ?u = ?v => change (@eq R u v) end. ring.
    + unfold at_ at 1. rewrite nth_indep with (d' := snd (0, 0)) by (rewrite map_length; lia). rewrite map_nth. rewrite <- F. cbn [snd]. rewrite <- NL. apply total_ext. intros i Hi. unfold weight, at_, gmv. cbn [comp nsoil]. reflexivity.
Qed.
End Results.
End Run.
