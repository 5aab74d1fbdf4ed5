(** dim1sin_D_aDb_linear, dim1sin_a_linear_between, dim1sin_avg_between, m_from_sin_mx. *)
From Coq Require Import Reals List Arith ZArith Lia Lra.
From Coquelicot Require Import Coquelicot.
From Verif Require Import Base PiecewiseModel SpecPiecewise SpecPiecewiseApi PiecewiseProofs LayersProofs
  IntegralsGen SpectralModel SpecSpectral SpectralProofs SpectralProofs3.
Import ListNotations.
Open Scope R_scope.

Lemma is_RInt_eq (f : R -> R) a b u v : is_RInt f a b u -> u = v -> is_RInt f a b v.
Proof. intros H <-. exact H. Qed.

(** ** D_aDb *)
Lemma is_RInt_acos slabs a s mi p q : linear_in at_ ab slabs a -> In s slabs -> zt s < zb s -> mi <> 0 ->
  zt s <= p -> p <= q -> q <= zb s ->
  is_RInt (fun z => a z * cos (mi * z)) p q
   (F_cos (at_ s - a_slope s * zt s) (a_slope s) 0 0 mi q - F_cos (at_ s - a_slope s * zt s) (a_slope s) 0 0 mi p).
Proof.
  intros Ha Hin Hs Hm Hp Hpq Hq. eapply is_RInt_ext; [|apply RInt_cos; auto].
  intros z. rewrite Rmin_left, Rmax_right by lra. intros Hz.
  rewrite (profile_eq _ _ _ _ s z Ha Hin) by lra. unfold P, a_slope.
  match goal with |- ?a = ?b => change (@eq R a b) end. ring.
Qed.
Lemma is_RInt_asin slabs a s mi p q : linear_in at_ ab slabs a -> In s slabs -> zt s < zb s -> mi <> 0 ->
  zt s <= p -> p <= q -> q <= zb s ->
  is_RInt (fun z => a z * sin (mi * z)) p q
   (F_sin (at_ s - a_slope s * zt s) (a_slope s) 0 0 mi q - F_sin (at_ s - a_slope s * zt s) (a_slope s) 0 0 mi p).
Proof.
  intros Ha Hin Hs Hm Hp Hpq Hq. eapply is_RInt_ext; [|apply RInt_sin; auto].
  intros z. rewrite Rmin_left, Rmax_right by lra. intros Hz.
  rewrite (profile_eq _ _ _ _ s z Ha Hin) by lra. unfold P, a_slope.
  match goal with |- ?a = ?b => change (@eq R a b) end. ring.
Qed.
Lemma DaDb_scalar_eq asl bsl a0 t b mi : mi <> 0 ->
  DaDb_scalar asl bsl a0 t b mi = - (bsl * mi) * (F_cos (a0 - asl * t) asl 0 0 mi b - F_cos (a0 - asl * t) asl 0 0 mi t).
Proof. intros. unfold DaDb_scalar, F_cos, P, P', P'', P3. rewrite (Rmult_comm t mi), (Rmult_comm b mi). field. auto. Qed.
Lemma DaDb_vectorized_eq asl bsl a0 t b mi : mi <> 0 ->
  DaDb_vectorized asl bsl a0 t b mi = - (bsl * mi) * (F_cos (a0 - asl * t) asl 0 0 mi b - F_cos (a0 - asl * t) asl 0 0 mi t).
Proof. intros. unfold DaDb_vectorized, F_cos, P, P', P'', P3. field. auto. Qed.

Lemma stack_last z0 z1 slabs : stack z0 z1 slabs -> slabs <> [] -> exists f l,
  get slabs 0 = Ok f /\ get_last slabs = Ok l /\ In f slabs /\ In l slabs /\ zt f = z0 /\ zb l = z1.
Proof.
  induction 1 as [z|s z1 l Hs Hst IH]; intros Hne; [congruence|].
  destruct l as [|s' l].
  - inversion Hst; subst. exists s, s. cbn. repeat split; auto.
  - destruct IH as (f & la & H1 & H2 & H3 & H4 & H5 & H6); [congruence|].
    exists s, la. split; [reflexivity|]. split.
    { unfold get_last in *. cbn in *. destruct (rev l); cbn in *; exact H2. }
    split; [left; auto|]. split; [right; auto|]. auto.
Qed.

Lemma combine_map_l {A B} (f : A -> B) (m : list A) : combine (map f m) m = map (fun x => (f x, x)) m.
Proof. induction m; cbn; f_equal; auto. Qed.

Lemma DaDb_form im m slabs f l : get slabs 0 = Ok f -> get_last slabs = Ok l ->
  exists g, dim1sin_D_aDb_linear im m slabs = Ok (map (fun mi => sumn (map (fun s => g s mi) slabs) + DaDb_boundary f l mi) m) /\
   (forall s mi, mi <> 0 -> g s mi = - (b_slope s * mi) *
      (F_cos (at_ s - a_slope s * zt s) (a_slope s) 0 0 mi (zb s) - F_cos (at_ s - a_slope s * zt s) (a_slope s) 0 0 mi (zt s))).
Proof.
  intros Hf Hl. unfold dim1sin_D_aDb_linear. rewrite Hf, Hl. cbn [bind].
  destruct im; eexists; (split; [unfold vector_of; rewrite combine_map_l, map_map; cbn; reflexivity|]);
    intros; cbv beta; [apply DaDb_scalar_eq|apply DaDb_vectorized_eq|apply DaDb_vectorized_eq]; auto.
Qed.

Lemma sumn_scal k l : sumn (map (fun x => k * x) l) = k * sumn l.
Proof. induction l; cbn [map sumn]; [|rewrite IHl]; cbn [nadd n0 NumR]; ring. Qed.
Lemma map_nth_f {A B} (f : A -> B) l i d e : (i < length l)%nat -> nth i (map f l) d = f (nth i l e).
Proof. intros. rewrite (nth_indep _ d (f e)) by (rewrite map_length; auto). apply map_nth. Qed.

Lemma DaDb_weak im m slabs z0 z1 a beta i : stack z0 z1 slabs -> slabs <> [] ->
  linear_in at_ ab slabs a -> (forall s, In s slabs -> (bb s - bt s) / (zb s - zt s) = beta) ->
  (i < length m)%nat -> nth i m 0 <> 0 ->
  exists v f l I, dim1sin_D_aDb_linear im m slabs = Ok v /\ length v = length m /\
    get slabs 0 = Ok f /\ get_last slabs = Ok l /\
    is_RInt (fun z => a z * beta * (nth i m 0 * cos (nth i m 0 * z))) z0 z1 I /\
    coord v i = beta * ab l * sin (nth i m 0 * z1) - beta * at_ f * sin (nth i m 0 * z0) - I.
Proof.
  intros Hst Hne Ha Hb Hi Hm. set (mi := nth i m 0) in *.
  destruct (stack_last _ _ _ Hst Hne) as (f & l & Hf & Hl & If & Il & Zf & Zl).
  destruct (DaDb_form im m slabs f l Hf Hl) as (g & Hg & Hg').
  eexists _, f, l, (sumn (map (fun s => - g s mi) slabs)).
  split; [exact Hg|]. split; [apply map_length|]. repeat split; auto.
  - apply stack_RInt; auto. intros s Hin Hs. rewrite Hg' by auto.
    eapply is_RInt_ext; [|refine (is_RInt_eq _ _ _ _ _ (is_RInt_scal (V := R_NormedModule) (fun z => a z * cos (mi * z)) (zt s) (zb s) (beta * mi) _
       (is_RInt_acos slabs a s mi (zt s) (zb s) Ha Hin Hs Hm _ _ _)) _); try lra].
    + intros z _. unfold scal; cbn; unfold mult; cbn. ring.
    + unfold scal; cbn; unfold mult; cbn. unfold b_slope. rewrite (Hb s Hin).
      match goal with |- ?a = ?b => change (@eq R a b) end. ring.
  - unfold coord. rewrite (map_nth_f _ m i 0 0) by auto. fold mi.
    unfold DaDb_boundary. rewrite <- (Hb f If) at 2. rewrite <- (Hb l Il) at 1.
    rewrite Zf, Zl, (Rmult_comm z0 mi), (Rmult_comm z1 mi).
    replace (sumn (map (fun s => - g s mi) slabs)) with (- sumn (map (fun s => g s mi) slabs)).
    { unfold Rdiv. ring_simplify. ring. }
    { clear. induction slabs; cbn [map sumn]; cbn [nadd n0 NumR] in *; [ring|]. rewrite <- IHslabs. ring. }
Qed.

(** Strong form: a continuous. *)
Lemma joined_telescope beta m slabs z0 z1 f l : stack z0 z1 slabs -> joined slabs ->
  get slabs 0 = Ok f -> get_last slabs = Ok l ->
  sumn (map (fun s => beta * ab s * sin (m * zb s) - beta * at_ s * sin (m * zt s)) slabs) =
  beta * ab l * sin (m * z1) - beta * at_ f * sin (m * z0).
Proof.
  intros H. revert f. induction H as [z|s z1 r Hs Hst IH]; intros f Hj Hf Hl; [discriminate|].
  assert (s = f) by (unfold get in Hf; cbn in Hf; congruence). subst f.
  destruct r as [|s' r].
  - inversion Hst; subst. cbn in Hl. assert (s = l) by congruence. subst. cbn [map sumn nadd n0 NumR]. ring.
  - destruct Hj as (E & Hj).
    assert (Hl' : get_last (s' :: r) = Ok l).
    { unfold get_last in *. cbn in *. destruct (rev r); cbn in *; exact Hl. }
    specialize (IH s' Hj eq_refl Hl'). cbn [map sumn] in *. rewrite IH. cbn [nadd NumR]. rewrite E. inversion Hst; subst. ring.
Qed.
Lemma sumn_map_plus {T} (f g : T -> R) l : sumn (map (fun x => f x + g x) l) = sumn (map f l) + sumn (map g l).
Proof. induction l; cbn [map sumn]; [|rewrite IHl]; cbn [nadd n0 NumR]; ring. Qed.

Lemma DaDb_strong im m slabs z0 z1 beta da i : stack z0 z1 slabs -> slabs <> [] -> joined slabs ->
  (forall s z, In s slabs -> zt s < z < zb s -> da z = (ab s - at_ s) / (zb s - zt s)) ->
  (forall s, In s slabs -> (bb s - bt s) / (zb s - zt s) = beta) ->
  (i < length m)%nat -> nth i m 0 <> 0 ->
  exists v, dim1sin_D_aDb_linear im m slabs = Ok v /\ length v = length m /\
    is_RInt (fun z => da z * beta * sin (nth i m 0 * z)) z0 z1 (coord v i).
Proof.
  intros Hst Hne Hj Hda Hb Hi Hm. set (mi := nth i m 0) in *.
  destruct (stack_last _ _ _ Hst Hne) as (f & l & Hf & Hl & If & Il & Zf & Zl).
  destruct (DaDb_form im m slabs f l Hf Hl) as (g & Hg & Hg').
  eexists. split; [exact Hg|]. split; [apply map_length|].
  unfold coord. rewrite (map_nth_f _ m i 0 0) by auto. fold mi.
  assert (E : DaDb_boundary f l mi = beta * ab l * sin (mi * z1) - beta * at_ f * sin (mi * z0)).
  { unfold DaDb_boundary. rewrite <- (Hb f If) at 2. rewrite <- (Hb l Il) at 1.
    rewrite Zf, Zl, (Rmult_comm z0 mi), (Rmult_comm z1 mi). unfold Rdiv. rewrite ?Zf, ?Zl. ring. }
  rewrite E, <- (joined_telescope beta mi slabs z0 z1 f l) by auto. rewrite <- sumn_map_plus.
  apply stack_RInt; auto. intros s Hin Hs. rewrite Hg' by auto.
  eapply is_RInt_ext; [|refine (is_RInt_eq _ _ _ _ _ (RInt_sin (a_slope s * beta) 0 0 0 mi (zt s) (zb s) Hm) _)].
  - intros z. rewrite Rmin_left, Rmax_right by lra. intros Hz. rewrite (Hda s z Hin Hz). unfold P, a_slope.
    match goal with |- ?a = ?b => change (@eq R a b) end. ring.
  - unfold F_sin, F_cos, P, P', P'', P3, b_slope. rewrite (Hb s Hin). unfold a_slope.
    match goal with |- ?a = ?b => change (@eq R a b) end. field. repeat split; auto; lra.
Qed.

(** ** a_linear_between *)
Definition as_layer (s : slab) : layer R := mkLayer (zt s) (zb s) (at_ s) (ab s).
Lemma stack_contiguous z0 z1 slabs : stack z0 z1 slabs -> contiguous (map as_layer slabs).
Proof.
  induction 1 as [z|s z1 l Hs Hst IH]; intros k d Hk; cbn [map length] in Hk; [lia|].
  destruct k.
  - inversion Hst; subst; cbn in *; [lia|auto].
  - cbn [map nth]. apply IH. cbn in *. lia.
Qed.
Lemma stack_in z0 z1 slabs s : stack z0 z1 slabs -> In s slabs -> zt s < zb s.
Proof. induction 1; cbn; [tauto|]. intros [->|]; auto. Qed.
Lemma stack_downward z0 z1 slabs : stack z0 z1 slabs -> downward (map as_layer slabs).
Proof. intros H a Ha. apply in_map_iff in Ha as (s & <- & Hs). cbn. apply (stack_in z0 z1 slabs); auto. Qed.

Lemma stack_covers z0 z1 slabs p q : stack z0 z1 slabs -> slabs <> [] -> z0 <= p -> q <= z1 -> covers (map as_layer slabs) p q.
Proof.
  intros Hst Hne Hp Hq. destruct (stack_last _ _ _ Hst Hne) as (f & l & Hf & Hl & If & Il & Zf & Zl).
  exists (as_layer f), (as_layer l). repeat split; cbn.
  - destruct slabs; [congruence|]. cbn in *. congruence.
  - rewrite <- map_rev. unfold get_last in Hl. destruct (rev slabs); [discriminate|]. cbn. congruence.
  - lra.
  - lra.
Qed.

Definition s0 : slab := mkSlab 0 0 0 0 0 0 0 0.
Lemma as_layer_nth k slabs : nth k (map as_layer slabs) d0 = as_layer (nth k slabs s0).
Proof. change d0 with (as_layer s0). apply map_nth. Qed.

Lemma both_eq asl a0 t p q mi : mi <> 0 ->
  a_between_both asl a0 t p q mi = F_sin (a0 - asl * t) asl 0 0 mi q - F_sin (a0 - asl * t) asl 0 0 mi p.
Proof. intros. unfold a_between_both, F_sin, P, P', P'', P3. field. auto. Qed.
Lemma z1_only_eq asl a0 t b p mi : mi <> 0 ->
  a_between_z1_only asl a0 t b p mi = F_sin (a0 - asl * t) asl 0 0 mi b - F_sin (a0 - asl * t) asl 0 0 mi p.
Proof. intros. unfold a_between_z1_only, F_sin, P, P', P'', P3. rewrite (Rmult_comm b mi). field. auto. Qed.
Lemma between_eq asl a0 t b mi : mi <> 0 ->
  a_between_between asl a0 t b mi = F_sin (a0 - asl * t) asl 0 0 mi b - F_sin (a0 - asl * t) asl 0 0 mi t.
Proof. intros. unfold a_between_between, F_sin, P, P', P'', P3. rewrite (Rmult_comm b mi), (Rmult_comm t mi). field. auto. Qed.
Lemma z2_only_eq asl a0 t q mi : mi <> 0 ->
  a_between_z2_only asl a0 t q mi = F_sin (a0 - asl * t) asl 0 0 mi q - F_sin (a0 - asl * t) asl 0 0 mi t.
Proof. intros. unfold a_between_z2_only, F_sin, P, P', P'', P3. rewrite (Rmult_comm t mi). field. auto. Qed.

Local Opaque a_between_both a_between_z1_only a_between_between a_between_z2_only.

Lemma a_between1_spec m slabs z0 z1 a p q : stack z0 z1 slabs -> slabs <> [] -> linear_in at_ ab slabs a ->
  (forall mi, In mi m -> mi <> 0) -> z0 <= p -> p < q -> q <= z1 ->
  exists v, dim1sin_a_linear_between1 m slabs p q = Ok v /\ length v = length m /\
    forall i, (i < length m)%nat -> is_RInt (fun z => a z * sin (nth i m 0 * z)) p q (coord v i).
Proof.
  intros Hst Hne Ha Hm Hp Hpq Hq.
  pose proof (stack_contiguous _ _ _ Hst) as Hc. pose proof (stack_downward _ _ _ Hst) as Hd.
  pose proof (stack_covers _ _ _ p q Hst Hne Hp Hq) as Hcov.
  set (L := map as_layer slabs) in *.
  set (G mi k u v := F_sin (at_ (nth k slabs s0) - a_slope (nth k slabs s0) * zt (nth k slabs s0)) (a_slope (nth k slabs s0)) 0 0 mi v
                   - F_sin (at_ (nth k slabs s0) - a_slope (nth k slabs s0) * zt (nth k slabs s0)) (a_slope (nth k slabs s0)) 0 0 mi u).
  assert (HL : length L = length slabs) by apply map_length.
  assert (HI : forall mi, mi <> 0 -> forall k u v, (k < length L)%nat -> lx1 (nth k L d0) <= u -> u <= v -> v <= lx2 (nth k L d0) ->
      is_RInt (fun z => a z * sin (mi * z)) u v (G mi k u v)).
  { intros mi Hmi k u v Hk Hu Huv Hv. unfold L in Hu, Hv. rewrite as_layer_nth in Hu, Hv. cbn in Hu, Hv. rewrite HL in Hk.
    apply (is_RInt_asin slabs); auto; [apply nth_In; auto|]. apply (stack_in z0 z1 slabs); auto. apply nth_In; auto. }
  (* the segments do not depend on m: take m = 1 to obtain them *)
  destruct (layers_between_RInt L _ (G 1) p q Hc Hd Hcov Hpq (HI 1 R1_neq_R0)) as (i1 & i2 & Hii & Hi & Hj & Hs1 & Hs2 & Heq & _).
  assert (HX : exists l, get_last slabs = Ok l /\ lxs L = map zt slabs ++ [zb l]).
  { destruct (lxs_alt L (covers_nonempty _ _ _ Hcov)) as (s & Hs & Hx).
    destruct (stack_last _ _ _ Hst Hne) as (f & l & Hf & Hl & _). exists l. split; auto.
    rewrite Hx. unfold L at 1. rewrite map_map. f_equal. f_equal.
    unfold get_last, L in Hs, Hl. rewrite <- map_rev in Hs. destruct (rev slabs); [discriminate|]. cbn in Hs.
    assert (s = as_layer s1) by congruence. assert (l = s1) by congruence. subst. reflexivity. }
  destruct HX as (l & Hl & Hx).
  unfold dim1sin_a_linear_between1. rewrite Hl. cbn [bind]. rewrite <- Hx, Heq. cbn [bind].
  set (val mi := if Nat.eqb i1 i2 then G mi i1 p q else
       G mi i1 p (lx2 (nth i1 L d0)) +
       (sumn (map (fun k => G mi k (lx1 (nth k L d0)) (lx2 (nth k L d0))) (seq (S i1) (i2 - S i1))) +
        G mi i2 (lx1 (nth i2 L d0)) q)).
  exists (map val m). split; [|split; [apply map_length|]].
  - destruct (Nat.eqb_spec i1 i2) as [->|Hne12]; apply mapM_map; intros mi Hmi; specialize (Hm mi Hmi); unfold val.
    + cbn [mapM bind app]. rewrite (get_lt slabs i2 s0) by lia. cbn [bind sumn app nadd n0 NumR].
      rewrite both_eq by auto. rewrite Rplus_0_r. reflexivity.
    + cbn [mapM bind app]. rewrite (get_lt slabs i1 s0), (get_lt slabs i2 s0) by lia. cbn [bind].
      rewrite mapM_map with (g := fun k => G mi k (lx1 (nth k L d0)) (lx2 (nth k L d0))).
      2:{ intros k Hk. apply in_seq in Hk. rewrite (get_lt slabs k s0) by lia. cbn [bind].
          rewrite between_eq by auto. unfold L. rewrite !as_layer_nth. reflexivity. }
      cbn [bind app sumn]. rewrite sumn_app. cbn [sumn nadd n0 NumR].
      rewrite z1_only_eq, z2_only_eq by auto. unfold L. rewrite !as_layer_nth. rewrite Rplus_0_r. reflexivity.
  - intros i Hilt. unfold coord. rewrite (map_nth_f val m i 0 0) by auto.
    assert (Hmi : nth i m 0 <> 0) by (apply Hm, nth_In; auto).
    destruct (layers_between_RInt L _ (G (nth i m 0)) p q Hc Hd Hcov Hpq (HI _ Hmi)) as (j1 & j2 & Hii' & Hi' & Hj' & Hs1' & Hs2' & Heq' & HInt).
    assert (i1 = j1) by congruence. assert (i2 = j2) by congruence. subst j1 j2. exact HInt.
Qed.

(** ** avg_between *)
Lemma avg_between_spec m z r i : (r < length z)%nat -> (i < length m)%nat ->
  fst (nth r z (0, 0)) <> snd (nth r z (0, 0)) -> nth i m 0 <> 0 ->
  is_RInt (fun t => sin (nth i m 0 * t)) (fst (nth r z (0, 0))) (snd (nth r z (0, 0)))
    ((snd (nth r z (0, 0)) - fst (nth r z (0, 0))) * entry (dim1sin_avg_between m z) r i).
Proof.
  intros Hr Hi Hne Hm. unfold entry, dim1sin_avg_between.
  rewrite (map_nth_f _ z r [] (0, 0)) by auto. rewrite (map_nth_f _ m i 0 0) by auto.
  set (p := fst _) in *. set (q := snd _) in *. set (mi := nth i m 0) in *.
  eapply is_RInt_ext; [|refine (is_RInt_eq _ _ _ _ _ (RInt_sin 1 0 0 0 mi p q Hm) _)].
  - intros t _. unfold P. match goal with |- ?a = ?b => change (@eq R a b) end. ring.
  - unfold F_sin, P, P', P'', P3. rewrite (Rmult_comm p mi), (Rmult_comm q mi).
    match goal with |- ?a = ?b => change (@eq R a b) end. field. repeat split; auto; lra.
Qed.
