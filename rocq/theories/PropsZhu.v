(** * Properties C127, C128: a layer with properties varying with depth (zhuandyin2012.py) *)
From Coq Require Import Reals List Arith ZArith Bool Lia Lra.
From Coquelicot Require Import Coquelicot.
From Verif Require Import Base RootModel SpecRoot PropsRoot PiBounds ZhuModel SpecZhu TerzaghiProofs XieProofs2 ZhuProofs ZhuProofs2 ZhuProofs3 ZhuProofs4.
Import ListNotations.
Open Scope R_scope.

(** The function whose zeros are searched: Zmu (drn = 0) or the one for a closed bottom (drn = 1). *)
Definition searched_function (J Y : R -> R -> R) (A : zhu) : R -> R := char_fn J Y A.
(** The numbers eta of a run: nterms answers of the solver, found by the search for changes of sign. *)
Definition etas_of (J Y : R -> R -> R) (fsolve : R -> R) (A : zhu) (etas : list R) : Prop :=
  length etas = a_nterms A /\
  exists is, searched (searched_function J Y A) fsolve (/ 10^8) (/ 10^5) (fun w => 0 < w) (/ 1000) is etas.
(** rate of decay belonging to eta *)
Definition rate_of (A : zhu) (eta : R) : R :=
  a_kv0 A / (a_mv0 A * a_gamw A) * ((2 - (a_p A - a_q A)) * a_alpha A / (2 * a_H A))^2 * eta^2.
(** The order of the Bessel functions. *)
Definition order (A : zhu) : R := Rabs ((1 - a_p A) / (2 - (a_p A - a_q A))).
(** The terms: their shapes solve the equation and are drained at the top; if the etas are zeros of the
    searched function they also meet the condition at the bottom, and the amplitudes are those of the
    best approximation of the initial pressure ui. *)
Definition terms (J Y : R -> R -> R) (A : zhu) (etas amps : list R) (ms : list mode) : Prop :=
  length amps = length ms /\ map rate ms = map (rate_of A) etas /\
  (forall m, In m ms -> mode_equation (the_layer A) m /\ drained_top m /\ exists z, inside (the_layer A) z /\ shape m z <> 0) /\
  ((forall eta, In eta etas -> searched_function J Y A eta = 0) ->
     (forall m, In m ms -> bottom (the_layer A) (a_drn A) m) /\ (not_tiny A -> Forall2 (projection (the_layer A) (a_ui A)) amps ms)).

Definition dec (l : list (R * mode)) (z t : R) : R := fold_right Rplus 0 (map (fun e => fst e * shape (snd e) z * exp (- rate (snd e) * t)) l).
Definition decf (l : list (R * mode)) (z t : R) : R := fold_right Rplus 0 (map (fun e => fst e * flow (snd e) z * exp (- rate (snd e) * t)) l).
Lemma dec_consolidates L l : (forall z, inside L z -> 0 < cond L z) -> (forall e, In e l -> mode_equation L (snd e)) -> consolidates L (dec l).
Proof.
  intros Hk E. exists (decf l). intros z t Hz. specialize (Hk z Hz). induction l as [|[a m] l IH].
  - exists 0, 0. unfold dec, decf. cbn. split; [|split; [|split; [|ring]]]; try apply (is_derive_const (V := R_NormedModule)). unfold Rdiv. rewrite Rmult_0_l. apply (is_derive_const (V := R_NormedModule)).
  - destruct IH as (ut & wz & I1 & I2 & I3 & I4); [intros; apply E; right; auto|]. destruct (E (a, m) (or_introl eq_refl) z Hz) as [D1 D2]. cbn [snd] in D1, D2.
    exists (a * shape m z * (- rate m) * exp (- rate m * t) + ut), (a * (- rate m * comp L z * shape m z) * exp (- rate m * t) + wz).
    set (ex := exp (- rate m * t)). unfold dec, decf in *. cbn [map fold_right fst snd] in *. fold ex. split; [|split; [|split]].
    + replace ((a * flow m z * ex + fold_right Rplus 0 (map (fun e => fst e * flow (snd e) z * exp (- rate (snd e) * t)) l)) / cond L z) with (a * (flow m z / cond L z) * ex + fold_right Rplus 0 (map (fun e => fst e * flow (snd e) z * exp (- rate (snd e) * t)) l) / cond L z) by (field; lra).
      apply (is_derive_plus (V := R_NormedModule) (fun x => a * shape m x * ex)); [|exact I1].
      apply (is_derive_ext (fun x => (a * ex) * shape m x)); [intros; match goal with |- ?u = ?v => change (@eq R u v) end; ring|]. replace (a * (flow m z / cond L z) * ex) with (a * ex * (flow m z / cond L z)) by ring. apply is_derive_scal. exact D1.
    + apply (is_derive_plus (V := R_NormedModule) (fun x => a * flow m x * ex)); [|exact I2].
      apply (is_derive_ext (fun x => (a * ex) * flow m x)); [intros; match goal with |- ?u = ?v => change (@eq R u v) end; ring|]. replace (a * (- rate m * comp L z * shape m z) * ex) with (a * ex * (- rate m * comp L z * shape m z)) by ring. apply is_derive_scal. exact D2.
    + apply (is_derive_plus (V := R_NormedModule) (fun x => a * shape m z * exp (- rate m * x))); [|exact I3]. auto_derive; [auto|]. unfold ex. match goal with |- ?u = ?v => change (@eq R u v) end. ring.
    + rewrite Rmult_plus_distr_l, I4. ring.
Qed.
Lemma dec_int L l t : 0 < depth L -> (forall z, inside L z -> 0 < comp L z /\ continuous (comp L) z) -> (forall e, In e l -> mode_equation L (snd e)) ->
  weighted L (fun z => dec l z t) (fold_right Rplus 0 (map (fun e => fst e * exp (- rate (snd e) * t) * integral L (shape (snd e))) l)).
Proof.
  intros Hd Hc E. induction l as [|[a m] l IH]; cbn [map fold_right fst snd].
  - unfold weighted, dec. cbn. eapply rint_val; [apply (is_RInt_ext (V := R_NormedModule) (fun _ => 0)); [intros; match goal with |- ?u = ?v => change (@eq R u v) end; ring|apply (is_RInt_const (V := R_NormedModule))]|]. unfold scal. cbn. unfold mult. cbn. match goal with |- ?u = ?v => change (@eq R u v) end. ring.
  - unfold weighted in *. apply (is_RInt_ext (V := R_NormedModule) (fun z => plus (scal (a * exp (- rate m * t)) (comp L z * shape m z)) (comp L z * dec l z t))).
    { intros z _. unfold dec. cbn [map fold_right fst snd]. unfold plus, scal. cbn -[dec]. unfold mult. cbn. match goal with |- ?u = ?v => change (@eq R u v) end. ring. }
    apply (is_RInt_plus (V := R_NormedModule)); [|apply IH; intros; apply E; right; auto]. apply (is_RInt_scal (V := R_NormedModule)). apply (smooth_int L Hd Hc). apply mode_smooth. apply (E (a, m)). left. auto.
Qed.

Section Results.
Variables (J Y : R -> R -> R) (fsolve : R -> R) (A : zhu).
Hypothesis Hg : sensible A.
Hypothesis HB : is_bessel J Y (order A).
Hypothesis Hf : forall g, 0 < g -> 0 < fsolve g.
Variables (fuel : nat) (zs ts : list R) (tpor : option (list R)) (por : list (list R)) (doc settle : list R).
Hypothesis Hrun : zhuandyin2012 J Y fsolve A fuel zs ts tpor = Some (Ok (por, doc, settle)).
Notation L := (the_layer A).
Notation tp := (match tpor with None => ts | Some l => l end).

Lemma run_parts : (a_drn A = 0 \/ a_drn A = 1)%Z /\ a_q A <> -1 /\ pown (1 + a_alpha A) (1 + a_q A) - 1 <> 0 /\ exists eta0 etas,
  etas_of J Y fsolve A (eta0 :: etas) /\ (forall eta, In eta (eta0 :: etas) -> 0 < eta) /\
  por = map (fun zi => map (fun ti => por1 J Y A eta0 (eta0 :: etas) zi ti) tp) zs /\
  doc = map (doc1 J Y A eta0 (eta0 :: etas)) ts /\ settle = map (settle1 J Y A eta0 (eta0 :: etas)) ts.
Proof.
  pose proof Hrun as H. unfold zhuandyin2012 in H. destruct (Reqb (2 - zn A) 0); [discriminate|].
  destruct (negb _) eqn:Ed; [discriminate|]. apply negb_false_iff, orb_true_iff in Ed.
  destruct (find_n_roots _ _ _ _ _ _ _ _ _ _) as [[etam|e]|] eqn:E3; try discriminate. injection H as H.
  assert (P0 : 0 < 101 / 100) by lra. assert (X0 : 0 < / 1000) by lra. destruct (C47_search _ _ _ _ _ _ _ _ _ _ _ P0 X0 E3) as (Ln & is & Se).
  destruct etam as [|eta0 etas]; [discriminate|]. cbn [get nth_error bind] in H. destruct (Reqb (a_mv0 A * a_gamw A) 0); [discriminate|].
  destruct (Reqb ((2 - zn A) * _) 0) eqn:E4; [discriminate|]. apply Reqb_false in E4. injection H as H1 H2 H3.
  split; [destruct Ed as [Ed|Ed]; apply Z.eqb_eq in Ed; auto|]. split; [|split].
  - intros e. apply E4. rewrite e. replace (1 + -1) with 0 by ring. unfold pown, Rpower. rewrite Rmult_0_l, exp_0. ring.
  - intros e. apply E4. rewrite e. ring.
  - exists eta0, etas. split; [split; [auto|exists is; exact Se]|]. split; [|auto].
    clear - Se Hf X0. remember (/ 1000) as st eqn:Est. clear Est. induction Se as [|st i s0 is rs L1 L2 L3 L4 L5 L6 IH]; intros b Hb; [destruct Hb|].
    destruct L3 as (A1 & A2 & A3). assert (G : 0 < guess i) by lra.
    destruct Hb as [<-|Hb]; [auto|]. apply IH; auto.
    pose proof (Hf _ G) as F. destruct L5 as [[_ ->]|[_ ->]]; lra.
Qed.
Lemma results : (a_drn A = 0 \/ a_drn A = 1)%Z /\ a_q A <> -1 /\ exists etas amps ms, etas_of J Y fsolve A etas /\ (forall eta, In eta etas -> 0 < eta) /\ etas <> [] /\
  terms J Y A etas amps ms /\ amps = map (fun eta => a_ui A * Cm_por J Y A eta) etas /\ ms = map (the_mode J Y A) etas /\
  grid_of (decayed amps ms) zs tp por /\ length doc = length ts /\ length settle = length ts /\
  exists eta0, 0 < eta0 /\ (forall j, (j < length ts)%nat -> nth j doc 0 = doc1 J Y A eta0 etas (nth j ts 0) /\ nth j settle 0 = settle1 J Y A eta0 etas (nth j ts 0)).
Proof.
  destruct run_parts as (Hd & Hq & _ & eta0 & etas0 & Et & Pos & -> & -> & ->). split; [auto|]. split; [auto|].
  set (etas := eta0 :: etas0) in *. exists etas, (map (fun eta => a_ui A * Cm_por J Y A eta) etas), (map (the_mode J Y A) etas).
  change (order A) with (znu A) in HB.
  split; [auto|]. split; [auto|]. split; [discriminate|]. split; [|split; [auto|split; [auto|split; [|split; [rewrite map_length; auto|split; [rewrite map_length; auto|]]]]]].
  - split; [rewrite !map_length; auto|]. split; [|split].
    + rewrite map_map. apply map_ext. intros eta. rewrite (rate_val J Y A Hg). reflexivity.
    + intros m Hm. apply in_map_iff in Hm. destruct Hm as (eta & <- & Hin). specialize (Pos eta Hin). split; [apply the_equation; auto|]. split; [apply the_top; auto|].
      destruct (nonzero J Y A Hg HB eta Pos) as (z & Hz & N). exists z. split; [split; cbn; lra|auto].
    + intros Hz. split.
      * intros m Hm. apply in_map_iff in Hm. destruct Hm as (eta & <- & Hin). apply (the_bottom J Y A Hg eta Hd). apply Hz; auto.
      * intros Ht. clear - Hg HB Hd Ht Pos Hz. clearbody etas. induction etas as [|eta l IH]; [constructor|]. cbn [map]. constructor; [apply (amp_ok J Y A Hg HB Hd Ht); [apply Pos; left; auto|apply Hz; left; auto]|].
        apply IH; intros; [apply Pos|apply Hz]; right; auto.
  - split; [rewrite map_length; auto|]. intros i Hi. rewrite (nth_indep _ [] (map (fun ti => por1 J Y A eta0 etas 0 ti) tp)) by (rewrite map_length; auto).
    rewrite (map_nth (fun zi => map (fun ti => por1 J Y A eta0 etas zi ti) tp)). rewrite map_length. split; [auto|]. intros j Hj.
    rewrite (nth_indep _ 0 (por1 J Y A eta0 etas (nth i zs 0) 0)) by (rewrite map_length; auto). rewrite (map_nth (fun ti => por1 J Y A eta0 etas (nth i zs 0) ti)).
    unfold por1, decayed, np_sum. assert (P0 : 0 < eta0) by (apply Pos; left; auto). clear - Hg HB P0. clearbody etas. induction etas as [|eta l IH]; [reflexivity|]. cbn [map combine fold_right fst snd]. f_equal; [|apply IH].
    rewrite (Tm_val J Y A Hg eta eta0 _ P0), (shape_val J Y A eta). ring.
  - exists eta0. split; [apply Pos; left; auto|]. intros j Hj. rewrite (nth_indep _ 0 (doc1 J Y A eta0 etas 0)) by (rewrite map_length; auto). rewrite (map_nth (doc1 J Y A eta0 etas)). split; [auto|].
    rewrite (nth_indep _ 0 (settle1 J Y A eta0 etas 0)) by (rewrite map_length; auto). apply (map_nth (settle1 J Y A eta0 etas)).
Qed.
End Results.
Lemma rate_inj A x y : sensible A -> 0 < x -> 0 < y -> rate_of A x = rate_of A y -> x = y.
Proof.
  intros Hg Hx Hy Q. unfold rate_of in Q. pose proof (lam_pos A Hg 1 ltac:(lra)) as P. 
  assert (K : a_kv0 A / (a_mv0 A * a_gamw A) * ((2 - (a_p A - a_q A)) * a_alpha A / (2 * a_H A))^2 <> 0).
  { assert (X : lam A 1 = a_kv0 A / (a_mv0 A * a_gamw A) * ((2 - (a_p A - a_q A)) * a_alpha A / (2 * a_H A))^2); [|lra].
    unfold lam, k0. change (2 - (a_p A - a_q A)) with (2 - zn A). rewrite two_r. destruct Hg as (G1 & _ & _ & _ & _ & G2 & G3). field. lra. }
  apply Rmult_eq_reg_l in Q; auto. apply Rsqr_inj; [lra|lra|]. unfold Rsqr. cbn in Q. lra.
Qed.
Lemma rates_distinct A etas ms : sensible A -> (forall eta, In eta etas -> 0 < eta) -> NoDup etas -> map rate ms = map (rate_of A) etas -> NoDup (map rate ms).
Proof.
  intros Hg Pos Hn ->. induction Hn as [|x l N Hn IH]; [constructor|]. cbn [map]. constructor; [|apply IH; intros; apply Pos; right; auto].
  intros Q. apply in_map_iff in Q. destruct Q as (y & Q & Hy). apply rate_inj in Q; auto; [subst; auto|apply Pos; right; auto|apply Pos; left; auto].
Qed.
Lemma decayed_0 a ms z : decayed a ms z 0 = combination a ms z.
Proof. unfold decayed, combination. induction (combine a ms) as [|[x m] l IH]; [reflexivity|]. cbn [map fold_right fst snd]. rewrite IH, Rmult_0_r, exp_0. ring. Qed.

(** ** C127: the pore pressures *)
(** The values returned are those of a sum of decaying terms that obeys the consolidation equation of the
    layer and is zero at the top. *)
Theorem C127_pressures : forall J Y fsolve A fuel zs ts tpor por doc settle,
  sensible A -> is_bessel J Y (order A) -> (forall g, 0 < g -> 0 < fsolve g) ->
  zhuandyin2012 J Y fsolve A fuel zs ts tpor = Some (Ok (por, doc, settle)) ->
  exists etas amps ms, etas_of J Y fsolve A etas /\ terms J Y A etas amps ms /\
    grid_of (decayed amps ms) zs (match tpor with None => ts | Some l => l end) por /\
    consolidates (the_layer A) (decayed amps ms) /\ (forall t, decayed amps ms 0 t = 0).
Proof.
  intros J Y fsolve A fuel zs ts tpor por doc settle Hg HB Hf Hrun.
  destruct (results J Y fsolve A Hg HB Hf fuel zs ts tpor por doc settle Hrun) as (Hd & Hq & etas & amps & ms & E1 & E2 & E3 & E4 & _ & _ & E5 & _).
  exists etas, amps, ms. split; [auto|]. split; [auto|]. split; [auto|]. destruct (layer_ok A Hg) as (L1 & L2 & L3). destruct E4 as (_ & _ & Em & _). split.
  - apply (dec_consolidates (the_layer A) (combine amps ms)); auto. intros [a m] Hin. cbn [snd]. apply Em. apply in_combine_r in Hin. auto.
  - intros t. unfold decayed. assert (Z : forall e, In e (combine amps ms) -> shape (snd e) 0 = 0) by (intros [a m] Hin; cbn [snd]; apply in_combine_r in Hin; apply Em; auto).
    induction (combine amps ms) as [|[a m] l IH]; [reflexivity|]. cbn [map fold_right fst snd]. rewrite IH by (intros; apply Z; right; auto). pose proof (Z (a, m) (or_introl eq_refl)) as Q. cbn [snd] in Q. rewrite Q. ring.
Qed.
(** With exact zeros: drained or closed at the bottom, and at the start the best approximation of the
    uniform ui by the shapes: the misfit is orthogonal to every shape, and no other amplitudes do better. *)
Theorem C127_exact_zeros : forall J Y fsolve A fuel zs ts tpor por doc settle,
  sensible A -> is_bessel J Y (order A) -> (forall g, 0 < g -> 0 < fsolve g) ->
  zhuandyin2012 J Y fsolve A fuel zs ts tpor = Some (Ok (por, doc, settle)) ->
  exists etas amps ms, etas_of J Y fsolve A etas /\ terms J Y A etas amps ms /\
    grid_of (decayed amps ms) zs (match tpor with None => ts | Some l => l end) por /\
    ((forall eta, In eta etas -> searched_function J Y A eta = 0) ->
       (a_drn A = 0%Z -> forall t, decayed amps ms (a_H A) t = 0) /\
       (a_drn A = 1%Z -> forall t, is_derive (fun z => decayed amps ms z t) (a_H A) 0) /\
       (NoDup etas -> not_tiny A ->
          (forall m, In m ms -> weighted (the_layer A) (fun z => shape m z * (a_ui A - decayed amps ms z 0)) 0) /\
          forall others e e', length others = length ms -> weighted (the_layer A) (fun z => (a_ui A - decayed amps ms z 0)^2) e ->
            weighted (the_layer A) (fun z => (a_ui A - combination others ms z)^2) e' -> e <= e')).
Proof.
  intros J Y fsolve A fuel zs ts tpor por doc settle Hg HB Hf Hrun.
  destruct (results J Y fsolve A Hg HB Hf fuel zs ts tpor por doc settle Hrun) as (Hd & Hq & etas & amps & ms & E1 & E2 & E3 & E4 & _ & _ & E5 & _).
  exists etas, amps, ms. split; [auto|]. split; [auto|]. split; [auto|]. intros Hz. destruct (layer_ok A Hg) as (L1 & L2 & L3).
  destruct E4 as (La & Er & Em & Ez). destruct (Ez Hz) as [Hb Hp]. split; [|split].
  - intros e t. unfold decayed. assert (Z : forall e, In e (combine amps ms) -> shape (snd e) (a_H A) = 0) by (intros [a m] Hin; cbn [snd]; apply in_combine_r in Hin; apply (Hb m Hin); auto).
    induction (combine amps ms) as [|[a m] l IH]; [reflexivity|]. cbn [map fold_right fst snd]. rewrite IH by (intros; apply Z; right; auto). pose proof (Z (a, m) (or_introl eq_refl)) as Q. cbn [snd] in Q. rewrite Q. ring.
  - intros e t. assert (Z : forall e, In e (combine amps ms) -> is_derive (shape (snd e)) (a_H A) 0).
    { intros [a m] Hin. cbn [snd]. apply in_combine_r in Hin. destruct (proj1 (Em m Hin) (a_H A) (bot_in A Hg)) as [D _]. pose proof (proj2 (Hb m Hin) e) as F. change (depth (the_layer A)) with (a_H A) in F. rewrite F in D. unfold Rdiv in D. rewrite Rmult_0_l in D. exact D. }
    change (is_derive (fun z => dec (combine amps ms) z t) (a_H A) 0). induction (combine amps ms) as [|[a m] l IH]; [unfold dec; cbn [map fold_right]; apply (is_derive_const (V := R_NormedModule) 0)|]. unfold dec in *. cbn [map fold_right fst snd].
    pose proof (is_derive_scal _ (a_H A) (a * exp (- rate m * t)) _ (Z (a, m) (or_introl eq_refl))) as D. cbn [snd] in D.
    pose proof (is_derive_plus (V := R_NormedModule) _ _ (a_H A) _ _ D (IH ltac:(intros; apply Z; right; auto))) as D2.
    eapply is_derive_ext; [|eapply (fun e => eq_ind _ (fun v => is_derive _ (a_H A) v) D2 _ e)]; [|unfold plus; cbn; ring]. intros z. unfold plus. cbn. match goal with |- ?u = ?v => change (@eq R u v) end. ring.
  - intros Hn Ht. assert (Hn' : NoDup (map rate ms)) by (apply (rates_distinct A etas ms Hg E2 Hn Er)).
    assert (Hfull : forall m, In m ms -> full (the_layer A) (a_drn A) m) by (intros m Hm; split; [apply Em; auto|split; [apply Em; auto|apply Hb; auto]]).
    assert (Eqs : forall m, In m ms -> mode_equation (the_layer A) m) by (intros; apply Em; auto).
    assert (Sm : forall c, smooth (the_layer A) (fun z => a_ui A - combination c ms z)).
    { intros c. apply (smooth_ext _ (fun z => 1 * a_ui A + (-1) * combination c ms z)); [intros; ring|]. apply (smooth_lin _ (fun _ => a_ui A)); [apply smooth_const|apply comb_smooth; auto]. }
    split.
    + intros m Hm. assert (X : 0 = integral (the_layer A) (fun z => shape m z * (a_ui A - combination amps ms z))) by (symmetry; apply (misfit_orthogonal _ L1 L2 L3 (a_drn A) Hd (a_ui A) amps ms (Hp Ht) Hfull Hn' m Hm)).
      apply weighted_integral in X; auto; [|apply smooth_mult; [apply mode_smooth; auto|apply Sm]]. unfold weighted in *. eapply is_RInt_ext; [|exact X]. intros z _. cbv beta. rewrite decayed_0. reflexivity.
    + intros others e e' Lo W1 W2.
      assert (Sq : forall c, smooth (the_layer A) (fun z => (a_ui A - combination c ms z)^2)) by (intros c; apply (smooth_ext _ (fun z => (a_ui A - combination c ms z) * (a_ui A - combination c ms z))); [intros; ring|apply smooth_mult; apply Sm]).
      assert (W1' : weighted (the_layer A) (fun z => (a_ui A - combination amps ms z)^2) e).
      { unfold weighted in *. eapply is_RInt_ext; [|exact W1]. intros z _. cbv beta. rewrite decayed_0. reflexivity. }
      apply weighted_integral in W1'; auto. apply weighted_integral in W2; auto. rewrite W1', W2. apply (best _ L1 L2 L3 (a_drn A) Hd); auto.
Qed.
(** The positive zeros of the searched function are exactly the rates of decay of the layer. *)
Theorem C127_rates : forall J Y A eta, sensible A -> is_bessel J Y (order A) -> (a_drn A = 0 \/ a_drn A = 1)%Z -> 0 < eta ->
  (searched_function J Y A eta = 0 <-> decay_rate (the_layer A) (a_drn A) (rate_of A eta)).
Proof.
  intros J Y A eta Hg HB Hd He. pose proof (decay_rates J Y A Hg HB Hd eta He) as D. 
  replace (rate_of A eta) with (lam A eta); [exact D|]. change (lam A eta) with (rate (the_mode J Y A eta)). rewrite (rate_val J Y A Hg). reflexivity.
Qed.

(** ** C128: settlement and degree of consolidation *)
Lemma doc_sum J Y A eta0 etas t : sensible A -> 0 < eta0 ->
  doc1 J Y A eta0 etas t = 1 - fold_right Rplus 0 (map (fun eta => share J Y A eta * exp (- rate_of A eta * t)) etas).
Proof.
  intros Hg H0. unfold doc1, np_sum. assert (X : fold_right Rplus 0 (map (fun eta => share J Y A eta * exp (- rate_of A eta * t)) etas) = doc_factor A * fold_right Rplus 0 (map (fun eta => Cm_doc J Y A eta * Tm A eta0 eta t) etas)); [|rewrite X; ring].
  induction etas as [|eta l IH]; cbn [map fold_right]; [ring|]. rewrite IH. rewrite (Tm_val J Y A Hg eta eta0 t H0), (rate_val J Y A Hg). unfold share, rate_of, zn. ring.
Qed.
Section Settle.
Variables (J Y : R -> R -> R) (A : zhu) (eta0 : R) (etas : list R).
Hypothesis Hg : sensible A.
Hypothesis HB : is_bessel J Y (znu A).
Hypothesis Hd : (a_drn A = 0 \/ a_drn A = 1)%Z.
Hypothesis Ht : not_tiny A.
Hypothesis H0 : 0 < eta0.
Hypothesis Pos : forall eta, In eta etas -> 0 < eta.
Hypothesis Hz : forall eta, In eta etas -> char_fn J Y A eta = 0.
Hypothesis Hq : a_q A <> -1.
Notation L := (the_layer A).
Notation amps := (map (fun eta => a_ui A * Cm_por J Y A eta) etas).
Notation ms := (map (the_mode J Y A) etas).
Definition mass : R := a_mv0 A * (pown (1 + a_alpha A) (1 + a_q A) - 1) / (1 + a_q A) * a_H A / a_alpha A.
Lemma mass_pos : 0 < mass. Proof. apply comp_total_pos; auto. Qed.
Lemma pne : pown (1 + a_alpha A) (1 + a_q A) - 1 <> 0.
Proof. intros e. pose proof mass_pos as P. unfold mass in P. rewrite e in P. unfold Rdiv in P. rewrite Rmult_0_r, !Rmult_0_l in P. lra. Qed.
Lemma settle_int t : weighted L (fun z => a_ui A - decayed amps ms z t) (settle1 J Y A eta0 etas t).
Proof.
  destruct (layer_ok A Hg) as (L1 & L2 & L3).
  assert (W1 : weighted L (fun z => dec (combine amps ms) z t) (fold_right Rplus 0 (map (fun e => fst e * exp (- rate (snd e) * t) * integral L (shape (snd e))) (combine amps ms)))).
  { apply dec_int; auto. intros [a m] Hin. cbn [snd]. apply in_combine_r in Hin. apply in_map_iff in Hin. destruct Hin as (eta & <- & Hin). apply the_equation; auto. }
  pose proof (int_comp A Hg Hq) as W2. fold mass in W2.
  unfold weighted in *. apply (is_RInt_ext (V := R_NormedModule) (fun z => minus (scal (a_ui A) (comp L z * 1)) (comp L z * dec (combine amps ms) z t))).
  { intros z _. change (decayed amps ms z t) with (dec (combine amps ms) z t). unfold minus, plus, opp, scal. cbn -[dec comp]. unfold mult. cbn -[dec comp]. match goal with |- ?u = ?v => change (@eq R u v) end. ring. }
  eapply rint_val; [apply (is_RInt_minus (V := R_NormedModule)); [apply (is_RInt_scal (V := R_NormedModule)); exact W2|exact W1]|].
  unfold settle1. replace (doc1 J Y A eta0 etas t * a_ui A * a_mv0 A * (pown (1 + a_alpha A) (1 + a_q A) - 1) / (1 + a_q A) * a_H A / a_alpha A) with (doc1 J Y A eta0 etas t * a_ui A * mass) by (unfold mass, Rdiv; ring).
  rewrite (doc_sum J Y A eta0 etas t Hg H0).
  assert (X : fold_right Rplus 0 (map (fun e => fst e * exp (- rate (snd e) * t) * integral L (shape (snd e))) (combine amps ms)) = a_ui A * mass * fold_right Rplus 0 (map (fun eta => share J Y A eta * exp (- rate_of A eta * t)) etas)).
  { pose proof Pos as Pos'. pose proof Hz as Hz'. clear W1. induction etas as [|eta l IH]; cbn [map combine fold_right fst snd]; [ring|].
    rewrite IH by (intros; first [apply Pos'|apply Hz']; right; auto).
    assert (Pe : 0 < eta) by (apply Pos'; left; auto). assert (Ze : char_fn J Y A eta = 0) by (apply Hz'; left; auto).
    pose proof (share_val J Y A Hg HB Hd Ht eta Pe Ze Hq pne) as S. fold mass in S.
    pose proof (int_shape J Y A Hg HB eta Pe) as I. apply weighted_integral in I; auto; [|apply mode_smooth, the_equation; auto]. rewrite <- I, (rate_val J Y A Hg). unfold rate_of, zn.
    set (ex := exp _). transitivity (a_ui A * ex * (share J Y A eta * mass) + a_ui A * mass * fold_right Rplus 0 (map (fun eta => share J Y A eta * exp (- (a_kv0 A / (a_mv0 A * a_gamw A) * ((2 - (a_p A - a_q A)) * a_alpha A / (2 * a_H A))^2 * eta^2) * t)) l)); [|ring].
    rewrite S. ring. }
  rewrite X. unfold minus, plus, opp, scal. cbn -[share mass rate_of]. unfold mult. cbn -[share mass rate_of]. match goal with |- ?u = ?v => change (@eq R u v) end. ring.
Qed.
Lemma shares_nonneg eta : In eta etas -> 0 <= share J Y A eta.
Proof. intros Hin. apply (share_nonneg J Y A Hg HB Hd Ht); auto. apply pne. Qed.
End Settle.

(** The settlement is the compression of the layer under the pressure that has gone: the integral over the
    depth of mv times (ui - pore pressure); the degree of consolidation is its share of the final value. *)
Theorem C128_settlement : forall J Y fsolve A fuel zs ts tpor por doc settle,
  sensible A -> is_bessel J Y (order A) -> not_tiny A -> (forall g, 0 < g -> 0 < fsolve g) ->
  zhuandyin2012 J Y fsolve A fuel zs ts tpor = Some (Ok (por, doc, settle)) ->
  exists etas amps ms final, etas_of J Y fsolve A etas /\ terms J Y A etas amps ms /\
    grid_of (decayed amps ms) zs (match tpor with None => ts | Some l => l end) por /\
    length doc = length ts /\ length settle = length ts /\ 0 < final /\ weighted (the_layer A) (fun _ => 1) final /\
    forall j, (j < length ts)%nat -> nth j settle 0 = nth j doc 0 * (a_ui A * final) /\
      ((forall eta, In eta etas -> searched_function J Y A eta = 0) ->
        weighted (the_layer A) (fun z => a_ui A - decayed amps ms z (nth j ts 0)) (nth j settle 0)).
Proof.
  intros J Y fsolve A fuel zs ts tpor por doc settle Hg HB Ht Hf Hrun.
  destruct (results J Y fsolve A Hg HB Hf fuel zs ts tpor por doc settle Hrun) as (Hd & Hq & etas & amps & ms & E1 & E2 & E3 & E4 & Ea & Eb & E5 & E6 & E7 & eta0 & P0 & E8).
  exists etas, amps, ms, (mass A). split; [auto|]. split; [auto|]. split; [auto|]. split; [auto|]. split; [auto|]. split; [apply mass_pos; auto|]. split; [apply int_comp; auto|].
  intros j Hj. destruct (E8 j Hj) as [-> ->]. split; [unfold settle1, mass, Rdiv; ring|]. intros Hz. subst amps ms. apply settle_int; auto.
Qed.
(** The degree of consolidation lies between 0 and 1, never decreases with time and tends to 1. *)
Theorem C128_degree : forall J Y fsolve A fuel zs ts tpor por doc settle,
  sensible A -> is_bessel J Y (order A) -> not_tiny A -> (forall g, 0 < g -> 0 < fsolve g) ->
  (forall g, 0 < g -> searched_function J Y A (fsolve g) = 0) ->
  zhuandyin2012 J Y fsolve A fuel zs ts tpor = Some (Ok (por, doc, settle)) ->
  exists etas degree, etas_of J Y fsolve A etas /\
    (forall j, (j < length ts)%nat -> nth j doc 0 = degree (nth j ts 0)) /\
    (forall t t', t <= t' -> degree t <= degree t' <= 1) /\ is_lim degree p_infty 1 /\
    (NoDup etas -> forall t, 0 <= t -> 0 <= degree t).
Proof.
  intros J Y fsolve A fuel zs ts tpor por doc settle Hg HB Ht Hf Hf0 Hrun.
  destruct (results J Y fsolve A Hg HB Hf fuel zs ts tpor por doc settle Hrun) as (Hd & Hq & etas & amps & ms & E1 & E2 & E3 & E4 & Ea & Eb & E5 & E6 & E7 & eta0 & P0 & E8).
  assert (Hz : forall eta, In eta etas -> char_fn J Y A eta = 0).
  { destruct E1 as (_ & is & Se). assert (X0 : 0 < / 1000) by lra. clear - Se X0 Hf Hf0. unfold searched_function in *. set (F := char_fn J Y A) in *. clearbody F. remember (/ 1000) as st eqn:Est. clear Est.
    induction Se as [|st i s0 is rs L1 L2 L3 L4 L5 L6 IH]; intros b Hb; [destruct Hb|]. destruct L3 as (A1 & A2 & A3). assert (G : 0 < guess i) by lra.
    destruct Hb as [<-|Hb]; [auto|]. apply IH; auto. pose proof (Hf _ G) as Fg. destruct L5 as [[_ ->]|[_ ->]]; lra. }
  exists etas, (doc1 J Y A eta0 etas). split; [auto|]. split; [intros; apply E8; auto|].
  assert (Ns : forall eta, In eta etas -> 0 <= share J Y A eta) by (intros; apply (shares_nonneg J Y A etas); auto).
  assert (Rp : forall eta, In eta etas -> 0 < rate_of A eta).
  { intros eta Hin. pose proof (lam_pos A Hg eta (E2 eta Hin)) as P. change (lam A eta) with (rate (the_mode J Y A eta)) in P. rewrite (rate_val J Y A Hg) in P. exact P. }
  assert (Mono : forall t t', t <= t' -> doc1 J Y A eta0 etas t <= doc1 J Y A eta0 etas t' <= 1).
  { intros t t' Hle. rewrite !(doc_sum J Y A eta0 etas _ Hg P0). clear - Ns Rp Hle.
    assert (X : fold_right Rplus 0 (map (fun eta => share J Y A eta * exp (- rate_of A eta * t')) etas) <= fold_right Rplus 0 (map (fun eta => share J Y A eta * exp (- rate_of A eta * t)) etas) /\ 0 <= fold_right Rplus 0 (map (fun eta => share J Y A eta * exp (- rate_of A eta * t')) etas)).
    { induction etas as [|eta l IH]; cbn [map fold_right]; [lra|]. destruct IH as [I1 I2]; [intros; apply Ns; right; auto|intros; apply Rp; right; auto|].
      pose proof (Ns eta (or_introl eq_refl)) as N. pose proof (Rp eta (or_introl eq_refl)) as P.
      assert (exp (- rate_of A eta * t') <= exp (- rate_of A eta * t)).
      { destruct Hle as [Hlt| ->]; [|lra]. apply Rlt_le, exp_increasing. rewrite !Ropp_mult_distr_l_reverse. apply Ropp_lt_contravar. apply Rmult_lt_compat_l; auto. }
      pose proof (exp_pos (- rate_of A eta * t')). assert (0 <= share J Y A eta * exp (- rate_of A eta * t')) by (apply Rmult_le_pos; lra).
      assert (share J Y A eta * exp (- rate_of A eta * t') <= share J Y A eta * exp (- rate_of A eta * t)) by (apply Rmult_le_compat_l; auto). lra. }
    lra. }
  split; [exact Mono|]. split.
  - apply (is_lim_ext (fun t => 1 - fold_right Rplus 0 (map (fun eta => share J Y A eta * exp (- rate_of A eta * t)) etas))); [intros; symmetry; apply doc_sum; auto|].
    assert (Lm : is_lim (fun t => fold_right Rplus 0 (map (fun eta => share J Y A eta * exp (- rate_of A eta * t)) etas)) p_infty 0).
    { clear - Rp. induction etas as [|eta l IH]; cbn [map fold_right]; [apply is_lim_const|]. replace (Finite 0) with (Rbar_plus 0 0) by (cbn; f_equal; ring). apply is_lim_plus'; [|apply IH; intros; apply Rp; right; auto].
      apply (is_lim_ext (fun t => share J Y A eta * exp (- (rate_of A eta * t)))); [intros; f_equal; f_equal; ring|]. apply lim_exp_decay. apply Rp. left. auto. }
    replace (Finite 1) with (Rbar_minus 1 0) by (cbn; f_equal; ring). apply is_lim_minus'; [apply is_lim_const|exact Lm].
  - intros Hn t H0. apply Rle_trans with (doc1 J Y A eta0 etas 0); [|apply Mono; auto].
    (* with the pressure 1: settlement at the start = integral of mv (1-u)^2 *)
    set (A1 := mkZhu (a_alpha A) (a_p A) (a_q A) (a_drn A) (a_H A) (a_kv0 A) (a_mv0 A) (a_gamw A) 1 (a_nterms A)).
    assert (Hg1 : sensible A1) by exact Hg. assert (HB1 : is_bessel J Y (znu A1)) by exact HB. assert (Hd1 : (a_drn A1 = 0 \/ a_drn A1 = 1)%Z) by exact Hd. assert (Ht1 : not_tiny A1) by exact Ht.
    assert (Hz1 : forall eta, In eta etas -> char_fn J Y A1 eta = 0) by exact Hz. assert (Hq1 : a_q A1 <> -1) by exact Hq.
    change (doc1 J Y A eta0 etas 0) with (doc1 J Y A1 eta0 etas 0).
    pose proof (settle_int J Y A1 eta0 etas Hg1 HB1 Hd1 Ht1 P0 E2 Hz1 Hq1 0) as W.
    set (amps1 := map (fun eta => a_ui A1 * Cm_por J Y A1 eta) etas) in *. set (ms1 := map (the_mode J Y A1) etas) in *.
    destruct (layer_ok A1 Hg1) as (L1 & L2 & L3).
    assert (Em : forall m, In m ms1 -> mode_equation (the_layer A1) m) by (intros m Hm; apply in_map_iff in Hm; destruct Hm as (eta & <- & Hin); apply the_equation; auto).
    assert (Hfull : forall m, In m ms1 -> full (the_layer A1) (a_drn A1) m) by (intros m Hm; split; [apply Em; auto|]; apply in_map_iff in Hm; destruct Hm as (eta & <- & Hin); split; [apply the_top; auto|apply (the_bottom J Y A1 Hg1 eta Hd1); apply Hz1; auto]).
    assert (Hp : Forall2 (projection (the_layer A1) (a_ui A1)) amps1 ms1).
    { unfold amps1, ms1. clear - Hg1 HB1 Hd1 Ht1 E2 Hz1. induction etas as [|eta l IH]; [constructor|]. cbn [map]. constructor; [apply (amp_ok J Y A1 Hg1 HB1 Hd1 Ht1); [apply E2; left; auto|apply Hz1; left; auto]|]. apply IH; intros; [apply E2|apply Hz1]; right; auto. }
    assert (Hn' : NoDup (map rate ms1)).
    { apply (rates_distinct A1 etas ms1 Hg1 E2 Hn). unfold ms1. rewrite map_map. apply map_ext. intros eta. rewrite (rate_val J Y A1 Hg1). reflexivity. }
    set (u := combination amps1 ms1). assert (Su : smooth (the_layer A1) u) by (apply comb_smooth; auto).
    assert (Sm : smooth (the_layer A1) (fun z => a_ui A1 - u z)) by (apply (smooth_ext _ (fun z => 1 * a_ui A1 + (-1) * u z)); [intros; ring|apply (smooth_lin _ (fun _ => a_ui A1)); [apply smooth_const|auto]]).
    assert (W' : settle1 J Y A1 eta0 etas 0 = integral (the_layer A1) (fun z => a_ui A1 - u z)).
    { apply weighted_integral; auto. unfold weighted in *. eapply is_RInt_ext; [|exact W]. intros z _. cbv beta. rewrite decayed_0. reflexivity. }
    assert (O : integral (the_layer A1) (fun z => u z * (a_ui A1 - u z)) = 0).
    { unfold u at 1. rewrite (integral_comb (the_layer A1) L1 L3) by auto. unfold tot. transitivity (fold_right Rplus 0 (map (fun _ : R * mode => 0) (combine amps1 ms1))).
      - f_equal. apply map_ext_in. intros [x m] Hin. cbn [fst snd]. unfold u. rewrite (misfit_orthogonal _ L1 L2 L3 (a_drn A1) Hd1 (a_ui A1) amps1 ms1 Hp Hfull Hn' m); [ring|]. apply in_combine_r in Hin. auto.
      - clear. induction (combine amps1 ms1); cbn; [auto|lra]. }
    assert (P : 0 <= integral (the_layer A1) (fun z => a_ui A1 - u z)).
    { rewrite (integral_ext _ _ (fun z => 1 * ((a_ui A1 - u z) * (a_ui A1 - u z)) + 1 * (u z * (a_ui A1 - u z)))) by (intros; cbn [a_ui A1]; ring).
      rewrite integral_lin by (auto; apply smooth_mult; auto). rewrite O.
      assert (0 <= integral (the_layer A1) (fun z => (a_ui A1 - u z) * (a_ui A1 - u z))); [|lra]. apply integral_nonneg; auto; [apply smooth_mult; auto|]. intros z. pose proof (Rle_0_sqr (a_ui A1 - u z)) as Q. exact Q. }
    rewrite <- W' in P. replace (settle1 J Y A1 eta0 etas 0) with (doc1 J Y A1 eta0 etas 0 * mass A1) in P by (unfold settle1, mass; cbn [a_ui A1]; unfold Rdiv; ring).
    pose proof (mass_pos A1 Hg1 Hq1) as M. apply Rmult_le_reg_r with (mass A1); [auto|lra].
Qed.
(** What is rejected: p - q = 2, a drainage other than 0 or 1, q = -1; and alpha = 0, drained at both ends,
    never returns. *)
Theorem C128_rejects : forall J Y fsolve A fuel zs ts tpor,
  (a_p A - a_q A = 2 -> zhuandyin2012 J Y fsolve A fuel zs ts tpor = Some (Err ZeroDivisionError)) /\
  (a_p A - a_q A <> 2 -> a_drn A <> 0%Z -> a_drn A <> 1%Z -> zhuandyin2012 J Y fsolve A fuel zs ts tpor = Some (Err UnboundLocalError)) /\
  (a_q A = -1 -> forall out, zhuandyin2012 J Y fsolve A fuel zs ts tpor <> Some (Ok out)) /\
  (a_p A - a_q A <> 2 -> a_alpha A = 0 -> a_drn A = 0%Z -> (1 <= a_nterms A)%nat -> zhuandyin2012 J Y fsolve A fuel zs ts tpor = None) /\
  (a_nterms A = 0%nat -> forall out, zhuandyin2012 J Y fsolve A fuel zs ts tpor <> Some (Ok out)).
Proof.
  intros J Y fsolve A fuel zs ts tpor. unfold zhuandyin2012. split; [|split; [|split; [|split]]].
  - intros e. unfold zn. rewrite e. destruct (Reqb (2 - 2) 0) eqn:Q; [reflexivity|]. apply Reqb_false in Q. exfalso. apply Q. ring.
  - intros N N0 N1. destruct (Reqb (2 - zn A) 0) eqn:Q; [apply Reqb_true in Q; exfalso; apply N; unfold zn in Q; lra|]. apply Z.eqb_neq in N0, N1. rewrite N0, N1. reflexivity.
  - intros e out. destruct (Reqb (2 - zn A) 0); [discriminate|]. destruct (negb _); [discriminate|]. destruct (find_n_roots _ _ _ _ _ _ _ _ _ _) as [[etam|]|]; try discriminate.
    destruct (get etam 0); [|discriminate]. cbn [bind]. destruct (Reqb (a_mv0 A * a_gamw A) 0); [discriminate|].
    match goal with |- context [Reqb ?x 0] => destruct (Reqb x 0) eqn:Q end; [discriminate|]. apply Reqb_false in Q. exfalso. apply Q. rewrite e. replace (1 + -1) with 0 by ring. unfold pown, Rpower. rewrite Rmult_0_l, exp_0. ring.
  - intros N e d Hn. destruct (Reqb (2 - zn A) 0) eqn:Q; [apply Reqb_true in Q; exfalso; apply N; unfold zn in Q; lra|]. rewrite d. cbn [Z.eqb orb negb].
    rewrite C47_start_at_root_refuted; auto; [lia|]. unfold char_fn. rewrite d. cbn [Z.eqb]. unfold Zmu, zb, pown, Rpower. rewrite e, Rplus_0_r, ln_1, Rmult_0_r, exp_0, Rmult_1_r. ring.
  - intros e out. destruct (Reqb (2 - zn A) 0); [discriminate|]. destruct (negb _); [discriminate|]. rewrite e. destruct fuel as [|fuel]; [discriminate|]. rewrite C47_none. discriminate.
Qed.

(** ** A run: constant properties written with alpha = 560, drained at both ends, one term *)
Definition exZ : zhu := mkZhu 560 0 0 0 1 1 (1/10) 10 1 1.
Definition exS (x : R) : R := sqrt (2 / PI) * exp (- (1/2) * ln x).
Definition exJ (nu x : R) : R := if Req_EM_T nu (1/2) then exS x * sin x else if Req_EM_T nu (-1/2) then exS x * cos x else exS x * (sin x / x - cos x).
Definition exY (nu x : R) : R := if Req_EM_T nu (1/2) then exS x * - cos x else if Req_EM_T nu (-1/2) then exS x * sin x else exS x * (- sin x - cos x / x).
Lemma exJ0 x : exJ (1/2) x = exS x * sin x. Proof. unfold exJ. destruct Req_EM_T; [auto|lra]. Qed.
Lemma exJd x : exJ (1/2 - 1) x = exS x * cos x. Proof. unfold exJ. destruct Req_EM_T; [lra|]. destruct Req_EM_T; [auto|lra]. Qed.
Lemma exJu x : exJ (1/2 + 1) x = exS x * (sin x / x - cos x). Proof. unfold exJ. destruct Req_EM_T; [lra|]. destruct Req_EM_T; [lra|auto]. Qed.
Lemma exY0 x : exY (1/2) x = exS x * - cos x. Proof. unfold exY. destruct Req_EM_T; [auto|lra]. Qed.
Lemma exYd x : exY (1/2 - 1) x = exS x * sin x. Proof. unfold exY. destruct Req_EM_T; [lra|]. destruct Req_EM_T; [auto|lra]. Qed.
Lemma exYu x : exY (1/2 + 1) x = exS x * (- sin x - cos x / x). Proof. unfold exY. destruct Req_EM_T; [lra|]. destruct Req_EM_T; [lra|auto]. Qed.
Lemma exS_der x : 0 < x -> is_derive exS x (- exS x / (2 * x)).
Proof. intros Hx. unfold exS. auto_derive; [auto|]. field. lra. Qed.
Lemma exS_der_mult (f : R -> R) f' x : 0 < x -> is_derive f x f' -> is_derive (fun x => exS x * f x) x (exS x * (f' - f x / (2 * x))).
Proof.
  intros Hx D. pose proof (is_derive_mult (K := R_AbsRing) _ _ x _ _ (exS_der x Hx) D Rmult_comm) as M. eapply (fun e => eq_ind _ (fun v => is_derive _ x v) M _ e).
  unfold plus, mult. cbn. match goal with |- ?u = ?v => change (@eq R u v) end. field. lra.
Qed.
Lemma ex_der (B : R -> R) (f : R -> R) f' v x : 0 < x -> (forall y, B y = exS y * f y) -> is_derive f x f' -> v = exS x * (f' - f x / (2 * x)) -> is_derive B x v.
Proof. intros Hx E D ->. apply (is_derive_ext (fun y => exS y * f y)); [intros; symmetry; apply E|]. apply exS_der_mult; auto. Qed.
Lemma ex_bessel : is_bessel exJ exY (1/2).
Proof.
  split; [|split].
  - split; intros x Hx; rewrite ?exJ0, ?exJd, ?exJu.
    + field. lra.
    + apply (ex_der _ sin (cos x)); auto; [apply exJ0|apply is_derive_sin|field; lra].
    + apply (ex_der _ cos (- sin x)); auto; [apply exJd|apply is_derive_cos|field; lra].
    + apply (ex_der _ (fun x => sin x / x - cos x) (cos x / x - sin x / x^2 + sin x)); auto; [apply exJu|auto_derive; [lra|field; lra]|field; lra].
  - split; intros x Hx; rewrite ?exY0, ?exYd, ?exYu.
    + field. lra.
    + apply (ex_der _ (fun x => - cos x) (sin x)); auto; [apply exY0|auto_derive; auto; ring|field; lra].
    + apply (ex_der _ sin (cos x)); auto; [apply exYd|apply is_derive_sin|field; lra].
    + apply (ex_der _ (fun x => - sin x - cos x / x) (- cos x + sin x / x + cos x / x^2)); auto; [apply exYu|auto_derive; [lra|field; lra]|field; lra].
  - intros x Hx. rewrite exJ0, exJu, exY0, exYu. pose proof PI_RGT_0 as PP.
    assert (S2 : exS x * exS x = 2 / (PI * x)).
    { unfold exS. transitivity (sqrt (2 / PI) * sqrt (2 / PI) * (exp (- (1/2) * ln x) * exp (- (1/2) * ln x))); [ring|]. rewrite sqrt_sqrt by (apply Rlt_le, Rdiv_lt_0_compat; lra).
      rewrite <- exp_plus. replace (- (1/2) * ln x + - (1/2) * ln x) with (- ln x) by field. rewrite exp_Ropp, exp_ln by auto. field. lra. }
    transitivity (exS x * exS x * ((sin x)^2 + (cos x)^2)); [field; lra|]. rewrite S2. pose proof (sin2_cos2 x) as Q. unfold Rsqr in Q. replace ((sin x)^2 + (cos x)^2) with 1 by (cbn; lra). ring.
Qed.
Lemma ex_order : znu exZ = 1/2.
Proof. unfold znu, zn. cbn. replace ((1 - 0) / (2 - (0 - 0))) with (1/2) by field. apply Rabs_pos_eq. lra. Qed.
Lemma ex_sensible : sensible exZ.
Proof. unfold sensible. cbn. repeat split; lra. Qed.
Lemma ex_zb : zb exZ = 561.
Proof. unfold zb, zn, pown. cbn. replace (1 - (0 - 0) / 2) with 1 by field. rewrite Rpower_1 by lra. lra. Qed.
Lemma ex_char eta : char_fn exJ exY exZ eta = - (exS eta * exS (eta * 561)) * sin (560 * eta).
Proof.
  unfold char_fn. cbn [a_drn exZ Z.eqb]. fold exZ. rewrite ex_order, ex_zb. unfold Zmu. rewrite !exJ0, !exY0. replace (560 * eta) with (eta * 561 - eta) by ring. rewrite sin_minus. ring.
Qed.
Lemma exS_pos x : 0 < exS x.
Proof. unfold exS. apply Rmult_lt_0_compat; [apply sqrt_lt_R0, Rdiv_lt_0_compat; [lra|apply PI_RGT_0]|apply exp_pos]. Qed.
Definition ex_solver (g : R) : R := PI / 560.
Lemma ex_found : find_n_roots (char_fn exJ exY exZ) ex_solver 1 (101 / 100) 2000 (/ 10^8) (/ 10^5) 8 (/ 1000) (/ 1000) = Some (Ok [PI / 560]).
Proof.
  unfold find_n_roots. pose proof PI_bounds as [P1 P2].
  assert (P3 : 3.14 < PI) by (apply Rlt_trans with 3.1415926535897932; [lra|auto]). assert (P4 : PI < 3.15) by (apply Rlt_trans with 3.1415926535897933; [auto|lra]). clear P1 P2.
  assert (Pos : forall x y, 0 < x < 0.0056 -> 0 < y < 0.0056 -> 0 < char_fn exJ exY exZ x * char_fn exJ exY exZ y).
  { intros x y Hx Hy. rewrite !ex_char. pose proof (exS_pos x). pose proof (exS_pos (x * 561)). pose proof (exS_pos y). pose proof (exS_pos (y * 561)).
    assert (S1 : 0 < sin (560 * x)) by (apply sin_gt_0; lra). assert (S2 : 0 < sin (560 * y)) by (apply sin_gt_0; lra).
    replace (- (exS x * exS (x * 561)) * sin (560 * x) * (- (exS y * exS (y * 561)) * sin (560 * y))) with ((exS x * exS (x * 561) * sin (560 * x)) * (exS y * exS (y * 561) * sin (560 * y))) by ring.
    apply Rmult_lt_0_compat; (apply Rmult_lt_0_compat; [apply Rmult_lt_0_compat; auto|auto]). }
  do 4 (rewrite run_next; [|cbn; lia|cbn; lia|apply Pos; lra]).
  rewrite run_first; [|cbn; lia|cbn; lia| | lra | unfold ex_solver; rewrite Rabs_pos_eq by lra; apply Rlt_trans with (1/1000); lra].
  - cbv zeta. rewrite run_end by (cbn; lia). reflexivity.
  - rewrite !ex_char. match goal with |- - (exS ?a * exS ?a2) * sin ?b * (- (exS ?c * exS ?c2) * sin ?d) <= 0 =>
      assert (S1 : 0 < sin b) by (apply sin_gt_0; lra); assert (S2 : sin d <= 0) by (apply sin_le_0; lra);
      assert (P : 0 < exS a * exS a2) by (apply Rmult_lt_0_compat; apply exS_pos); assert (Q : 0 < exS c * exS c2) by (apply Rmult_lt_0_compat; apply exS_pos);
      replace (- (exS a * exS a2) * sin b * (- (exS c * exS c2) * sin d)) with (exS a * exS a2 * sin b * (exS c * exS c2) * sin d) by ring;
      assert (W : 0 < exS a * exS a2 * sin b * (exS c * exS c2)) by (apply Rmult_lt_0_compat; [apply Rmult_lt_0_compat; auto|auto]) end.
    apply Rmult_le_0_l; lra.
Qed.
Example C127_witness : sensible exZ /\ is_bessel exJ exY (order exZ) /\ not_tiny exZ /\ (forall g, 0 < g -> 0 < ex_solver g) /\
  (forall g, 0 < g -> searched_function exJ exY exZ (ex_solver g) = 0) /\
  exists por doc settle, zhuandyin2012 exJ exY ex_solver exZ 8 [0; 1/2] [1; 2] None = Some (Ok (por, doc, settle)).
Proof.
  split; [apply ex_sensible|]. split; [change (order exZ) with (znu exZ); rewrite ex_order; apply ex_bessel|]. split; [left; cbn; apply Rdiv_le_0_compat; lra|].
  split; [intros; unfold ex_solver; pose proof PI_RGT_0; lra|]. split.
  - intros g _. unfold searched_function. rewrite ex_char. unfold ex_solver. replace (560 * (PI / 560)) with PI by field. rewrite sin_PI. ring.
  - unfold zhuandyin2012. destruct (Reqb (2 - zn exZ) 0) eqn:Q; [apply Reqb_true in Q; unfold zn in Q; cbn in Q; lra|]. cbn [a_drn exZ Z.eqb orb negb a_nterms]. fold exZ. rewrite ex_found. cbn [get nth_error bind].
    match goal with |- context [Reqb (?a * ?b) 0] => destruct (Reqb (a * b) 0) eqn:Q2 end; [apply Reqb_true in Q2; cbn in Q2; lra|].
    match goal with |- context [Reqb ?a 0] => destruct (Reqb a 0) eqn:Q3 end; [|eauto].
    apply Reqb_true in Q3. unfold zn, pown in Q3. cbn [a_p a_q a_alpha exZ] in Q3. replace (1 + 0) with 1 in Q3 by ring. rewrite Rpower_1 in Q3 by lra. lra.
Qed.
