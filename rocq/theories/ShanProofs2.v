(** * The parts of the solution (shanetal2012.py) *)
From Coq Require Import Reals List Arith ZArith Bool Lia Lra String.
From Coquelicot Require Import Coquelicot.
From Verif Require Import Base SpecLu SpecShan TerzaghiModel TerzaghiProofs TangProofs ShanModel ShanProofs.
Import ListNotations.
Open Scope R_scope.

Lemma np_sum_ssum f n : np_sum (map f (seq 0 n)) = ssum f n.
Proof.
  unfold np_sum. induction n as [|n IH]; [reflexivity|]. rewrite seq_S, map_app, fold_left_app, IH. reflexivity.
Qed.
(** what numpy.linalg.eig is relied on for *)
Definition is_eigen (N : m22) (d : (R * R) * m22) : Prop :=
  eigen (m11 N) (m12 N) (m21 N) (m22_ N) (fst (fst d)) (snd (fst d)) (m11 (snd d)) (m12 (snd d)) (m21 (snd d)) (m22_ (snd d)).
Definition is_inverse (A B : m22) : Prop := dot2 A B = M22 1 0 0 1 /\ dot2 B A = M22 1 0 0 1.
Lemma inv2_ok A : det2 A <> 0 -> exists B, inv2 A = Ok B /\ is_inverse A B.
Proof.
  intros D. eexists. split; [unfold inv2; destruct (Reqb (det2 A) 0) eqn:E; [apply Reqb_true in E; tauto|reflexivity]|].
  destruct A as [a b c d]. unfold is_inverse, dot2, det2 in *; cbn in *. split; f_equal; field; auto.
Qed.
Lemma inv2_err A : det2 A = 0 -> inv2 A = Err LinAlgError.
Proof. intros D. unfold inv2. apply Reqb_true in D. rewrite D. reflexivity. Qed.
Lemma apply_dot A B x : apply2 (dot2 A B) x = apply2 A (apply2 B x).
Proof. destruct A, B, x. unfold apply2, dot2; cbn. f_equal; ring. Qed.
Lemma apply_1 x : apply2 (M22 1 0 0 1) x = x. Proof. destruct x. unfold apply2; cbn. f_equal; ring. Qed.
Lemma apply_add A x y : apply2 A (add2 x y) = add2 (apply2 A x) (apply2 A y).
Proof. destruct A, x, y. unfold apply2, add2; cbn. f_equal; ring. Qed.
Lemma apply_scal A c x : apply2 A (scal2 c x) = scal2 c (apply2 A x).
Proof. destruct A, x. unfold apply2, scal2; cbn. f_equal; ring. Qed.

Section Solution.
Variable P : shan.
Notation H := (s_H P).
Notation C := (Cmat P).
Notation K := (Kmat P).
Hypothesis HH : 0 < H.
Hypothesis Hdrn : (s_drn P = 0 \/ s_drn P = 1)%Z.
Definition the_layer : unsat_layer := mkUnsat H (s_drn P) (s_Cw P) (s_Cvw P) (s_Ca P) (s_Cva P) (s_Csw P) (s_Csa P).
Lemma M_mu k : s_M P k = mu the_layer k.
Proof. unfold s_M, mu. cbn [ul_drn the_layer]. destruct Hdrn as [E|E]; rewrite E; cbn [Z.eqb Pos.eqb]; [rewrite plus_INR; cbn; ring|field]. Qed.
Lemma M_pos k : 0 < s_M P k. Proof. rewrite M_mu. apply mu_pos. Qed.

(** A part u of the solution, with the source g. *)
Definition part (u g : R -> R -> R * R) : Prop := forall z t, exists (wz az : R -> R) (wt at' wzz azz : R),
  is_derive (fun s => fst (u z s)) t wt /\ is_derive (fun s => snd (u z s)) t at' /\
  (forall y, is_derive (fun x => fst (u x t)) y (wz y)) /\ is_derive wz z wzz /\
  (forall y, is_derive (fun x => snd (u x t)) y (az y)) /\ is_derive az z azz /\
  add2 (apply2 C (wt, at')) (apply2 K (wzz, azz)) = g z t.
Lemma part_add u1 g1 u2 g2 : part u1 g1 -> part u2 g2 -> part (fun z t => add2 (u1 z t) (u2 z t)) (fun z t => add2 (g1 z t) (g2 z t)).
Proof.
  intros P1 P2 z t. destruct (P1 z t) as (w1 & a1 & b1 & c1 & d1 & e1 & A1 & A2 & A3 & A4 & A5 & A6 & A7). destruct (P2 z t) as (w2 & a2 & b2 & c2 & d2 & e2 & B1 & B2 & B3 & B4 & B5 & B6 & B7).
  exists (fun y => w1 y + w2 y), (fun y => a1 y + a2 y), (b1 + b2), (c1 + c2), (d1 + d2), (e1 + e2).
  split; [|split; [|split; [|split; [|split; [|split]]]]].
  - apply (is_derive_plus (V := R_NormedModule) (fun s => fst (u1 z s)) (fun s => fst (u2 z s))); auto.
  - apply (is_derive_plus (V := R_NormedModule) (fun s => snd (u1 z s)) (fun s => snd (u2 z s))); auto.
  - intros y. apply (is_derive_plus (V := R_NormedModule) (fun x => fst (u1 x t)) (fun x => fst (u2 x t))); auto.
  - apply (is_derive_plus (V := R_NormedModule) w1 w2); auto.
  - intros y. apply (is_derive_plus (V := R_NormedModule) (fun x => snd (u1 x t)) (fun x => snd (u2 x t))); auto.
  - apply (is_derive_plus (V := R_NormedModule) a1 a2); auto.
  - rewrite <- A7, <- B7. unfold add2, apply2; cbn. f_equal; ring.
Qed.
Lemma sum_S_eq X z : sum_S P X z = (ssum (fun k => sin (s_M P k * z / H) * fst (X k)) (s_nterms P), ssum (fun k => sin (s_M P k * z / H) * snd (X k)) (s_nterms P)).
Proof. unfold sum_S. rewrite !np_sum_ssum. reflexivity. Qed.
(** A series whose terms grow with the rate Y. *)
Lemma series_part (X Y G : nat -> R -> R * R) :
  (forall k t, is_derive (fun s => fst (X k s)) t (fst (Y k t)) /\ is_derive (fun s => snd (X k s)) t (snd (Y k t)) /\
     apply2 C (Y k t) = add2 (scal2 ((s_M P k / H)^2) (apply2 K (X k t))) (G k t)) ->
  part (fun z t => sum_S P (fun k => X k t) z) (fun z t => sum_S P (fun k => G k t) z).
Proof.
  intros HX z t. set (n := s_nterms P).
  exists (fun y => ssum (fun k => s_M P k / H * cos (s_M P k * y / H) * fst (X k t)) n), (fun y => ssum (fun k => s_M P k / H * cos (s_M P k * y / H) * snd (X k t)) n),
    (ssum (fun k => sin (s_M P k * z / H) * fst (Y k t)) n), (ssum (fun k => sin (s_M P k * z / H) * snd (Y k t)) n),
    (ssum (fun k => - (s_M P k / H)^2 * sin (s_M P k * z / H) * fst (X k t)) n), (ssum (fun k => - (s_M P k / H)^2 * sin (s_M P k * z / H) * snd (X k t)) n).
  split; [|split; [|split; [|split; [|split; [|split]]]]].
  - apply (is_derive_ext (fun s => ssum (fun k => sin (s_M P k * z / H) * fst (X k s)) n)); [intros s; rewrite sum_S_eq; reflexivity|].
    apply (ssum_derive (fun k s => sin (s_M P k * z / H) * fst (X k s)) (fun k s => sin (s_M P k * z / H) * fst (Y k s))). intros k _. apply (is_derive_scal (fun s => fst (X k s))). apply HX.
  - apply (is_derive_ext (fun s => ssum (fun k => sin (s_M P k * z / H) * snd (X k s)) n)); [intros s; rewrite sum_S_eq; reflexivity|].
    apply (ssum_derive (fun k s => sin (s_M P k * z / H) * snd (X k s)) (fun k s => sin (s_M P k * z / H) * snd (Y k s))). intros k _. apply (is_derive_scal (fun s => snd (X k s))). apply HX.
  - intros y. apply (is_derive_ext (fun x => ssum (fun k => sin (s_M P k * x / H) * fst (X k t)) n)); [intros s; rewrite sum_S_eq; reflexivity|].
    apply (ssum_derive (fun k x => sin (s_M P k * x / H) * fst (X k t)) (fun k x => s_M P k / H * cos (s_M P k * x / H) * fst (X k t))). intros k _. auto_derive; [auto|]. cbn [pow]. unfold Rdiv. field. lra.
  - apply (ssum_derive (fun k y => s_M P k / H * cos (s_M P k * y / H) * fst (X k t)) (fun k x => - (s_M P k / H)^2 * sin (s_M P k * x / H) * fst (X k t))). intros k _. auto_derive; [auto|]. cbn [pow]. unfold Rdiv. field. lra.
  - intros y. apply (is_derive_ext (fun x => ssum (fun k => sin (s_M P k * x / H) * snd (X k t)) n)); [intros s; rewrite sum_S_eq; reflexivity|].
    apply (ssum_derive (fun k x => sin (s_M P k * x / H) * snd (X k t)) (fun k x => s_M P k / H * cos (s_M P k * x / H) * snd (X k t))). intros k _. auto_derive; [auto|]. cbn [pow]. unfold Rdiv. field. lra.
  - apply (ssum_derive (fun k y => s_M P k / H * cos (s_M P k * y / H) * snd (X k t)) (fun k x => - (s_M P k / H)^2 * sin (s_M P k * x / H) * snd (X k t))). intros k _. auto_derive; [auto|]. cbn [pow]. unfold Rdiv. field. lra.
  - rewrite sum_S_eq. unfold add2, apply2; cbn [fst snd]. fold n. rewrite <- !ssum_scal, <- !ssum_plus. f_equal; apply ssum_ext; intros k _.
    + destruct (HX k t) as (_ & _ & E). apply (f_equal fst) in E. unfold apply2, add2, scal2 in E; cbn [fst snd] in E. cbn [Kmat m11 m12 m21 m22_] in *. replace (fst (G k t)) with (m11 C * fst (Y k t) + m12 C * snd (Y k t) - (s_M P k / H)^2 * (s_Cvw P * fst (X k t) + 0 * snd (X k t))) by (rewrite E; ring). ring.
    + destruct (HX k t) as (_ & _ & E). apply (f_equal snd) in E. unfold apply2, add2, scal2 in E; cbn [fst snd] in E. cbn [Kmat m11 m12 m21 m22_] in *. replace (snd (G k t)) with (m21 C * fst (Y k t) + m22_ C * snd (Y k t) - (s_M P k / H)^2 * (0 * fst (X k t) + s_Cva P * snd (X k t))) by (rewrite E; ring). ring.
Qed.

Variables (eigs : R * R) (v Iv IC : m22).
Hypothesis HIC : is_inverse C IC.
Hypothesis HIv : is_inverse v Iv.
Hypothesis Heig : is_eigen (dot2 IC K) (eigs, v).
Notation resp := (response eigs v Iv).
Lemma resp_one X : resp (fun _ => 1) X = X.
Proof.
  unfold response. rewrite !Rmult_1_l, <- surjective_pairing, <- apply_dot. rewrite (proj1 HIv). apply apply_1.
Qed.
Lemma resp_eig E X : apply2 C (resp (fun e => e * E e) X) = apply2 K (resp E X).
Proof.
  assert (Y : resp (fun e => e * E e) X = apply2 (dot2 IC K) (resp E X)).
  { unfold response. set (a := apply2 Iv X). destruct Heig as (E1 & E2 & E3 & E4 & _). cbn [fst snd] in *. set (N := dot2 IC K) in *. clearbody N. unfold apply2; cbn [fst snd]. f_equal.
    - transitivity (E (fst eigs) * fst a * (fst eigs * m11 v) + E (snd eigs) * snd a * (snd eigs * m12 v)); [ring|]. rewrite <- E1, <- E3. ring.
    - transitivity (E (fst eigs) * fst a * (fst eigs * m21 v) + E (snd eigs) * snd a * (snd eigs * m22_ v)); [ring|]. rewrite <- E2, <- E4. ring. }
  rewrite Y, apply_dot, <- apply_dot, (proj1 HIC). apply apply_1.
Qed.
Lemma resp_lin E F c X : resp (fun e => c * E e + F e) X = add2 (scal2 c (resp E X)) (resp F X).
Proof. unfold response, apply2, add2, scal2; cbn [fst snd]. f_equal; ring. Qed.
Lemma resp_ext E F X : E (fst eigs) = F (fst eigs) -> E (snd eigs) = F (snd eigs) -> resp E X = resp F X.
Proof. intros E1 E2. unfold response. rewrite E1, E2. reflexivity. Qed.
Lemma resp_const c X : resp (fun _ => c) X = scal2 c X.
Proof. rewrite (resp_ext _ (fun e => c * 1 + 0)) by ring. rewrite (resp_lin (fun _ => 1) (fun _ => 0)), resp_one. unfold response, apply2, add2, scal2; cbn [fst snd]. f_equal; ring. Qed.
Lemma resp_derive (E E' : R -> R -> R) X t : is_derive (E (fst eigs)) t (E' (fst eigs) t) -> is_derive (E (snd eigs)) t (E' (snd eigs) t) ->
  is_derive (fun s => fst (resp (fun e => E e s) X)) t (fst (resp (fun e => E' e t) X)) /\ is_derive (fun s => snd (resp (fun e => E e s) X)) t (snd (resp (fun e => E' e t) X)).
Proof.
  intros D1 D2. unfold response. set (a := apply2 Iv X). unfold apply2; cbn [fst snd].
  split.
  - apply (is_derive_ext (fun s => m11 v * fst a * E (fst eigs) s + m12 v * snd a * E (snd eigs) s)); [intros; match goal with |- ?u = ?w => change (@eq R u w) end; ring|].
    eapply (fun e => eq_ind _ (fun w => is_derive _ t w) (is_derive_plus (V := R_NormedModule) _ _ _ _ _ (is_derive_scal (E (fst eigs)) t (m11 v * fst a) _ D1) (is_derive_scal (E (snd eigs)) t (m12 v * snd a) _ D2)) _ e).
    unfold plus; cbn. ring.
  - apply (is_derive_ext (fun s => m21 v * fst a * E (fst eigs) s + m22_ v * snd a * E (snd eigs) s)); [intros; match goal with |- ?u = ?w => change (@eq R u w) end; ring|].
    eapply (fun e => eq_ind _ (fun w => is_derive _ t w) (is_derive_plus (V := R_NormedModule) _ _ _ _ _ (is_derive_scal (E (fst eigs)) t (m21 v * fst a) _ D1) (is_derive_scal (E (snd eigs)) t (m22_ v * snd a) _ D2)) _ e).
    unfold plus; cbn. ring.
Qed.
(** One term with E' = m2 e E + g. *)
Lemma resp_ode (m2 : R) (E : R -> R -> R) (g : R -> R) X t :
  (forall e, e = fst eigs \/ e = snd eigs -> is_derive (E e) t (m2 * e * E e t + g t)) ->
  is_derive (fun s => fst (resp (fun e => E e s) X)) t (fst (resp (fun e => m2 * e * E e t + g t) X)) /\
  is_derive (fun s => snd (resp (fun e => E e s) X)) t (snd (resp (fun e => m2 * e * E e t + g t) X)) /\
  apply2 C (resp (fun e => m2 * e * E e t + g t) X) = add2 (scal2 m2 (apply2 K (resp (fun e => E e t) X))) (scal2 (g t) (apply2 C X)).
Proof.
  intros D. destruct (resp_derive E (fun e s => m2 * e * E e s + g s) X t) as [A B]; [apply D; auto|apply D; auto|]. split; [exact A|split; [exact B|]].
  rewrite (resp_ext _ (fun e => m2 * (e * E e t) + g t)) by ring. rewrite (resp_lin (fun e => e * E e t) (fun _ => g t)), apply_add, apply_scal, resp_eig, resp_const, apply_scal. reflexivity.
Qed.

(** the initial part *)
Lemma initial_is_part : part (initial_part P eigs v Iv) (fun _ _ => (0, 0)).
Proof.
  intros z t.
  destruct (series_part (fun k t => resp (fun e => exp ((s_M P k)^2 / H^2 * e * t)) (g_coef P (s_uwi P) k, g_coef P (s_uai P) k))
    (fun k t => resp (fun e => (s_M P k / H)^2 * e * exp ((s_M P k)^2 / H^2 * e * t) + 0) (g_coef P (s_uwi P) k, g_coef P (s_uai P) k)) (fun _ _ => (0, 0))) with (z := z) (t := t) as (wz & az & wt & at' & wzz & azz & A1 & A2 & A3 & A4 & A5 & A6 & A7).
  - intros k s. destruct (resp_ode ((s_M P k / H)^2) (fun e t => exp ((s_M P k)^2 / H^2 * e * t)) (fun _ => 0) (g_coef P (s_uwi P) k, g_coef P (s_uai P) k) s) as (B1 & B2 & B3).
    + intros e _. replace ((s_M P k / H)^2 * e) with ((s_M P k)^2 / H^2 * e) by (field; lra). set (c := (s_M P k)^2 / H^2 * e). auto_derive; [auto|]. ring.
    + split; [exact B1|split; [exact B2|]]. rewrite B3. f_equal. unfold scal2. f_equal; ring.
  - exists wz, az, wt, at', wzz, azz. repeat (split; [assumption|]). rewrite A7, sum_S_eq. cbn [fst snd]. f_equal; apply ssum_0'; intros; ring.
Qed.
(** derivative of the load *)
Definition l_rate (l : load) (t : R) : R := match l with LExp q0 b => q0 * b * exp (- b * t) | LSin q0 w => q0 * w * cos (w * t) end.
Lemma l_value_d l t : is_derive (l_value l) t (l_rate l t).
Proof. destruct l; unfold l_value, l_rate; auto_derive; auto; ring. Qed.
(** no division by zero in the load's response *)
Definition l_fine (l : load) (M e : R) : Prop := match l with LExp _ b => b + e * M^2 <> 0 | LSin _ w => e^2 * M^4 + w^2 <> 0 end.
Lemma E_load_d l M e t : l_fine l M e -> is_derive (fun s => E_load l s M e) t (M^2 * e * E_load l t M e + l_rate l t).
Proof.
  intros F. replace (M^2 * e) with (e * M^2) by ring. destruct l as [q0 b|q0 w]; cbn [l_fine E_load l_rate] in *.
  - unfold E_exp_load_dt. set (c := e * M^2) in *. clearbody c. auto_derive; [auto|]. field. auto.
  - unfold E_sin_load_dt. pose (c := e * M^2). replace (e^2 * M^4) with (c^2) in F by (unfold c; ring).
    apply (is_derive_ext (fun s => w * q0 * (- c * cos (w * s) + c * exp (c * s) + w * sin (w * s)) / (c^2 + w^2))).
    { intros s. unfold c. replace ((e * M^2)^2) with (e^2 * M^4) by ring. f_equal. f_equal. ring. }
    replace (w * q0 * (- e * M^2 * cos (w * t) + e * M^2 * exp (e * M^2 * t) + w * sin (w * t)) / (e^2 * M^4 + w^2)) with (w * q0 * (- c * cos (w * t) + c * exp (c * t) + w * sin (w * t)) / (c^2 + w^2)) by (unfold c; replace ((e * M^2)^2) with (e^2 * M^4) by ring; f_equal; f_equal; ring).
    change (e * M^2) with c. clearbody c. auto_derive; [auto|]. field. cbn [pow] in F |- *. auto.
Qed.
Lemma E_load_0 l M e : E_load l 0 M e = 0.
Proof.
  destruct l; cbn [E_load]; unfold E_exp_load_dt, E_sin_load_dt; rewrite !Rmult_0_r, exp_0; [|rewrite sin_0, cos_0]; unfold Rdiv; ring.
Qed.
Definition fine (l : load) : Prop := forall k, (k < s_nterms P)%nat -> l_fine l (s_M P k / H) (fst eigs) /\ l_fine l (s_M P k / H) (snd eigs).
Lemma sum_S_ext X Y z : (forall k, (k < s_nterms P)%nat -> X k = Y k) -> sum_S P X z = sum_S P Y z.
Proof. intros E. rewrite !sum_S_eq. f_equal; apply ssum_ext; intros k Hk; rewrite E by auto; reflexivity. Qed.
Lemma load_is_part l igral Csig : fine l ->
  part (fun z t => load_part P eigs v Iv IC z t l igral Csig) (fun z t => scal2 (l_rate l t * ssum (fun k => igral k * sin (s_M P k * z / H)) (s_nterms P)) Csig).
Proof.
  intros Fi z t. unfold load_part.
  (* terms beyond the sum are replaced *)
  pose (Ek := fun k (e s : R) => if lt_dec k (s_nterms P) then E_load l s (s_M P k / H) e else 0).
  pose (gk := fun k (s : R) => if lt_dec k (s_nterms P) then l_rate l s else 0).
  pose (Xk := fun k => scal2 (igral k) (apply2 IC Csig)).
  destruct (series_part (fun k t => resp (fun e => Ek k e t) (Xk k)) (fun k t => resp (fun e => (s_M P k / H)^2 * e * Ek k e t + gk k t) (Xk k)) (fun k t => scal2 (gk k t) (apply2 C (Xk k)))) with (z := z) (t := t) as (wz & az & wt & at' & wzz & azz & A1 & A2 & A3 & A4 & A5 & A6 & A7).
  - intros k s. apply (resp_ode ((s_M P k / H)^2) (Ek k) (gk k) (Xk k) s). intros e He. unfold Ek, gk. destruct (lt_dec k (s_nterms P)) as [Hk|Hk].
    + apply E_load_d. destruct (Fi k Hk). destruct He as [-> | ->]; auto.
    + apply (is_derive_ext (fun _ => 0)); [auto|]. rewrite Rmult_0_r, Rplus_0_l. apply (is_derive_const (K := R_AbsRing) (V := R_NormedModule)).
  - assert (Ext : forall x s, sum_S P (fun k => resp (fun e => Ek k e s) (Xk k)) x = sum_S P (fun k => resp (E_load l s (s_M P k / H)) (scal2 (igral k) (apply2 IC Csig))) x).
    { intros x s. apply sum_S_ext. intros k Hk. unfold Xk. apply resp_ext; unfold Ek; destruct (lt_dec k (s_nterms P)); auto; lia. }
    exists wz, az, wt, at', wzz, azz.
    split; [eapply is_derive_ext; [|exact A1]; intros s; cbn beta; rewrite Ext; reflexivity|].
    split; [eapply is_derive_ext; [|exact A2]; intros s; cbn beta; rewrite Ext; reflexivity|].
    split; [intros y; eapply is_derive_ext; [|exact (A3 y)]; intros s; cbn beta; rewrite Ext; reflexivity|].
    split; [exact A4|]. split; [intros y; eapply is_derive_ext; [|exact (A5 y)]; intros s; cbn beta; rewrite Ext; reflexivity|]. split; [exact A6|].
    rewrite A7, sum_S_eq. unfold scal2. cbn [fst snd].
    assert (CX : forall k, apply2 C (Xk k) = scal2 (igral k) Csig) by (intros k; unfold Xk; rewrite apply_scal, <- apply_dot, (proj1 HIC), apply_1; reflexivity).
    f_equal; rewrite (Rmult_assoc (l_rate l t)), (Rmult_comm (ssum _ _) _), <- ssum_scal, <- ssum_scal; apply ssum_ext; intros k Hk; rewrite CX; unfold scal2, gk; cbn [fst snd]; (destruct (lt_dec k (s_nterms P)); [ring|lia]).
Qed.
(** pressure prescribed at an end: linear with depth *)
Lemma lift_is_part (top : bool) l a b :
  part (fun z t => if top then (l_value l t * linear_with_depth H a b z, 0) else (0, l_value l t * linear_with_depth H a b z))
       (fun z t => scal2 (l_rate l t * linear_with_depth H a b z) (if top then (1, s_Ca P) else (s_Cw P, 1))).
Proof.
  intros z t. pose (sl := fun _ : R => l_value l t * ((b - a) / H)). pose (zr := fun _ : R => 0).
  assert (D0 : forall x, is_derive zr x 0) by (intros; apply (is_derive_const (K := R_AbsRing) (V := R_NormedModule))).
  assert (D1 : is_derive (fun s => l_value l s * linear_with_depth H a b z) t (l_rate l t * linear_with_depth H a b z)).
  { apply (is_derive_ext (fun s => linear_with_depth H a b z * l_value l s)); [intros; apply Rmult_comm|]. rewrite Rmult_comm. apply (is_derive_scal (l_value l)). apply l_value_d. }
  assert (D2 : forall y, is_derive (fun x => l_value l t * linear_with_depth H a b x) y (sl y)) by (intros y; unfold linear_with_depth, sl; auto_derive; [auto|field; lra]).
  assert (D3 : is_derive sl z 0) by (apply (is_derive_const (K := R_AbsRing) (V := R_NormedModule))).
  destruct top.
  - exists sl, zr, (l_rate l t * linear_with_depth H a b z), 0, 0, 0. cbn [fst snd]. repeat (split; [try assumption; try apply D0; intros; apply D0|]). unfold add2, apply2, scal2; cbn. f_equal; ring.
  - exists zr, sl, 0, (l_rate l t * linear_with_depth H a b z), 0, 0. cbn [fst snd]. repeat (split; [try assumption; try apply D0; intros; apply D0|]). unfold add2, apply2, scal2; cbn. f_equal; ring.
Qed.
End Solution.
