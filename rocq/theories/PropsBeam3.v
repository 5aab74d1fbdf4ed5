(** * C149: moving load on an infinite beam *)
From Coq Require Import Reals List Arith ZArith Bool Lia Lra.
From Coquelicot Require Import Coquelicot.
From Verif Require Import Base BeamModel PropsBeam.
Import ListNotations.
Local Open Scope R_scope.

(** np.roots of a monic quartic: the four roots with multiplicity *)
Definition finds_roots (roots : list R -> list C) (a b c d : R) : Prop := length (roots [1; a; b; c; d]) = 4%nat /\
  forall z, (cpow z 4 + RtoC a * cpow z 3 + RtoC b * cpow z 2 + RtoC c * z + RtoC d)%C =
            fold_right Cmult (RtoC 1) (map (fun g => (z - g)%C) (roots [1; a; b; c; d])).
(** it does so for the polynomial of this speed and damping *)
Definition roots_ok (roots : list R -> list C) (alp bet : R) : Prop := finds_roots roots 0 (4 * alp ^ 2) (- 8 * alp * bet) 4.
Definition cdot (u v : list C) : C := fold_right Cplus (RtoC 0) (map (fun p => Cmult (fst p) (snd p)) (combine u v)).
(** np.linalg.solve *)
Definition csolves (solve : list (list C) -> list C -> result (list C)) : Prop := forall M r x, solve M r = Ok x -> length x = length r /\ map (fun row => cdot row x) M = r.

Definition term (A g : C) (s : R) : C := (A * cexp (RtoC s * g))%C.
Lemma cpow_S z n : cpow z (S n) = (z * cpow z n)%C. Proof. reflexivity. Qed.
(** derivatives of the real part *)
Lemma d_term A g s : is_derive (fun s => fst (term A g s)) s (fst (term (A * g)%C g s)).
Proof.
  destruct A as [a b], g as [p q]. unfold term, cexp, Cmult, RtoC. cbn [fst snd]. auto_derive; auto. replace (s * p + - (0 * q)) with (s * p - 0 * q) by ring. replace (s * q + 0 * p) with (s * q + 0 * p) by ring. ring.
Qed.
Definition side (A B g h : C) (k : nat) (s : R) : R := fst (term (A * cpow g k)%C g s) + fst (term (B * cpow h k)%C h s).
Lemma d_side A B g h k s : is_derive (side A B g h k) s (side A B g h (S k) s).
Proof.
  unfold side. apply (is_derive_plus (V := R_NormedModule) (fun s => fst (term (A * cpow g k)%C g s)) (fun s => fst (term (B * cpow h k)%C h s))).
  - assert (D := d_term (A * cpow g k)%C g s). replace (A * cpow g (S k))%C with (A * cpow g k * g)%C by (rewrite cpow_S; ring). exact D.
  - assert (D := d_term (B * cpow h k)%C h s). replace (B * cpow h (S k))%C with (B * cpow h k * h)%C by (rewrite cpow_S; ring). exact D.
Qed.
Lemma side_derivs A B g h : four_derivatives (side A B g h 0) (side A B g h 1) (side A B g h 2) (side A B g h 3) (side A B g h 4).
Proof. intros x. repeat (match goal with |- _ /\ _ => split end); apply d_side. Qed.
Lemma term_plus A B g s : term (A + B)%C g s = (term A g s + term B g s)%C. Proof. unfold term. ring. Qed.
Lemma term_scal c A g s : term (RtoC c * A)%C g s = (RtoC c * term A g s)%C. Proof. unfold term. ring. Qed.
Lemma term_0 A g : term A g 0 = A.
Proof. unfold term, cexp. destruct A as [a b], g as [p q]. unfold Cmult, RtoC. cbn [fst snd]. replace (0 * p - 0 * q) with 0 by ring. replace (0 * q + 0 * p) with 0 by ring. rewrite exp_0, cos_0, sin_0. apply f_equal2; ring. Qed.
Lemma fst_plus (a b : C) : fst (a + b)%C = fst a + fst b. Proof. reflexivity. Qed.
Lemma fst_scal c (a : C) : fst (RtoC c * a)%C = c * fst a. Proof. destruct a. unfold Cmult, RtoC. cbn. ring. Qed.
(** the characteristic equation makes each side a solution *)
Definition quartic (a b : R) (g : C) : Prop := (cpow g 4 + RtoC (4 * a ^ 2) * cpow g 2 + RtoC (- 8 * a * b) * g + RtoC 4)%C = RtoC 0.
Lemma side_eq a b A B g h s : quartic a b g -> quartic a b h -> side A B g h 4 s + 4 * a ^ 2 * side A B g h 2 s - 8 * a * b * side A B g h 1 s + 4 * side A B g h 0 s = 0.
Proof.
  assert (T : forall A g, quartic a b g -> fst (term (A * cpow g 4)%C g s) + 4 * a ^ 2 * fst (term (A * cpow g 2)%C g s) - 8 * a * b * fst (term (A * cpow g 1)%C g s) + 4 * fst (term (A * cpow g 0)%C g s) = 0).
  { intros A0 g0 Q. replace (fst (term (A0 * cpow g0 4)%C g0 s) + 4 * a ^ 2 * fst (term (A0 * cpow g0 2)%C g0 s) - 8 * a * b * fst (term (A0 * cpow g0 1)%C g0 s) + 4 * fst (term (A0 * cpow g0 0)%C g0 s))
      with (fst (term (A0 * cpow g0 4)%C g0 s + RtoC (4 * a ^ 2) * term (A0 * cpow g0 2)%C g0 s + RtoC (- 8 * a * b) * term (A0 * cpow g0 1)%C g0 s + RtoC 4 * term (A0 * cpow g0 0)%C g0 s)%C) by (rewrite !fst_plus, !fst_scal; ring).
    replace (term (A0 * cpow g0 4)%C g0 s + RtoC (4 * a ^ 2) * term (A0 * cpow g0 2)%C g0 s + RtoC (- 8 * a * b) * term (A0 * cpow g0 1)%C g0 s + RtoC 4 * term (A0 * cpow g0 0)%C g0 s)%C
      with (term A0 g0 s * (cpow g0 4 + RtoC (4 * a ^ 2) * cpow g0 2 + RtoC (- 8 * a * b) * g0 + RtoC 4))%C by (unfold term; cbn [cpow]; ring). rewrite Q. rewrite Cmult_0_r. reflexivity. }
  intros Q1 Q2. assert (T1 := T A g Q1). assert (T2 := T B h Q2). unfold side. lra.
Qed.
Lemma prod4 (z : C) l : length l = 4%nat -> fold_right Cmult (RtoC 1) (map (fun g => (z - g)%C) l) = ((z - at4 l 0) * ((z - at4 l 1) * ((z - at4 l 2) * (z - at4 l 3))))%C.
Proof. destruct l as [|a [|b [|c [|d [|e l]]]]]; try discriminate. intros _. unfold at4. cbn [map fold_right nth]. ring. Qed.
Section S.
Variable roots : list R -> list C.
Variable solve : list (list C) -> list C -> result (list C).
Hypothesis HS : csolves solve.
Lemma root_eq a b k : roots_ok roots a b -> (k < 4)%nat -> quartic a b (at4 (roots [1; 0; 4 * a ^ 2; - 8 * a * b; 4]) k).
Proof.
  intros HR Hk. destruct HR as [L4 E]. set (g := roots _) in *. specialize (E (at4 g k)). rewrite prod4 in E by auto. unfold quartic. replace (RtoC 0 * cpow (at4 g k) 3)%C with (RtoC 0) in E by ring. rewrite Cplus_0_r in E. rewrite E.
  destruct k as [|[|[|[|k]]]]; try lia; ring.
Qed.
Lemma amplitudes g A : solve (cmat g) [RtoC 0; RtoC 0; RtoC 0; RtoC 8] = Ok A ->
  forall k, (k < 4)%nat -> (at4 A 0 * cpow (at4 g 0) k + at4 A 1 * cpow (at4 g 1) k - (at4 A 2 * cpow (at4 g 2) k + at4 A 3 * cpow (at4 g 3) k))%C = if Nat.eqb k 3 then RtoC 8 else RtoC 0.
Proof.
  intros H k Hk. apply HS in H. destruct H as [L E]. cbn in L. unfold cmat in E. rewrite map_map in E. destruct A as [|a0 [|a1 [|a2 [|a3 [|? ?]]]]]; try discriminate. unfold at4 at 1 3 5 7. cbn [nth].
  apply (f_equal (fun l => nth k l (RtoC 0))) in E. unfold cdot in E. cbn [map combine fold_right seq fst snd] in E.
  destruct k as [|[|[|[|k]]]]; try lia; cbn [nth Nat.eqb] in *; rewrite <- E; ring.
Qed.
(** the deflection as returned *)
Lemma returned alp bet lo hi n s d : moving_load_on_beam_on_elastic_foundation roots solve alp bet (lo, hi) n = Ok (s, d) ->
  exists A, solve (cmat (roots [1; 0; 4 * alp ^ 2; - 8 * alp * bet; 4])) [RtoC 0; RtoC 0; RtoC 0; RtoC 8] = Ok A /\ s = linspace lo hi n /\ d = map (disp_at (roots [1; 0; 4 * alp ^ 2; - 8 * alp * bet; 4]) A) s.
Proof.
  unfold moving_load_on_beam_on_elastic_foundation. destruct (solve _ _) as [A|] eqn:E; [|discriminate]. cbn [bind fst snd]. intros H. injection H as <- <-. eauto.
Qed.
Lemma disp_side g A s : fst (disp_at g A s) = if Rltb s 0 then side (at4 A 2) (at4 A 3) (at4 g 2) (at4 g 3) 0 s else side (at4 A 0) (at4 A 1) (at4 g 0) (at4 g 1) 0 s.
Proof. unfold disp_at, side, term. cbn [cpow]. rewrite !Cmult_1_r. destruct (Rltb s 0); reflexivity. Qed.
Lemma side_0 A B g h k : side A B g h k 0 = fst (A * cpow g k + B * cpow h k)%C. Proof. unfold side. rewrite !term_0. reflexivity. Qed.

(** the dimensionless problem *)
Lemma dimensionless alp bet lo hi n s d : roots_ok roots alp bet -> moving_load_on_beam_on_elastic_foundation roots solve alp bet (lo, hi) n = Ok (s, d) ->
  exists r r1 r2 r3 r4 l l1 l2 l3 l4, four_derivatives r r1 r2 r3 r4 /\ four_derivatives l l1 l2 l3 l4 /\
  map fst d = map (fun s => if Rltb s 0 then l s else r s) s /\
  (forall x, r4 x + 4 * alp ^ 2 * r2 x - 8 * alp * bet * r1 x + 4 * r x = 0) /\ (forall x, l4 x + 4 * alp ^ 2 * l2 x - 8 * alp * bet * l1 x + 4 * l x = 0) /\
  r 0 = l 0 /\ r1 0 = l1 0 /\ r2 0 = l2 0 /\ r3 0 - l3 0 = 8.
Proof.
  intros HR H. destruct (returned _ _ _ _ _ _ _ H) as (A & HA & -> & ->). set (g := roots _) in *. set (SR := side (at4 A 0) (at4 A 1) (at4 g 0) (at4 g 1)). set (SL := side (at4 A 2) (at4 A 3) (at4 g 2) (at4 g 3)).
  exists (SR 0%nat), (SR 1%nat), (SR 2%nat), (SR 3%nat), (SR 4%nat), (SL 0%nat), (SL 1%nat), (SL 2%nat), (SL 3%nat), (SL 4%nat).
  split; [apply side_derivs|]. split; [apply side_derivs|]. split; [rewrite map_map; apply map_ext; intros y; apply disp_side|].
  split; [intros x; apply side_eq; apply root_eq; auto; lia|]. split; [intros x; apply side_eq; apply root_eq; auto; lia|].
  assert (J : forall k, (k < 4)%nat -> SR k 0 - SL k 0 = if Nat.eqb k 3 then 8 else 0).
  { intros k Hk. assert (E := amplitudes g A HA k Hk). apply (f_equal fst) in E. unfold SR, SL. rewrite !side_0. transitivity (fst (if Nat.eqb k 3 then RtoC 8 else RtoC 0)); [exact E|destruct (Nat.eqb k 3); reflexivity]. }
  assert (J0 := J 0%nat ltac:(lia)). assert (J1 := J 1%nat ltac:(lia)). assert (J2 := J 2%nat ltac:(lia)). assert (J3 := J 3%nat ltac:(lia)). cbn [Nat.eqb] in *. repeat (match goal with |- _ /\ _ => split end); lra.
Qed.

(** *** The deflection in physical units: bending stiffness EI, mass m, damping c and springs k per length, load Q moving with speed v.
    lam is 1 / characteristic length; W is a wave that travels with the load. *)
Definition wave (EI m c k v : R) (W W1 W2 W3 : R -> R -> R) : Prop := exists W4 Wt Wtt,
  (forall t, four_derivatives (fun x => W x t) (fun x => W1 x t) (fun x => W2 x t) (fun x => W3 x t) (fun x => W4 x t)) /\
  (forall x t, is_derive (fun t => W x t) t (Wt x t)) /\ (forall x t, is_derive (fun t => Wt x t) t (Wtt x t)) /\
  forall x t, EI * W4 x t + m * Wtt x t + c * Wt x t + k * W x t = 0.
Lemma d_lin (f f' : R -> R) (a b q x : R) : (forall y, is_derive f y (f' y)) -> is_derive (fun x => q * f (a * x + b)) x (q * a * f' (a * x + b)).
Proof.
  intros H. replace (q * a * f' (a * x + b)) with (q * (a * f' (a * x + b))) by ring. apply (is_derive_scal (fun x => f (a * x + b))). apply (is_derive_comp (V := R_NormedModule) f (fun x => a * x + b)); [apply H|]. auto_derive; auto. ring.
Qed.
Lemma wave_of EI m c k v lam q al be f f1 f2 f3 f4 : four_derivatives f f1 f2 f3 f4 -> (forall x, f4 x + 4 * al ^ 2 * f2 x - 8 * al * be * f1 x + 4 * f x = 0) ->
  4 * EI * lam ^ 4 = k -> m * v ^ 2 * lam ^ 2 = EI * lam ^ 4 * (4 * al ^ 2) -> c * v * lam = EI * lam ^ 4 * (8 * al * be) ->
  wave EI m c k v (fun x t => q * f (lam * (x - v * t))) (fun x t => q * lam * f1 (lam * (x - v * t))) (fun x t => q * lam ^ 2 * f2 (lam * (x - v * t))) (fun x t => q * lam ^ 3 * f3 (lam * (x - v * t))).
Proof.
  intros HD HE K1 K2 K3. exists (fun x t => q * lam ^ 4 * f4 (lam * (x - v * t))), (fun x t => q * (- lam * v) * f1 (lam * (x - v * t))), (fun x t => q * (lam * v) ^ 2 * f2 (lam * (x - v * t))).
  assert (X : forall g g' qq t x, (forall y, is_derive g y (g' y)) -> is_derive (fun x => qq * g (lam * (x - v * t))) x (qq * lam * g' (lam * (x - v * t)))).
  { intros g g' qq t x Hg. replace (lam * (x - v * t)) with (lam * x + - lam * v * t) by ring. apply (is_derive_ext (fun x => qq * g (lam * x + - lam * v * t))); [intros y; do 2 f_equal; ring|]. apply d_lin. exact Hg. }
  assert (Y : forall g g' qq t x, (forall y, is_derive g y (g' y)) -> is_derive (fun t => qq * g (lam * (x - v * t))) t (qq * (- lam * v) * g' (lam * (x - v * t)))).
  { intros g g' qq t x Hg. replace (lam * (x - v * t)) with ((- lam * v) * t + lam * x) by ring. apply (is_derive_ext (fun t => qq * g ((- lam * v) * t + lam * x))); [intros y; do 2 f_equal; ring|]. apply d_lin. exact Hg. }
  split; [|split; [|split]].
  - intros t x. split; [apply (X f f1); intros y; apply HD|]. split; [|split].
    + assert (D := X f1 f2 (q * lam) t x (fun y => proj1 (proj2 (HD y)))). apply (eq_ind _ (fun z => is_derive _ x z) D). match goal with |- ?u = ?v => change (@eq R u v) end. ring.
    + assert (D := X f2 f3 (q * lam ^ 2) t x (fun y => proj1 (proj2 (proj2 (HD y))))). apply (eq_ind _ (fun z => is_derive _ x z) D). match goal with |- ?u = ?v => change (@eq R u v) end. ring.
    + assert (D := X f3 f4 (q * lam ^ 3) t x (fun y => proj2 (proj2 (proj2 (HD y))))). apply (eq_ind _ (fun z => is_derive _ x z) D). match goal with |- ?u = ?v => change (@eq R u v) end. ring.
  - intros x t. apply (Y f f1). intros y. apply HD.
  - intros x t. assert (D := Y f1 f2 (q * (- lam * v)) t x (fun y => proj1 (proj2 (HD y)))). apply (eq_ind _ (fun z => is_derive _ t z) D). match goal with |- ?u = ?v => change (@eq R u v) end. ring.
  - intros x t. set (y := lam * (x - v * t)). assert (E := HE y). replace (EI * (q * lam ^ 4 * f4 y) + m * (q * (lam * v) ^ 2 * f2 y) + c * (q * (- lam * v) * f1 y) + k * (q * f y)) with
      (q * (EI * lam ^ 4 * f4 y + (m * v ^ 2 * lam ^ 2) * f2 y - (c * v * lam) * f1 y + k * f y)) by ring. rewrite K2, K3, <- K1. replace (EI * lam ^ 4 * f4 y + EI * lam ^ 4 * (4 * al ^ 2) * f2 y - EI * lam ^ 4 * (8 * al * be) * f1 y + 4 * EI * lam ^ 4 * f y) with (EI * lam ^ 4 * (f4 y + 4 * al ^ 2 * f2 y - 8 * al * be * f1 y + 4 * f y)) by ring. rewrite E. ring.
Qed.
(** velocity ratio v / vcr and damping ratio c / ccr as documented *)
Theorem C149_physical EI m c k v Q lo hi n s d : 0 < EI -> 0 < m -> 0 < k -> let lam := sqrt (sqrt (k / (4 * EI))) in
  roots_ok roots (v / sqrt (2 * sqrt (k * EI) / m)) (c / (2 * sqrt (m * k))) ->
  moving_load_on_beam_on_elastic_foundation roots solve (v / sqrt (2 * sqrt (k * EI) / m)) (c / (2 * sqrt (m * k))) (lo, hi) n = Ok (s, d) ->
  exists r l, map fst d = map (fun s => if Rltb s 0 then l s else r s) s /\ s = linspace lo hi n /\
  let q := Q * lam / (2 * k) in let WR := fun x t => q * r (lam * (x - v * t)) in let WL := fun x t => q * l (lam * (x - v * t)) in
  exists R1 R2 R3 L1 L2 L3, wave EI m c k v WR R1 R2 R3 /\ wave EI m c k v WL L1 L2 L3 /\
  forall t, WR (v * t) t = WL (v * t) t /\ R1 (v * t) t = L1 (v * t) t /\ R2 (v * t) t = L2 (v * t) t /\ EI * (R3 (v * t) t - L3 (v * t) t) = Q.
Proof.
  intros HE Hm Hk lam HR H. set (al := v / sqrt (2 * sqrt (k * EI) / m)) in *. set (be := c / (2 * sqrt (m * k))) in *.
  destruct (dimensionless _ _ _ _ _ _ _ HR H) as (r & r1 & r2 & r3 & r4 & l & l1 & l2 & l3 & l4 & D1 & D2 & E & Q1 & Q2 & J0 & J1 & J2 & J3). destruct (returned _ _ _ _ _ _ _ H) as (A & _ & ES & _). exists r, l. split; auto. split; auto. intros q WR WL.
  assert (P4 : 0 < k / (4 * EI)) by (apply Rdiv_lt_0_compat; lra). set (b := sqrt (k / (4 * EI))) in *. assert (B0 : 0 < b) by (apply sqrt_lt_R0; auto). assert (BB : b * b = k / (4 * EI)) by (apply sqrt_sqrt; lra). assert (LL : lam * lam = b) by (apply sqrt_sqrt; lra). assert (L0 : 0 < lam) by (apply sqrt_lt_R0; auto).
  assert (KE : sqrt (k * EI) = 2 * EI * b). { apply sqrt_lem_1; [nra|nra|]. replace (2 * EI * b * (2 * EI * b)) with (4 * EI ^ 2 * (b * b)) by ring. rewrite BB. field. lra. }
  assert (VC : 0 < 2 * sqrt (k * EI) / m) by (rewrite KE; apply Rdiv_lt_0_compat; nra). set (vc := sqrt (2 * sqrt (k * EI) / m)) in *. assert (VC0 : 0 < vc) by (apply sqrt_lt_R0; auto). assert (VV : vc * vc = 2 * sqrt (k * EI) / m) by (apply sqrt_sqrt; lra). rewrite KE in VV.
  assert (MK : 0 < m * k) by nra. set (mk := sqrt (m * k)) in *. assert (MK0 : 0 < mk) by (apply sqrt_lt_R0; auto). assert (MM : mk * mk = m * k) by (apply sqrt_sqrt; lra).
  assert (KK : k = 4 * EI * b ^ 2) by (replace (b ^ 2) with (b * b) by ring; rewrite BB; field; lra).
  assert (K1 : 4 * EI * lam ^ 4 = k) by (replace (lam ^ 4) with ((lam * lam) ^ 2) by ring; rewrite LL; lra).
  assert (K2 : m * v ^ 2 * lam ^ 2 = EI * lam ^ 4 * (4 * al ^ 2)).
  { unfold al. replace ((v / vc) ^ 2) with (v ^ 2 / (vc * vc)) by (field; lra). rewrite VV. replace (lam ^ 2) with b by (rewrite <- LL; ring). replace (lam ^ 4) with (b ^ 2) by (rewrite <- LL; ring). field. split; lra. }
  assert (VM : vc * mk = 4 * EI * b * lam).
  { assert (S : (vc * mk) * (vc * mk) = (4 * EI * b * lam) * (4 * EI * b * lam)). { replace ((vc * mk) * (vc * mk)) with ((vc * vc) * (mk * mk)) by ring. rewrite VV, MM. replace ((4 * EI * b * lam) * (4 * EI * b * lam)) with (16 * EI ^ 2 * b ^ 2 * (lam * lam)) by ring. rewrite LL, KK. field. lra. }
    assert (X1 : 0 < vc * mk) by nra. assert (X2 : 0 < 4 * EI * b * lam) by (repeat apply Rmult_lt_0_compat; lra). nra. }
  assert (K3 : c * v * lam = EI * lam ^ 4 * (8 * al * be)).
  { unfold al, be. replace (8 * (v / vc) * (c / (2 * mk))) with (4 * v * c / (vc * mk)) by (field; lra). rewrite VM. replace (lam ^ 4) with (b * (lam * lam)) by (rewrite <- LL; ring). field. repeat split; lra. }
  exists (fun x t => q * lam * r1 (lam * (x - v * t))), (fun x t => q * lam ^ 2 * r2 (lam * (x - v * t))), (fun x t => q * lam ^ 3 * r3 (lam * (x - v * t))), (fun x t => q * lam * l1 (lam * (x - v * t))), (fun x t => q * lam ^ 2 * l2 (lam * (x - v * t))), (fun x t => q * lam ^ 3 * l3 (lam * (x - v * t))).
  split; [apply (wave_of EI m c k v lam q al be r r1 r2 r3 r4); auto|]. split; [apply (wave_of EI m c k v lam q al be l l1 l2 l3 l4); auto|].
  intros t. unfold WR, WL. replace (lam * (v * t - v * t)) with 0 by ring. rewrite J0, J1, J2. repeat (match goal with |- _ /\ _ => split; auto end). replace (EI * (q * lam ^ 3 * r3 0 - q * lam ^ 3 * l3 0)) with (EI * q * lam ^ 3 * (r3 0 - l3 0)) by ring. rewrite J3. unfold q. replace (EI * (Q * lam / (2 * k)) * lam ^ 3 * 8) with (Q * (4 * EI * lam ^ 4) / k) by (field; lra). rewrite K1. field. lra.
Qed.
(** dies out ahead of and behind the load if the roots come in the order the code assumes *)
Lemma term_bound A g s : Rabs (fst (term A g s)) <= 2 * Cmod A * exp (fst g * s).
Proof.
  destruct A as [a b], g as [p q]. unfold term, cexp, Cmult, RtoC. cbn [fst snd]. replace (s * p - 0 * q) with (p * s) by ring. replace (s * q + 0 * p) with (q * s) by ring.
  assert (MA : Rabs a <= Cmod (a, b) /\ Rabs b <= Cmod (a, b)) by (assert (Z := Rmax_Cmod (a, b)); cbn [fst snd] in Z; split; eapply Rle_trans; [apply Rmax_l|exact Z|apply Rmax_r|exact Z]).
  replace (a * (exp (p * s) * cos (q * s)) - b * (exp (p * s) * sin (q * s))) with (exp (p * s) * (a * cos (q * s) - b * sin (q * s))) by ring. rewrite Rabs_mult, (Rabs_right (exp _)) by (apply Rle_ge, Rlt_le, exp_pos). rewrite Rmult_comm. apply Rmult_le_compat_r; [apply Rlt_le, exp_pos|].
  unfold Rminus. eapply Rle_trans; [apply Rabs_triang|]. rewrite Rabs_Ropp, !Rabs_mult. assert (C1 : Rabs (cos (q * s)) <= 1) by (apply Rabs_le, COS_bound). assert (S1 : Rabs (sin (q * s)) <= 1) by (apply Rabs_le, SIN_bound). assert (X1 := Rabs_pos a). assert (X2 := Rabs_pos b). assert (X3 := Rabs_pos (cos (q * s))). assert (X4 := Rabs_pos (sin (q * s))). nra.
Qed.
Definition dies_out (D : R -> C) : Prop := exists K rate, 0 < rate /\ 0 <= K /\ forall s, Rabs (fst (D s)) <= K * exp (- (rate * Rabs s)).
Theorem C149_dies_out alp bet lo hi n s d : let g := roots [1; 0; 4 * alp ^ 2; - 8 * alp * bet; 4] in fst (at4 g 0) < 0 -> fst (at4 g 1) < 0 -> 0 < fst (at4 g 2) -> 0 < fst (at4 g 3) ->
  moving_load_on_beam_on_elastic_foundation roots solve alp bet (lo, hi) n = Ok (s, d) -> exists D, d = map D s /\ dies_out D.
Proof.
  intros g N0 N1 P2 P3 H. destruct (returned _ _ _ _ _ _ _ H) as (A & HA & -> & ->). fold g in HA. fold g. exists (disp_at g A). split; auto.
  set (rt := Rmin (Rmin (- fst (at4 g 0)) (- fst (at4 g 1))) (Rmin (fst (at4 g 2)) (fst (at4 g 3)))). assert (RP : 0 < rt) by (unfold rt; repeat apply Rmin_glb_lt; lra).
  assert (R0 : rt <= - fst (at4 g 0) /\ rt <= - fst (at4 g 1) /\ rt <= fst (at4 g 2) /\ rt <= fst (at4 g 3)).
  { unfold rt. repeat split; [eapply Rle_trans; [apply Rmin_l|apply Rmin_l]|eapply Rle_trans; [apply Rmin_l|apply Rmin_r]|eapply Rle_trans; [apply Rmin_r|apply Rmin_l]|eapply Rle_trans; [apply Rmin_r|apply Rmin_r]]. }
  exists (2 * (Cmod (at4 A 0) + Cmod (at4 A 1) + Cmod (at4 A 2) + Cmod (at4 A 3))), rt. assert (M0 := Cmod_ge_0 (at4 A 0)). assert (M1 := Cmod_ge_0 (at4 A 1)). assert (M2 := Cmod_ge_0 (at4 A 2)). assert (M3 := Cmod_ge_0 (at4 A 3)). split; auto. split; [lra|].
  intros s. rewrite disp_side. unfold side. cbn [cpow]. rewrite !Cmult_1_r.
  assert (EX : forall p, p * s <= - (rt * Rabs s) -> exp (p * s) <= exp (- (rt * Rabs s))) by (intros p Hp; destruct Hp as [Hp| ->]; [left; apply exp_increasing; auto|lra]).
  assert (EP := exp_pos (- (rt * Rabs s))). destruct (Rltb s 0) eqn:ES; [apply Rltb_true in ES|apply Rltb_false in ES].
  - assert (B2 := term_bound (at4 A 2) (at4 g 2) s). assert (B3 := term_bound (at4 A 3) (at4 g 3) s). rewrite (Rabs_left s) in * by lra. assert (E2 := EX (fst (at4 g 2)) ltac:(nra)). assert (E3 := EX (fst (at4 g 3)) ltac:(nra)).
    eapply Rle_trans; [apply Rabs_triang|]. nra.
  - assert (B2 := term_bound (at4 A 0) (at4 g 0) s). assert (B3 := term_bound (at4 A 1) (at4 g 1) s). rewrite (Rabs_right s) in * by lra. assert (E2 := EX (fst (at4 g 0)) ltac:(nra)). assert (E3 := EX (fst (at4 g 1)) ltac:(nra)).
    eapply Rle_trans; [apply Rabs_triang|]. nra.
Qed.
End S.
