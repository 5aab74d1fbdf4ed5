From Coq Require Import Reals List Arith Lia Lra.
From Coquelicot Require Import Coquelicot.
From Verif Require Import Base IntegralsGen SpectralModel SpecSpectral.
Import ListNotations.
Open Scope R_scope.

Lemma cos2 x : cos x ^ 2 = 1 - sin x ^ 2.
Proof. generalize (sin2_cos2 x). unfold Rsqr. cbn. lra. Qed.

(** Fundamental theorem, convenient form. *)
Lemma RInt_by_antiderivative (F f : R -> R) a b :
  (forall z, is_derive F z (f z)) -> (forall z, continuous f z) ->
  is_RInt f a b (F b - F a).
Proof.
  intros H C. apply (is_RInt_derive (V := R_CompleteNormedModule) F f a b); intros; auto.
Qed.

Ltac cont := intros ?; apply (ex_derive_continuous (V := R_NormedModule)); auto_derive; auto.

(** Antiderivatives of (p0 + p1 z + p2 z^2 + p3 z^3) * T(z). *)
Section Anti.
Variables (p0 p1 p2 p3 : R).
Definition P z := p0 + p1 * z + p2 * z ^ 2 + p3 * z ^ 3.
Definition P' z := p1 + 2 * p2 * z + 3 * p3 * z ^ 2.
Definition P'' z := 2 * p2 + 6 * p3 * z.
Definition P3 : R := 6 * p3.

Definition F_sin (m z : R) : R :=
  - P z * cos (m * z) / m + P' z * sin (m * z) / m ^ 2 + P'' z * cos (m * z) / m ^ 3 - P3 * sin (m * z) / m ^ 4.
Lemma RInt_sin m a b : m <> 0 ->
  is_RInt (fun z => P z * sin (m * z)) a b (F_sin m b - F_sin m a).
Proof.
  intros Hm. apply (RInt_by_antiderivative (F_sin m)).
  - intros z. unfold F_sin, P, P', P'', P3. auto_derive; auto. field. auto.
  - unfold P. cont.
Qed.

Definition F_cos (m z : R) : R :=
  P z * sin (m * z) / m + P' z * cos (m * z) / m ^ 2 - P'' z * sin (m * z) / m ^ 3 - P3 * cos (m * z) / m ^ 4.
Lemma RInt_cos m a b : m <> 0 ->
  is_RInt (fun z => P z * cos (m * z)) a b (F_cos m b - F_cos m a).
Proof.
  intros Hm. apply (RInt_by_antiderivative (F_cos m)).
  - intros z. unfold F_cos, P, P', P'', P3. auto_derive; auto. field. auto.
  - unfold P. cont.
Qed.
End Anti.

Section Anti2.
Variables (p0 p1 p2 : R).
Let P z := p0 + p1 * z + p2 * z ^ 2.
Let P' z := p1 + 2 * p2 * z.
Let P'' := 2 * p2.

(** sin(mi z) sin(mj z), with iQ = / (mi^2-mj^2)^3 and D = mi^2-mj^2. *)
Definition F_ss (iQ mi mj z : R) : R :=
  let D := mi ^ 2 - mj ^ 2 in
  let si := sin (mi * z) in let ci := cos (mi * z) in
  let sj := sin (mj * z) in let cj := cos (mj * z) in
  (p0 + p1 * z + p2 * z ^ 2) * (mj * si * cj - mi * ci * sj) * D ^ 2 * iQ
  + (p1 + 2 * p2 * z) * (2 * mi * mj * ci * cj + (mi ^ 2 + mj ^ 2) * si * sj) * D * iQ
  - 2 * p2 * (2 * mi * mj * (mi * si * cj - mj * ci * sj) + (mi ^ 2 + mj ^ 2) * (mj * si * cj - mi * ci * sj)) * iQ.
Lemma RInt_ss iQ mi mj a b : iQ * (mi ^ 2 - mj ^ 2) ^ 3 = 1 ->
  is_RInt (fun z => (p0 + p1 * z + p2 * z ^ 2) * (sin (mi * z) * sin (mj * z))) a b (F_ss iQ mi mj b - F_ss iQ mi mj a).
Proof.
  intros HD. apply (RInt_by_antiderivative (F_ss iQ mi mj)); [|cont].
  intros z. unfold F_ss. auto_derive; auto.
  set (si := sin (mi * z)). set (ci := cos (mi * z)). set (sj := sin (mj * z)). set (cj := cos (mj * z)).
  transitivity ((p0 + p1 * z + p2 * z ^ 2) * (si * sj) * (iQ * (mi ^ 2 - mj ^ 2) ^ 3)); [ring|rewrite HD; ring].
Qed.

(** cos(mi z) cos(mj z) *)
Definition F_cc (iQ mi mj z : R) : R :=
  let D := mi ^ 2 - mj ^ 2 in
  let si := sin (mi * z) in let ci := cos (mi * z) in
  let sj := sin (mj * z) in let cj := cos (mj * z) in
  (p0 + p1 * z + p2 * z ^ 2) * (mi * si * cj - mj * ci * sj) * D ^ 2 * iQ
  + (p1 + 2 * p2 * z) * (2 * mi * mj * si * sj + (mi ^ 2 + mj ^ 2) * ci * cj) * D * iQ
  - 2 * p2 * (2 * mi * mj * (mj * si * cj - mi * ci * sj) + (mi ^ 2 + mj ^ 2) * (mi * si * cj - mj * ci * sj)) * iQ.
Lemma RInt_cc iQ mi mj a b : iQ * (mi ^ 2 - mj ^ 2) ^ 3 = 1 ->
  is_RInt (fun z => (p0 + p1 * z + p2 * z ^ 2) * (cos (mi * z) * cos (mj * z))) a b (F_cc iQ mi mj b - F_cc iQ mi mj a).
Proof.
  intros HD. apply (RInt_by_antiderivative (F_cc iQ mi mj)); [|cont].
  intros z. unfold F_cc. auto_derive; auto.
  set (si := sin (mi * z)). set (ci := cos (mi * z)). set (sj := sin (mj * z)). set (cj := cos (mj * z)).
  transitivity ((p0 + p1 * z + p2 * z ^ 2) * (ci * cj) * (iQ * (mi ^ 2 - mj ^ 2) ^ 3)); [ring|rewrite HD; ring].
Qed.

(** sin^2 and cos^2 *)
Definition G2 (m z : R) : R := (* integral of P cos(2 m z) / 2 *)
  let s := sin (m * z) in let c := cos (m * z) in
  (p0 + p1 * z + p2 * z ^ 2) * (s * c) / (2 * m) + (p1 + 2 * p2 * z) * (1 - 2 * s ^ 2) / (8 * m ^ 2)
  - p2 * (s * c) / (4 * m ^ 3).
Definition F_s2 (m z : R) : R := (p0 * z + p1 * z ^ 2 / 2 + p2 * z ^ 3 / 3) / 2 - G2 m z.
Definition F_c2 (m z : R) : R := (p0 * z + p1 * z ^ 2 / 2 + p2 * z ^ 3 / 3) / 2 + G2 m z.
Lemma G2_derive m z : m <> 0 -> is_derive (G2 m) z ((p0 + p1 * z + p2 * z ^ 2) * (1 / 2 - sin (m * z) ^ 2)).
Proof.
  intros Hm. unfold G2. auto_derive; auto.
  field_simplify_eq; auto. rewrite cos2. ring.
Qed.
Lemma RInt_s2 m a b : m <> 0 ->
  is_RInt (fun z => (p0 + p1 * z + p2 * z ^ 2) * (sin (m * z) * sin (m * z))) a b (F_s2 m b - F_s2 m a).
Proof.
  intros Hm. apply (RInt_by_antiderivative (F_s2 m)); [|cont].
  intros z. unfold F_s2.
  replace ((p0 + p1 * z + p2 * z ^ 2) * (sin (m * z) * sin (m * z))) with
    ((p0 + p1 * z + p2 * z ^ 2) / 2 - (p0 + p1 * z + p2 * z ^ 2) * (1 / 2 - sin (m * z) ^ 2)) by field.
  apply (is_derive_minus (V := R_NormedModule)); [|apply G2_derive; auto].
  auto_derive; auto. field.
Qed.
Lemma RInt_c2 m a b : m <> 0 ->
  is_RInt (fun z => (p0 + p1 * z + p2 * z ^ 2) * (cos (m * z) * cos (m * z))) a b (F_c2 m b - F_c2 m a).
Proof.
  intros Hm. apply (RInt_by_antiderivative (F_c2 m)); [|cont].
  intros z. unfold F_c2.
  replace ((p0 + p1 * z + p2 * z ^ 2) * (cos (m * z) * cos (m * z))) with
    ((p0 + p1 * z + p2 * z ^ 2) / 2 + (p0 + p1 * z + p2 * z ^ 2) * (1 / 2 - sin (m * z) ^ 2)).
  2:{ replace (cos (m * z) * cos (m * z)) with (cos (m * z) ^ 2) by ring. rewrite cos2. field. }
  apply (is_derive_plus (V := R_NormedModule)); [|apply G2_derive; auto].
  auto_derive; auto. field.
Qed.
End Anti2.
