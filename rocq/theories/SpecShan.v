(** * Specification of consolidation of an unsaturated layer: pressures uw of the water and ua of the air *)
From Coq Require Import Reals List ZArith.
From Coquelicot Require Import Coquelicot.
From Verif Require Import SpecLu.
Import ListNotations.
Local Open Scope R_scope.

(** The layer 0 <= z <= depth.  At the bottom the pressures are prescribed (drn = 0) or the slopes of the pressures (drn = 1). *)
Record unsat_layer := mkUnsat { ul_H : R; ul_drn : Z; ul_Cw : R; ul_Cvw : R; ul_Ca : R; ul_Cva : R; ul_Csw : R; ul_Csa : R }.
Definition sound_unsat (L : unsat_layer) : Prop :=
  0 < ul_H L /\ (ul_drn L = 0 \/ ul_drn L = 1)%Z /\ ul_Ca L * ul_Cw L <> 1 /\ ul_Cvw L <> 0 /\ ul_Cva L <> 0 /\
  (0 < (ul_Cvw L - ul_Cva L)^2 + 4 * ul_Ca L * ul_Cw L * ul_Cvw L * ul_Cva L \/ (ul_Ca L = 0 /\ ul_Cw L = 0)).
(** the k-th wave over the depth *)
Definition wave_number (L : unsat_layer) (k : nat) : R :=
  (if Z.eqb (ul_drn L) 0 then (INR k + 1) * PI else (INR k + 1/2) * PI) / ul_H L.
Definition wave (L : unsat_layer) (k : nat) (z : R) : R := sin (wave_number L k * z).
(** p is the best approximation, by the first n waves, of the profile that is linear from a (top) to b (bottom):
    the misfit is orthogonal to the waves; its mean square is of order 1/n. *)
Record approximates (L : unsat_layer) (n : nat) (a b : R) (p : R -> R) : Prop := mkApprox {
  ap_waves : exists c, forall z, p z = fold_right Rplus 0 (map (fun k => c k * wave L k z) (seq 0 n));
  ap_orthogonal : forall k, (k < n)%nat -> is_RInt (fun z => (p z - linear_with_depth (ul_H L) a b z) * wave L k z) 0 (ul_H L) 0;
  ap_small : (1 <= n)%nat -> exists e, is_RInt (fun z => (p z - linear_with_depth (ul_H L) a b z)^2) 0 (ul_H L) e /\
    e <= 12 * ul_H L * (a^2 + b^2) / (PI^2 * INR n) }.

(** Histories: of the surcharge q, and of what is prescribed for water and air at the top and the bottom. *)
Record histories := mkHist { h_q : R -> R; h_wtop : R -> R; h_atop : R -> R; h_wbot : R -> R; h_abot : R -> R }.
(** Conservation of water and air.  The depth profile of the surcharge (uniform: 1) is replaced by its approximation p0; what is prescribed
    at the top and the bottom makes a source that is the misfit of the approximation of the profile it makes in the depth:
    p1 (1 at the top), p3 (slope at the bottom). *)
Definition unsat_equations (L : unsat_layer) (h : histories) (p0 p1 p3 : R -> R) (a1 b1 a3 b3 : R) (uw ua : R -> R -> R) : Prop := forall z t,
  exists (uwz uaz : R -> R) (uwt uat uwzz uazz q' wt' at' wb' ab' : R),
    is_derive (uw z) t uwt /\ is_derive (ua z) t uat /\
    (forall y, is_derive (fun x => uw x t) y (uwz y)) /\ is_derive uwz z uwzz /\
    (forall y, is_derive (fun x => ua x t) y (uaz y)) /\ is_derive uaz z uazz /\
    is_derive (h_q h) t q' /\ is_derive (h_wtop h) t wt' /\ is_derive (h_atop h) t at' /\ is_derive (h_wbot h) t wb' /\ is_derive (h_abot h) t ab' /\
    let m1 := linear_with_depth (ul_H L) a1 b1 z - p1 z in
    let m3 := linear_with_depth (ul_H L) a3 b3 z - p3 z in
    uwt + ul_Cw L * uat + ul_Cvw L * uwzz = ul_Csw L * q' * p0 z + (m1 * wt' + m3 * wb') + ul_Cw L * (m1 * at' + m3 * ab') /\
    ul_Ca L * uwt + uat + ul_Cva L * uazz = ul_Csa L * q' * p0 z + ul_Ca L * (m1 * wt' + m3 * wb') + (m1 * at' + m3 * ab').
Definition governed (L : unsat_layer) (n : nat) (h : histories) (uw ua : R -> R -> R) : Prop :=
  exists p0 p1 p3,
  let b1 := if Z.eqb (ul_drn L) 0 then 0 else 1 in let b3 := if Z.eqb (ul_drn L) 0 then 1 else ul_H L in
  approximates L n 1 1 p0 /\ approximates L n 1 b1 p1 /\ approximates L n 0 b3 p3 /\
  unsat_equations L h p0 p1 p3 1 b1 0 b3 uw ua.
(** What is prescribed at the top and the bottom *)
Definition unsat_ends (L : unsat_layer) (h : histories) (uw ua : R -> R -> R) : Prop :=
  (forall t, uw 0 t = h_wtop h t) /\ (forall t, ua 0 t = h_atop h t) /\
  (ul_drn L = 0%Z -> forall t, uw (ul_H L) t = h_wbot h t /\ ua (ul_H L) t = h_abot h t) /\
  (ul_drn L = 1%Z -> forall t, is_derive (fun x => uw x t) (ul_H L) (h_wbot h t) /\ is_derive (fun x => ua x t) (ul_H L) (h_abot h t)).
(** lam is a rate of decay of the k-th wave *)
Definition decay_rate (L : unsat_layer) (k : nat) (lam : R) : Prop :=
  let m2 := (wave_number L k)^2 in
  (lam + ul_Cvw L * m2) * (lam + ul_Cva L * m2) = ul_Ca L * ul_Cw L * lam^2.
(** eigenvalues (e1, e2) and eigenvectors (columns of v) of the matrix n *)
Definition eigen (n11 n12 n21 n22 e1 e2 v11 v12 v21 v22 : R) : Prop :=
  n11 * v11 + n12 * v21 = e1 * v11 /\ n21 * v11 + n22 * v21 = e1 * v21 /\
  n11 * v12 + n12 * v22 = e2 * v12 /\ n21 * v12 + n22 * v22 = e2 * v22 /\ v11 * v22 - v12 * v21 <> 0.
