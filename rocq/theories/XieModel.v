(** * Model of /repo/geotecha/consolidation/xieandleo2004.py: class XieAndLeo2004 (large strain consolidation), over the reals.
    2-d arrays are lists of rows: row i is depth a[i], column j is time t[j].  Not modelled: plotting. *)
From Coq Require Import Reals List.
From Verif Require Import Base TerzaghiModel ConstitutiveModel.
Import ListNotations.
Local Open Scope R_scope.

(** 99-112 *)
Record xie := mkXie { x_qu : R; x_qp : R; x_H : R; x_Hw : R; x_kv0 : R; x_mvl : R; x_e00 : R; x_Gs : R; x_gamw : R; x_nterms : nat }.

Section Methods.
Variable X : xie.
(** 121: M = np.pi * (np.arange(nterms) + 0.5) *)
Definition x_M : list R := map (fun k => PI * (INR k + / 2)) (seq 0 (x_nterms X)).
(** 128-130 *)
Definition x_cv0 : R := x_kv0 X / (x_mvl X * x_gamw X).
Definition x_dTv : R := x_cv0 / (x_H X)^2.
(** 132-148 *)
Definition x_Tv (t : R) : R := x_dTv * t.
(** 150-167 *)
Definition x_e0 (a : R) : R := x_e00 X - x_mvl X * x_gamw X * (x_Gs X - 1) * a.
(** 169-191 *)
Definition x_efinal (a : R) : R := (1 + x_e0 a) * exp (- x_mvl X * x_qu X) - 1.
(** 193-195 *)
Definition x_settlement_final : R := x_H X * (1 - exp (- x_mvl X * x_qu X)).
(** 197-220 *)
Definition x_initial_effective_stress (a : R) : R :=
  x_qp X + 1 / x_mvl X * ln ((1 + x_e00 X) / (1 + x_e00 X - x_mvl X * x_gamw X * (x_Gs X - 1) * a)).

(** Arrays built from a (depths) and t (times); arrays of times only. *)
Definition grid (f : R -> R -> R) (a t : list R) : list (list R) := map (fun ai => map (f ai) t) a.
(** 248-253 *)
Definition x_u_PTIB : list R -> list R -> list (list R) := grid (fun ai tj =>
  let Tv := x_Tv tj in let a := ai / x_H X in
  ln (np_sum (map (fun M => 2 / M * sin (M * a) * exp (- M^2 * Tv)) x_M) * (exp (x_mvl X * x_qu X) - 1) + 1) / x_mvl X).
(** 280-285 *)
Definition x_u_PTPB : list R -> list R -> list (list R) := grid (fun ai tj =>
  let Tv := x_Tv tj in let a := ai / x_H X in
  ln (np_sum (map (fun M => 2 / M * sin (2 * M * a) * exp (-4 * M^2 * Tv)) x_M) * (exp (x_mvl X * x_qu X) - 1) + 1) / x_mvl X).
(** 315-320 *)
Definition x_settlement_PTIB : list R -> list R -> list (list R) := grid (fun ai tj =>
  let Tv := x_Tv tj in let a := ai / x_H X in
  (- np_sum (map (fun M => 2 / M^2 * cos (M * a) * exp (- M^2 * Tv)) x_M) + (1 - a)) * (1 - exp (- x_mvl X * x_qu X)) * x_H X).
(** 348-353 *)
Definition x_settlement_PTPB : list R -> list R -> list (list R) := grid (fun ai tj =>
  let Tv := x_Tv tj in let a := ai / x_H X in
  (- np_sum (map (fun M => 1 / M^2 * (1 + cos (2 * M * a)) * exp (-4 * M^2 * Tv)) x_M) + (1 - a)) * (1 - exp (- x_mvl X * x_qu X)) * x_H X).
(** 376-381 *)
Definition x_Us_PTIB (t : list R) : list R := map (fun tj => np_sum (map (fun M => 2 / M^2 * exp (- M^2 * x_Tv tj)) x_M) * -1 + 1) t.
(** 404-409 *)
Definition x_Us_PTPB (t : list R) : list R := map (fun tj => np_sum (map (fun M => 2 / M^2 * exp (-4 * M^2 * x_Tv tj)) x_M) * -1 + 1) t.
(** u(a, t) inside Up_: 428-432, 460-464; quad(f, a, b) stands for scipy's integrate.quad(f, a, b)[0] *)
Definition first_cell (l : list (list R)) : R := hd 0 (hd [] l).
(** 413-442 *)
Definition x_Up_PTIB (quad : (R -> R) -> R -> R -> R) (t : list R) : list R :=
  map (fun tj => 1 - 1 / (x_H X * x_qu X) * quad (fun a => first_cell (x_u_PTIB [a] [tj])) 0 (x_H X)) t.
(** 445-474 *)
Definition x_Up_PTPB (quad : (R -> R) -> R -> R -> R) (t : list R) : list R :=
  map (fun tj => 1 - 1 / (x_H X * x_qu X) * quad (fun a => first_cell (x_u_PTPB [a] [tj])) 0 (x_H X)) t.
(** 495-500, 519-524, 545-551, 572-578: the name qu is not defined in these four methods (nor in the module) *)
Definition x_effective_stress_PTIB (a t : list R) : result (list (list R)) := Err NameError.
Definition x_effective_stress_PTPB (a t : list R) : result (list (list R)) := Err NameError.
Definition x_total_stress_PTIB (a t : list R) : result (list (list R)) := Err NameError.
Definition x_total_stress_PTPB (a t : list R) : result (list (list R)) := Err NameError.
(** p = u + gamw * (Hw + a + S), for arrays u, S with one row for each a *)
Definition plus_static (a : list R) (u S : list (list R)) : list (list R) :=
  map (fun q => map (fun c => fst c + x_gamw X * (x_Hw X + fst q + snd c)) (combine (fst (snd q)) (snd (snd q)))) (combine a (combine u S)).
(** 580-605 *)
Definition x_total_pore_pressure_PTIB (a t : list R) : list (list R) := plus_static a (x_u_PTIB a t) (x_settlement_PTIB a t).
(** 607-632 *)
Definition x_total_pore_pressure_PTPB (a t : list R) : list (list R) := plus_static a (x_u_PTPB a t) (x_settlement_PTPB a t).
(** 651-664 *)
Definition x_e_PTIB : list R -> list R -> list (list R) := grid (fun ai tj =>
  let Tv := x_Tv tj in let a := ai / x_H X in
  np_sum (map (fun M => 2 / M * sin (M * a) * exp (- M^2 * Tv)) x_M) * (x_e0 ai - x_efinal ai) + x_efinal ai).
(** 683-696 *)
Definition x_e_PTPB : list R -> list R -> list (list R) := grid (fun ai tj =>
  let Tv := x_Tv tj in let a := ai / x_H X in
  np_sum (map (fun M => 2 / M * sin (2 * M * a) * exp (-4 * M^2 * Tv)) x_M) * (x_e0 ai - x_efinal ai) + x_efinal ai).
(** 724-729 *)
Definition x_vs_PTIB : list R -> list R -> list (list R) := grid (fun ai tj =>
  let Tv := x_Tv tj in let a := ai / x_H X in
  np_sum (map (fun M => cos (M * a) * exp (- M^2 * Tv)) x_M) * (1 - exp (- x_mvl X * x_qu X)) * (2 * x_cv0 / x_H X)).
(** 757-762 *)
Definition x_vs_PTPB : list R -> list R -> list (list R) := grid (fun ai tj =>
  let Tv := x_Tv tj in let a := ai / x_H X in
  np_sum (map (fun M => (1 + cos (2 * M * a)) * exp (-4 * M^2 * Tv)) x_M) * (1 - exp (- x_mvl X * x_qu X)) * (4 * x_cv0 / x_H X)).
(** f / e, elementwise *)
Definition over (f e : list (list R)) : list (list R) :=
  map (fun q => map (fun c => fst c / snd c) (combine (fst q) (snd q))) (combine f e).
(** 786-798 *)
Definition x_vw_PTIB (a t : list R) : list (list R) :=
  over (grid (fun ai tj =>
    let Tv := x_Tv tj in let a := ai / x_H X in
    np_sum (map (fun M => cos (M * a) * exp (- M^2 * Tv)) x_M) * (1 - exp (- x_mvl X * x_qu X)) * (2 * x_cv0 / x_H X)) a t) (x_e_PTIB a t).
(** 822-843: f1.ravel()[None,:]*(1+e)/e - f2/e *)
Definition x_vw_PTPB (a t : list R) : list (list R) :=
  map (fun q => map (fun c =>
      let e := snd c in let ai := fst q in let tj := fst c in
      let Tv := x_Tv tj in let a := ai / x_H X in
      let f1 := np_sum (map (fun M => exp (-4 * M^2 * Tv)) x_M) * (1 - exp (- x_mvl X * x_qu X)) * (4 * x_cv0 / x_H X) in
      let f2 := np_sum (map (fun M => (1 + cos (2 * M * a)) * exp (-4 * M^2 * Tv)) x_M) * (1 - exp (- x_mvl X * x_qu X)) * (2 * x_cv0 / x_H X) in
      f1 * (1 + e) / e - f2 / e) (combine t (snd q))) (combine a (x_e_PTPB a t)).
(** 862-865, 884-887 *)
Definition plus_depth (a : list R) (S : list (list R)) : list (list R) := map (fun q => map (fun s => fst q + s) (snd q)) (combine a S).
Definition x_xi_PTIB (a t : list R) : list (list R) := plus_depth a (x_settlement_PTIB a t).
Definition x_xi_PTPB (a t : list R) : list (list R) := plus_depth a (x_settlement_PTPB a t).
(** 1108, 1132: np.logspace(np.log10(0.0001/dTv), np.log10(10/dTv), 500) = 10 ** linspace(...) *)
Definition linspace (a b : R) (n : nat) : list R := map (fun i => a + INR i * ((b - a) / INR (n - 1))) (seq 0 n).
Definition logspace (a b : R) (n : nat) : list R := map pow10 (linspace a b n).
Definition t_interp : list R := logspace (log10 (/ 10000 / x_dTv)) (log10 (10 / x_dTv)) 500.
(** 1092-1115, 1116-1137 *)
Definition x_t_from_Us_PTIB (Us : list R) : result (list R) := mapM (fun v => np_interp v (x_Us_PTIB t_interp) t_interp) Us.
Definition x_t_from_Us_PTPB (Us : list R) : result (list R) := mapM (fun v => np_interp v (x_Us_PTPB t_interp) t_interp) Us.
End Methods.
