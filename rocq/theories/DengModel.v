(** * Model of /repo/geotecha/consolidation/dengetal2013and2014.py, over the reals.
    Scalar divisions by zero (which raise) are not modelled: the theorems assume the divisors are not zero.
    A cell [None] stands for a cell whose computation meets the logarithm of a number <= 0, a division of arrays by
    zero or a power of a number <= 0 (numpy: nan or an infinite intermediate value). *)
From Coq Require Import Reals List Bool.
From Verif Require Import Base SmearModel TerzaghiModel.
Import ListNotations.
Local Open Scope bool_scope.
Local Open Scope R_scope.

Definition cells := list (list (option R)).
(** rs=None, ks=None: no smear zone *)
Record deng := mkDeng { d_rw : R; d_re : R; d_A1 : R; d_A2 : R; d_A3 : R; d_H : R; d_rs : option R; d_ks : option R;
  d_kw0 : R; d_kh : R; d_mv : R; d_gamw : R; d_ui : R }.
Definition log_of (x : R) : option R := if Rltb 0 x then Some (ln x) else None.
Definition div_by (x y : R) : option R := if Reqb y 0 then None else Some (x / y).
Definition pow_of (x y : R) : option R := if Rltb 0 x then Some (Rpower x y) else None.
Definition obind {A B} (o : option A) (f : A -> option B) : option B := match o with Some x => f x | None => None end.
(** 113-118, 233-238 *)
Definition d_ch (D : deng) : R := d_kh D / d_mv D / d_gamw D.
Definition d_n (D : deng) : R := d_re D / d_rw D.
Definition d_qw0 (D : deng) : R := d_kw0 D * PI * (d_rw D)^2.
Definition d_Th (D : deng) (t : R) : R := d_ch D * t / 4 / (d_re D)^2.
(** 120-125, 242-247 *)
Definition d_mu0 (D : deng) : result R :=
  match d_ks D, d_rs D with
  | Some ks, Some rs => mu_constant (d_n D) (rs / d_rw D) (d_kh D / ks)
  | _, _ => l <- mu_ideal [d_n D] ;; Ok (hd 0 l)
  end.
Definition d_grid (f : R -> R -> option R) (z t : list R) : cells := map (fun zi => map (f zi) t) z.

(** 29-156.  [Ok None]: the function returns None (no branch taken). *)
Definition dengetal2013 (D : deng) (z t : list R) : result (option cells) :=
  let A1 := d_A1 D in let A2 := d_A2 D in let A3 := d_A3 D in let H := d_H D in let kh := d_kh D in let ui := d_ui D in
  let qw0 := d_qw0 D in let ch := d_ch D in let re := d_re D in
  if Rltb A1 0 then Err ValueError else
  if Rltb A1 A2 then Err ValueError else
  if Rltb A3 0 then Err ValueError else
  mu0 <- d_mu0 D ;;
  if Reqb A3 0 && Reqb A2 0 then
    Ok (Some (d_grid (fun z t =>
      let mus := mu0 + PI * kh / (qw0 * A1) * (2 * H * z - z^2) in
      obind (div_by (-8 * d_Th D t) mus) (fun x => Some (ui * exp x))) z t))
  else if Reqb A3 0 && Rltb 0 A2 then
    Ok (Some (d_grid (fun z t =>
      obind (log_of (1 - A2 / A1 * z / H)) (fun l =>
      let mu1 := (A2 * z / H + (A1 - A2) * l) * (2 * PI * kh * H^2 / (qw0 * A2^2)) + mu0 in
      obind (div_by (-8 * d_Th D t) mu1) (fun x => Some (ui * exp x)))) z t))
  else if Rltb 0 A3 && Reqb A2 0 then
    let a3 := A3 * 4 * re^2 / ch in
    Ok (Some (d_grid (fun z t =>
      obind (div_by (qw0 * A1 * mu0) (PI * kh * (2*H*z - z^2))) (fun alp0 =>
      obind (div_by (1 + alp0 * exp (- a3 * d_Th D t)) (1 + alp0)) (fun b =>
      obind (pow_of b (8 / (a3 * mu0))) (fun p => Some (ui * p))))) z t))
  else if Rltb 0 A3 && Rltb 0 A2 then
    let a3 := A3 * 4 * re^2 / ch in
    Ok (Some (d_grid (fun z t =>
      obind (log_of (1 - A2 / A1 * z / H)) (fun l =>
      obind (div_by (mu0 * qw0 * A2^2 / (2 * PI * H^2 * kh)) (A2 * z / H + (A1 - A2) * l)) (fun alp =>
      obind (div_by (1 + alp * exp (- a3 * d_Th D t)) (1 + alp)) (fun b =>
      obind (pow_of b (8 / (a3 * mu0))) (fun p => Some (ui * p)))))) z t))
  else Ok None.

(** 159-267 (A1, A2 are not parameters of this function).  At 263-264, 8 / (a3 * mu0) is a numpy division:
    with a3 = 0 it is inf, and 1 ** inf is 1. *)
Definition dengetal2014 (D : deng) (nterms : nat) (z t : list R) : result cells :=
  let A3 := d_A3 D in let H := d_H D in let n := d_n D in
  if Rltb A3 0 then Err ValueError else
  mu0 <- d_mu0 D ;;
  let a3 := A3 * 4 * (d_re D)^2 / d_ch D in
  let G0 := PI * d_kh D * H^2 / 4 / d_qw0 D in
  let M := tz_M nterms in
  Ok (d_grid (fun z t =>
    let Z := z / H in
    Some (d_ui D * np_sum (map (fun M =>
      let C0 := M^2 * mu0 / 8 / G0 * n^2 / (n^2 - 1) in
      let b := (1 + C0 * exp (- a3 * d_Th D t)) / (1 + C0) in
      2 / M * sin (M * Z) * (if Reqb (a3 * mu0) 0 then 1 else Rpower b (8 / (a3 * mu0)))) M))) z t).
