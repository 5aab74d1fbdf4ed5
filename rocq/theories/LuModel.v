(** * Model of /repo/geotecha/consolidation/luetal2010.py, over the reals.

    rs=None, ks=None: no smear zone.  The division by kvc - kv (:139) raises when it is zero; other
    divisions by zero are not modelled (meaningful input has nonzero properties). *)
From Coq Require Import Reals List ZArith Bool.
From Verif Require Import Base ConstitutiveModel SmearModel TerzaghiModel.
Import ListNotations.
Open Scope R_scope.

(** The arguments (:28-30) apart from z and t. *)
Record lu := mkLu { l_rc : R; l_re : R; l_H : R; l_rs : option R; l_ks : option R; l_kv : R; l_kvc : R; l_kh : R; l_khc : R;
  l_mvs : R; l_mvc : R; l_gamw : R; l_utop : R; l_ubot : R; l_nterms : nat }.
(** The default values. *)
Definition lu_defaults (rc re : R) : lu := mkLu rc re 1 None None 1 1 1 1 (1/10) (1/10) 10 1 1 100.

Section Lu.
Variable P : lu.
Definition l_n : R := l_re P / l_rc P.                                     (* :104 *)
Definition l_Y : R := l_mvs P / l_mvc P.                                   (* :105 *)
Definition l_mu0 : result R :=                                             (* :110-115 *)
  match l_ks P, l_rs P with
  | Some ks, Some rs => mu_constant l_n (rs / l_rc P) (l_kh P / ks)
  | _, _ => l <- mu_ideal [l_n] ;; Ok (hd 0 l)
  end.
Definition l_M (k : nat) : R := (2 * INR k + 1) / 2 * PI.                  (* :117 *)
Definition l_betm (mu0 : R) (k : nat) : R :=
  let a := l_n^2 * mu0 / 2 * l_kvc P / l_kh P in                           (* :118 *)
  let a := a + (l_n^2 - 1) / 8 * l_kvc P / l_khc P in                      (* :119 *)
  let a := a * ((l_rc P / l_H P)^2 * (l_M k)^2) in                         (* :120 *)
  let a := a + (l_n^2 - 1 + l_kvc P / l_kv P) in                           (* :121 *)
  let a := a * (l_kv P / l_mvs P * (l_n^2 - 1 + l_Y)) in                   (* :122 *)
  let b := l_n^2 * mu0 / 2 * l_kv P / l_kh P in                            (* :124 *)
  let b := b + (l_n^2 - 1) / 8 * l_kv P / l_khc P in                       (* :125 *)
  let b := b * ((l_n^2 - 1) * l_kvc P / l_kv P + 1) in                     (* :126 *)
  let b := b + l_n^4 / (l_M k)^2 * (l_H P / l_rc P)^2 in                   (* :127 *)
  let b := b * (l_gamw P * (l_rc P)^2) in                                  (* :128 *)
  a / b.                                                                   (* :130 *)
Definition l_C (mu0 : R) : R :=                                            (* :132-135 *)
  ((l_re P)^2 * mu0 / 2 / l_kh P + (l_rc P)^2 * (l_n^2 - 1) / 8 / l_khc P)
    * (l_gamw P * ((l_n^2 - 1) * l_kvc P + l_kv P) * l_mvs P) / ((l_n^2 - 1 + l_Y) * (l_kvc P - l_kv P)).
Definition l_D (mu0 : R) : result R :=                                     (* :137-139 *)
  f <- fdiv (l_kv P * l_kvc P) (l_kvc P - l_kv P) ;;
  Ok (((l_re P)^2 * mu0 / 2 / l_kh P + (l_rc P)^2 * (l_n^2 - 1) / 8 / l_khc P) * f).
Definition minus1 (k : nat) : R := if Nat.even k then 1 else -1.           (* :141-142 *)
(** :144-147 one term of por *)
Definition l_term (mu0 z t : R) (k : nat) : R :=
  2 / l_M k * (l_utop P - minus1 k * (l_utop P - l_ubot P) / l_M k) * sin (l_M k * z / l_H P) * exp (- l_betm mu0 k * t).
Definition l_sum (f : nat -> R) : R := np_sum (map f (seq 0 (l_nterms P))).
(** :28-167: (por, pors, porc, avp, settle) *)
Definition luetal2010 (z t : list R) : result (list (list R) * list (list R) * list (list R) * list R * list R) :=
  mu0 <- l_mu0 ;;
  D <- l_D mu0 ;;
  let grid (f : R -> R -> R) := map (fun zi => map (f zi) t) z in
  let por := grid (fun z t => l_sum (l_term mu0 z t)) in                                                      (* :155 *)
  let pors := grid (fun z t => l_sum (fun k => l_term mu0 z t k *
      (1 + (l_C mu0 * (l_H P)^2 * l_betm mu0 k - D * (l_M k)^2) / ((l_H P)^2 * (l_n^2 - 1))))) in             (* :149-150, :156 *)
  let porc := grid (fun z t => l_sum (fun k => l_term mu0 z t k *
      (1 - l_C mu0 * l_betm mu0 k + D * (l_M k)^2 / (l_H P)^2))) in                                           (* :152-153, :157 *)
  let avp := map (fun t => l_sum (fun k =>
      2 / (l_M k)^2 * (l_utop P - minus1 k * (l_utop P - l_ubot P) / l_M k) * exp (- l_betm mu0 k * t))) t in  (* :159-162 *)
  let settle := map (fun a => ((l_utop P + l_ubot P) / 2 - a) * (l_H P * l_mvs P * l_n^2 / (l_n^2 - 1 + l_Y))) avp in (* :164-165 *)
  Ok (por, pors, porc, avp, settle).
End Lu.
