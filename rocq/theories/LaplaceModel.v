(** * Model of /repo/geotecha/mathematics/laplace.py and mp_laplace.py: class Talbot, over the complex numbers.

    The extra arguments args are part of f.  n is a positive integer.  Divisions by sin or tan of zero are not
    modelled (the theorems show that none occurs). *)
From Coq Require Import Reals List Arith Bool.
From Coquelicot Require Import Complex.
From Verif Require Import Base.
Import ListNotations.
Open Scope R_scope.

(** a + b j *)
Definition cpx (a b : R) : C := (a, b).
(** numpy.exp of a complex number *)
Definition cexp (z : C) : C := (exp (Re z) * cos (Im z), exp (Re z) * sin (Im z)).
(** sum over an axis *)
Definition csum (l : list C) : C := fold_left Cplus l (RtoC 0).
(** laplace.py:24-56 *)
Definition cot (phi : R) : R := 1 / tan phi.
Definition csc (phi : R) : R := 1 / sin phi.

(** the object: laplace.py:111-116, mp_laplace.py:88-94 *)
Record talbot := mkTalbot { tal_f : C -> C; tal_n : nat; tal_shift : R; tal_vectorized : bool }.
Definition Talbot (f : C -> C) (n : nat) (shift : R) (vectorized : bool) : talbot :=
  mkTalbot f (n + n mod 2) shift vectorized.

Section Call.
Variable T : talbot.
Definition nR : R := INR (tal_n T).
Definition h_ : R := 2 * PI / nR.                                                   (* laplace.py:141 *)
Definition theta (k : nat) : R := - PI + (INR k + 1 / 2) * h_.                      (* :143 *)
(** :144 *)
Definition z_ (t : R) (k : nat) : C := Cplus (RtoC (tal_shift T)) (Cmult (RtoC (nR / t))
  (RtoC (5017/10000 * theta k * cot (6407/10000 * theta k) - 6122/10000) + cpx 0 (2645/10000) * RtoC (theta k)))%C.
(** :145 *)
Definition dz_ (t : R) (k : nat) : C := Cmult (RtoC (nR / t))
  (RtoC (- (5017/10000) * (6407/10000) * theta k * (csc (6407/10000 * theta k))^2 + 5017/10000 * cot (6407/10000 * theta k)) + cpx 0 (2645/10000))%C.
(** :146-157 one time *)
Definition inv_laplace1 (t : R) : C :=
  let s := if tal_vectorized T
    then csum (map (fun k => cexp (z_ t k * RtoC t) * tal_f T (z_ t k) * dz_ t k)%C (seq 0 (tal_n T)))   (* :147 *)
    else csum (map (fun k => cexp (z_ t k * RtoC t) * dz_ t k * tal_f T (z_ t k))%C (seq 0 (tal_n T)))   (* :149-155 *)
  in (s * (RtoC h_ / (cpx 0 2 * RtoC PI)))%C.
(** :135-162: a single time gives a number, several an array *)
Inductive answer := Number (v : R) | Array (l : list R).
Definition real_parts (l : list C) : answer := match l with [v] => Number (Re v) | _ => Array (map Re l) end.
Definition call (t : list R) : result answer :=
  if existsb (fun x => Reqb x 0) t then Err ValueError else Ok (real_parts (map inv_laplace1 t)).

(** mp_laplace.py:118-142, in exact arithmetic *)
Definition mp_z (t : R) (k : nat) : C := (RtoC (tal_shift T) + RtoC (nR / t) *
  (RtoC (5017/10000 * theta k / tan (6407/10000 * theta k) - 6122/10000) + cpx 0 (2645/10000) * RtoC (theta k)))%C.
Definition mp_dz (t : R) (k : nat) : C := (RtoC (nR / t) *
  (RtoC (- (5017/10000) * (6407/10000) * theta k / (sin (6407/10000 * theta k))^2 + 5017/10000 / tan (6407/10000 * theta k)) + cpx 0 (2645/10000)))%C.
Definition mp_inv1 (t : R) : C :=
  (csum (map (fun k => cexp (mp_z t k * RtoC t) * tal_f T (mp_z t k) * mp_dz t k) (seq 0 (tal_n T))) * (RtoC h_ / (cpx 0 2 * RtoC PI)))%C.
Definition mp_call (t : list R) : result answer :=
  if existsb (fun x => Reqb x 0) t then Err ValueError else Ok (real_parts (map mp_inv1 t)).
End Call.
