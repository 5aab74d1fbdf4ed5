(** * Model of non_darcy_drain_eta, /repo/geotecha/consolidation/smear_zones.py :3692-3769

    The arguments of the beta function are numbers; its result is a parameter.  Powers of negative numbers are not modelled. *)
From Coq Require Import Reals List Bool.
From Verif Require Import Base.
Import ListNotations.
Local Open Scope R_scope.
Local Open Scope list_scope.

(** x ** e for x >= 0, e > 0 *)
Definition power (x e : R) : R := if Reqb x 0 then 0 else Rpower x e.
(** n_kw: the keyword n; args: the positional arguments; beta: what the beta function returns with them *)
Definition non_darcy_drain_eta (re iL gamw : R) (n_kw : option R) (args : list R) (nflow : option R) (beta : result R) : result R :=
  n <- match n_kw with Some n => Ok n | None => match args with [] => Err IndexError | a :: _ => Ok a end end ;;      (* :3757-3760 *)
  if Reqb n 0 then Err ZeroDivisionError else
  let rw := re / n in                                                                                                  (* :3761 *)
  nf <- match nflow with Some v => Ok v | None => Err KeyError end ;;                                                  (* :3763 *)
  b <- beta ;;                                                                                                         (* :3765 *)
  let d := re ^ 2 * power b nf * power (rw * gamw) (nf - 1) * nf * power iL (nf - 1) in
  if Reqb d 0 then Err ZeroDivisionError else Ok (2 / d).                                                              (* :3767-3769 *)
