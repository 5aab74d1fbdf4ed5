(** * Model of back_calc_drain_spacing_from_eta, /repo/geotecha/consolidation/smear_zones.py:2651-2749

    s and kap are the lists np.atleast_1d makes of the arguments.  fsolve is an oracle: it is given calc_eta as a function of the
    spacing, and may return anything or fail.  In the Python code the value fsolve returns is used whether or not it converged.
    [None] for a mu value is numpy's nan.  Division by mu + muw = 0 (numpy's inf) is Coq's. *)
From Coq Require Import Reals List Bool String.
From Verif Require Import Base SmearModel.
Import ListNotations.
Local Open Scope list_scope.
Local Open Scope R_scope.

(** the functions mu_function may be, :2663-2666 *)
Inductive mu_kind := Ideal | Constant | Overlapping | Linear | Parabolic | PiecewiseConstant | PiecewiseLinear.
Definition piecewise (f : mu_kind) : bool := match f with PiecewiseConstant | PiecewiseLinear => true | _ => false end.
Definition some (r : result R) : result (option R) := v <- r ;; Ok (Some v).
Definition the_one (r : result (list R)) : result R := l <- r ;; match l with [v] => Ok v | _ => Err ValueError end.
(** mu_fn( *args) with the arguments of :2720-2723 *)
Definition mu_value (f : mu_kind) (n : R) (s kap : list R) : result (option R) :=
  match f with
  | PiecewiseConstant => some (mu_piecewise_constant s kap (Some n) None)
  | PiecewiseLinear => some (mu_piecewise_linear s kap (Some n) None)
  | _ => match s, kap with
         | [s], [kap] => match f with
             | Ideal => some (the_one (mu_ideal [n]))
             | Constant => some (mu_constant n s kap)
             | Overlapping => some (mu_overlapping_linear n s kap)
             | Linear => some (the_one (mu_linear [n] [s] [kap]))
             | _ => mu_parabolic n s kap
             end
         | _, _ => Err ValueError
         end
  end.
(** np.max *)
Definition np_max (s : list R) : result R := match s with [] => Err ValueError | a :: l => Ok (fold_left Rmax l a) end.
(** :2713, :2745: n below the smear zone is refused *)
Definition too_near (f : mu_kind) (n smax : R) : bool := match f with Ideal | Overlapping => false | _ => Rltb n smax end.
Definition radius (sp : R) (pattern : string) : result R := the_one (re_from_drain_spacing [sp] pattern).
(** calc_eta :2704-2724 *)
Definition calc_eta (eta rw : R) (s kap : list R) (f : mu_kind) (pattern : string) (muw sp : R) : result (option R) :=
  re <- radius sp pattern ;;
  let n := re / rw in
  sm <- np_max s ;;
  if too_near f n sm then Err ValueError else
  m <- mu_value f n s kap ;;
  match m with
  | None => Ok None
  | Some mu => e <- drain_eta re (Ok mu) muw ;; Ok (Some (e - eta))
  end.
Section Back.
Variable fsolve : (R -> result (option R)) -> R -> result R.
(** :2729-2749 *)
Definition back_calc (eta : R) (pattern : string) (f : mu_kind) (rw : R) (s kap : list R) (muw : R) : result (R * R * R) :=
  if negb (piecewise f) && ((1 <? List.length s)%nat || (1 <? List.length kap)%nat) then Err ValueError else
  sm <- np_max s ;;
  let x0 := rw * sm / (1 / 2) * 2 in
  _ <- calc_eta eta rw s kap f pattern muw x0 ;;
  sp <- fsolve (calc_eta eta rw s kap f pattern muw) x0 ;;
  re <- radius sp pattern ;;
  let n := re / rw in
  if too_near f n sm then Err ValueError else Ok (sp, re, n).
End Back.
