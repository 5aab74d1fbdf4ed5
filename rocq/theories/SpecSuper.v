(** * Vocabulary for superposed loads *)
From Coq Require Import Reals List Arith.
From Coquelicot Require Import Coquelicot.
From Verif Require Import Base PiecewiseModel SpecPiecewise SpecPolyLine PolyLineModel.
Import ListNotations.
Open Scope R_scope.

(** One load: magnitude-versus-time line, distribution-with-depth line, optional (omega, phase). *)
Record load := mkLoad { ld_a : points; ld_b : points; ld_om : option (R * R) }.
(** Its meaning: value of the magnitude line at times, value of the depth line at depths. *)
Record meaning := mkMeaning { m_a : R -> R; m_b : R -> R }.
Definition cos_factor (om : option (R * R)) (t : R) : R :=
  match om with None => 1 | Some (omega, phase) => cos (omega * t + phase) end.
(** The magnitude line evaluates to m_a, the depth line is proper next to the line c' and
    evaluates to m_b, and the depth intervals lie in the common range. *)
Definition load_means (cm : bool) (c' : points) (xbi xbj : list R) (ld : load) (m : meaning) : Prop :=
  (forall t, interp_x_y (px (ld_a ld)) (py (ld_a ld)) [t] cm = Ok [m_a m t]) /\
  exists b', drawn_rightward (ld_b ld) b' /\ well_separated [b'; c'] /\ noticeable_steps b' /\
    value_of b' (m_b m) /\ Forall2 (between [b'; c']) xbi xbj.
(** Sum over the loads of a_k(t) cos(omega_k t + phase_k) times the integral of b_k c over (u, w). *)
Definition load_sum (lds : list load) (ms : list meaning) (fc : R -> R) (t u w : R) : R :=
  fold_right Rplus 0 (map (fun p => m_a (snd p) t * cos_factor (ld_om (fst p)) t *
      RInt (fun x => m_b (snd p) x * fc x) u w) (combine lds ms)).
