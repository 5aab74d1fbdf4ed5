(** * Model of SpecBeam.defl_vs_time_under_loads, /repo/geotecha/beam_on_foundation/specbeam.py:1544-1589

    The deflections under the axles are read off the table defl_norm by np.interp.  [None] is numpy's nan.  The method stores its
    two results in moving_load_w_norm and moving_load_w: for each vehicle, for each axle, for each time.  axle_positions also
    overwrites the vehicle's xnow buffer, which the next use overwrites again: not modelled.  A defl_norm with more columns than
    there are times is not modelled (its first columns are used), nor is one whose rows differ in length. *)
From Coq Require Import Reals List Bool Arith.
From Verif Require Import Base ConstitutiveModel PiecewiseModel BeamModel DingModel SpecBeamModel.
Import ListNotations.
Local Open Scope list_scope.
Local Open Scope R_scope.

(** np.interp(xnow, xvals, column): arrays of different lengths are refused :1576 *)
Definition interp_col (xs col : list R) (p : R) : result R := if (length xs =? length col)%nat then np_interp p xs col else Err ValueError.
(** :1578-1580, nan off the limits *)
Definition within (lim : R * R) (p w : R) : option R := if Rltb p (fst lim) || Rltb (snd lim) p then None else Some w.
(** :1575, the positions of the axles *)
Definition axles_now (u : mpl) (t : R) : result (list R) :=
  v <- need (mv_ u) ;;
  x0 <- (if Rltb v 0 then L <- need (mL u) ;; Ok (mx0 u + L) else Ok (mx0 u)) ;;
  Ok (positions u t v (mt0 u) x0).
(** defl_norm[:, j]; with one x value the numerical path has left a 1d array: wofx :902-903 *)
Definition column (o : sb) (d : list (list R)) (j : nat) : result (list R) :=
  if negb (b_analytical (s_in o)) && (length d =? 1)%nat then Err IndexError else mapM (fun row => get row j) d.
(** wvals[:, j] :1574-1582 *)
Definition under_at (o : sb) (d : list (list R)) (lim : R * R) (u : mpl) (j : nat) (t : R) : result (list (option R)) :=
  ps <- axles_now u t ;;
  col <- column o d j ;;
  ws <- mapM (interp_col (s_x o) col) ps ;;
  Ok (map (fun q => within lim (fst q) (snd q)) (combine ps ws)).
(** wvals: an axle's row over all times :1571-1584 *)
Definition under_vehicle (o : sb) (d : list (list R)) (lim : R * R) (u : mpl) : result (list (list (option R))) :=
  cols <- mapM (fun q => under_at o d lim u (fst q) (snd q)) (combine (seq 0 (length (s_t o))) (s_t o)) ;;
  Ok (map (fun a => map (fun c => nth a c None) cols) (seq 0 (length (mx u)))).
(** moving_load_w_norm and moving_load_w :1563-1589; without moving loads enumerate(None) is a TypeError *)
Definition defl_under (o : sb) (d : list (list R)) (lim : R * R) : result (list (list (list (option R))) * option (list (list (list (option R))))) :=
  match s_moving o with None => Err TypeError | Some l =>
  w <- mapM (under_vehicle o d lim) l ;;
  Ok (w, match b_L (s_in o) with Some L => Some (map (map (map (option_map (fun v => v * L)))) w) | None => None end) end.
