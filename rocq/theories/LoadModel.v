(** * Model of Eload_linear and EDload_linear, /repo/geotecha/speccon/integrals.py
    (exact real arithmetic; eigenvalues real: the code also accepts complex ones).
    The closed forms are in LoadGen.v. *)
From Coq Require Import Reals List Arith.
From Verif Require Import Base PiecewiseModel LoadGen SpectralModel.
Import ListNotations.
Open Scope R_scope.

(** loadtim[k], loadmag[k] *)
Definition with2 (x y : list R) (f : R -> R -> R) (k : nat) : result R :=
  x0 <- get x k ;; y0 <- get y k ;; Ok (f x0 y0).
(** loadtim[k], loadtim[k+1], loadmag[k] *)
Definition with3 (x y : list R) (f : R -> R -> R -> R) (k : nat) : result R :=
  x0 <- get x k ;; x1 <- get x (S k) ;; y0 <- get y k ;; Ok (f x0 x1 y0).
(** loadtim[k], loadmag[k], loadmag[k+1] *)
Definition with3' (x y : list R) (f : R -> R -> R -> R) (k : nat) : result R :=
  x0 <- get x k ;; y0 <- get y k ;; y1 <- get y (S k) ;; Ok (f x0 y0 y1).
(** all four *)
Definition with4 (x y : list R) (f : R -> R -> R -> R -> R) (k : nat) : result R :=
  x0 <- get x k ;; x1 <- get x (S k) ;; y0 <- get y k ;; y1 <- get y (S k) ;; Ok (f x0 x1 y0 y1).

(** The body of the loops over k for one time t and one eigenvalue.
    integrals.py:2784-2842 (scalar) and 2864-2925 (vectorized). *)
Definition Eload_entry (im : impl) (x y : list R) (dT t : R)
  (sets : list nat * list nat * list nat * list nat * list nat) (lam : R) : result R :=
  let '(rl, cl, sl, rc, cc) := sets in
  match im with
  | scalar =>
    a <- mapM (with2 x y (fun x0 y0 => Eload_scalar_const_in y0 x0 dT lam t)) cc ;;
    b <- mapM (with3 x y (fun x0 x1 y0 => Eload_scalar_const_less y0 x0 x1 dT lam t)) cl ;;
    c <- mapM (with4 x y (fun x0 x1 y0 y1 => Eload_scalar_ramp_in y0 y1 x0 x1 dT lam t)) rc ;;
    d <- mapM (with4 x y (fun x0 x1 y0 y1 => Eload_scalar_ramp_less y0 y1 x0 x1 dT lam t)) rl ;;
    Ok (sumn (a ++ b ++ c ++ d))
  | _ =>
    a <- mapM (with2 x y (fun x0 y0 => Eload_vectorized_const_in y0 x0 dT lam t)) cc ;;
    b <- mapM (with3 x y (fun x0 x1 y0 => Eload_vectorized_const_less y0 x0 x1 dT lam t)) cl ;;
    c <- mapM (with4 x y (fun x0 x1 y0 y1 => Eload_vectorized_ramp_in y0 y1 x0 x1 dT lam t)) rc ;;
    d <- mapM (with4 x y (fun x0 x1 y0 y1 => Eload_vectorized_ramp_less y0 y1 x0 x1 dT lam t)) rl ;;
    Ok (sumn (a ++ b ++ c ++ d))
  end.
(** integrals.py:2666-2926 Eload_linear: row i is tvals[i], column j is eigs[j]
    (the segment sets of 2781-2782 / 2860-2861 are computed per time here, for all times there). *)
Definition Eload_linear (im : impl) (loadtim loadmag eigs tvals : list R) (dT : R) : result (list (list R)) :=
  mapM (fun t => sets <- containing_also_less1 loadtim loadmag true false false t ;;
                 mapM (Eload_entry im loadtim loadmag dT t sets) eigs) tvals.

(** integrals.py:3045-3058 (scalar) and 3083-3096 (vectorized) *)
Definition EDload_entry (im : impl) (x y : list R) (dT t : R)
  (sets : list nat * list nat * list nat * list nat * list nat) (lam : R) : result R :=
  let '(rl, cl, sl, rc, cc) := sets in
  match im with
  | scalar =>
    a <- mapM (with3' x y (fun x0 y0 y1 => EDload_scalar_step y0 y1 x0 dT lam t)) sl ;;
    b <- mapM (with4 x y (fun x0 x1 y0 y1 => EDload_scalar_ramp_in y0 y1 x0 x1 dT lam t)) rc ;;
    c <- mapM (with4 x y (fun x0 x1 y0 y1 => EDload_scalar_ramp_less y0 y1 x0 x1 dT lam t)) rl ;;
    Ok (sumn (a ++ b ++ c))
  | _ =>
    a <- mapM (with3' x y (fun x0 y0 y1 => EDload_vectorized_step y0 y1 x0 dT lam t)) sl ;;
    b <- mapM (with4 x y (fun x0 x1 y0 y1 => EDload_vectorized_ramp_in y0 y1 x0 x1 dT lam t)) rc ;;
    c <- mapM (with4 x y (fun x0 x1 y0 y1 => EDload_vectorized_ramp_less y0 y1 x0 x1 dT lam t)) rl ;;
    Ok (sumn (a ++ b ++ c))
  end.
(** integrals.py:2929-3097 EDload_linear *)
Definition EDload_linear (im : impl) (loadtim loadmag eigs tvals : list R) (dT : R) : result (list (list R)) :=
  mapM (fun t => sets <- containing_also_less1 loadtim loadmag true false false t ;;
                 mapM (EDload_entry im loadtim loadmag dT t sets) eigs) tvals.
