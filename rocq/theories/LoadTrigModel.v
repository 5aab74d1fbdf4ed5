(** * Model of Eload_coslinear, EDload_coslinear and Eload_sinlinear,
    /repo/geotecha/speccon/integrals.py (exact real arithmetic, real eigenvalues).
    The closed forms are in LoadTrigGen.v.  Every closed form is handed all of loadtim[k],
    loadtim[k+1], loadmag[k], loadmag[k+1]: k is always a segment, so both indexes exist. *)
From Coq Require Import Reals List Arith.
From Verif Require Import Base PiecewiseModel LoadModel LoadTrigGen SpectralModel.
Import ListNotations.
Open Scope R_scope.

(** A closed form applied to segment k. *)
Definition closed (x y : list R) (om ph dT lam t : R) (f : R -> R -> R -> R -> R -> R -> R -> R -> R -> R) : nat -> result R :=
  with4 x y (fun x0 x1 y0 y1 => f y0 y1 x0 x1 om ph dT lam t).

(** integrals.py:3219-3758 (scalar) and 3780-4322 (vectorized) *)
Definition Eload_cos_entry (im : impl) (x y : list R) (om ph dT t : R)
  (sets : list nat * list nat * list nat * list nat * list nat) (lam : R) : result R :=
  let '(rl, cl, sl, rc, cc) := sets in
  let c := closed x y om ph dT lam t in
  match im with
  | scalar =>
    v1 <- mapM (c Ecos_scalar_const_in) cc ;; v2 <- mapM (c Ecos_scalar_const_less) cl ;;
    v3 <- mapM (c Ecos_scalar_ramp_in) rc ;; v4 <- mapM (c Ecos_scalar_ramp_less) rl ;;
    Ok (sumn (v1 ++ v2 ++ v3 ++ v4))
  | _ =>
    v1 <- mapM (c Ecos_vectorized_const_in) cc ;; v2 <- mapM (c Ecos_vectorized_const_less) cl ;;
    v3 <- mapM (c Ecos_vectorized_ramp_in) rc ;; v4 <- mapM (c Ecos_vectorized_ramp_less) rl ;;
    Ok (sumn (v1 ++ v2 ++ v3 ++ v4))
  end.
(** integrals.py:3101-4323 Eload_coslinear *)
Definition Eload_coslinear (im : impl) (loadtim loadmag : list R) (om ph : R) (eigs tvals : list R) (dT : R) : result (list (list R)) :=
  mapM (fun t => sets <- containing_also_less1 loadtim loadmag true false false t ;;
                 mapM (Eload_cos_entry im loadtim loadmag om ph dT t sets) eigs) tvals.

(** integrals.py:5587-6128 (scalar) and 6150-6694 (vectorized) *)
Definition Eload_sin_entry (im : impl) (x y : list R) (om ph dT t : R)
  (sets : list nat * list nat * list nat * list nat * list nat) (lam : R) : result R :=
  let '(rl, cl, sl, rc, cc) := sets in
  let c := closed x y om ph dT lam t in
  match im with
  | scalar =>
    v1 <- mapM (c Esin_scalar_const_in) cc ;; v2 <- mapM (c Esin_scalar_const_less) cl ;;
    v3 <- mapM (c Esin_scalar_ramp_in) rc ;; v4 <- mapM (c Esin_scalar_ramp_less) rl ;;
    Ok (sumn (v1 ++ v2 ++ v3 ++ v4))
  | _ =>
    v1 <- mapM (c Esin_vectorized_const_in) cc ;; v2 <- mapM (c Esin_vectorized_const_less) cl ;;
    v3 <- mapM (c Esin_vectorized_ramp_in) rc ;; v4 <- mapM (c Esin_vectorized_ramp_less) rl ;;
    Ok (sumn (v1 ++ v2 ++ v3 ++ v4))
  end.
(** integrals.py:5569-6695 Eload_sinlinear *)
Definition Eload_sinlinear (im : impl) (loadtim loadmag : list R) (om ph : R) (eigs tvals : list R) (dT : R) : result (list (list R)) :=
  mapM (fun t => sets <- containing_also_less1 loadtim loadmag true false false t ;;
                 mapM (Eload_sin_entry im loadtim loadmag om ph dT t sets) eigs) tvals.

(** integrals.py:4444-4992 (scalar) and 5017-5565 (vectorized) *)
Definition EDload_cos_entry (im : impl) (x y : list R) (om ph dT t : R)
  (sets : list nat * list nat * list nat * list nat * list nat) (lam : R) : result R :=
  let '(rl, cl, sl, rc, cc) := sets in
  let c := closed x y om ph dT lam t in
  match im with
  | scalar =>
    v0 <- mapM (c EDcos_scalar_step) sl ;;
    v3 <- mapM (c EDcos_scalar_ramp_in) rc ;; v4 <- mapM (c EDcos_scalar_ramp_less) rl ;;
    v1 <- mapM (c EDcos_scalar_const_in) cc ;; v2 <- mapM (c EDcos_scalar_const_less) cl ;;
    Ok (sumn (v0 ++ v3 ++ v4 ++ v1 ++ v2))
  | _ =>
    v0 <- mapM (c EDcos_vectorized_step) sl ;;
    v3 <- mapM (c EDcos_vectorized_ramp_in) rc ;; v4 <- mapM (c EDcos_vectorized_ramp_less) rl ;;
    v1 <- mapM (c EDcos_vectorized_const_in) cc ;; v2 <- mapM (c EDcos_vectorized_const_less) cl ;;
    Ok (sumn (v0 ++ v3 ++ v4 ++ v1 ++ v2))
  end.
(** integrals.py:4326-5566 EDload_coslinear *)
Definition EDload_coslinear (im : impl) (loadtim loadmag : list R) (om ph : R) (eigs tvals : list R) (dT : R) : result (list (list R)) :=
  mapM (fun t => sets <- containing_also_less1 loadtim loadmag true false false t ;;
                 mapM (EDload_cos_entry im loadtim loadmag om ph dT t sets) eigs) tvals.
