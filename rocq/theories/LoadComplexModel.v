(** * Model of Eload_linear and Eload_sinlinear for complex eigenvalues, /repo/geotecha/speccon/integrals.py

    Exact arithmetic; the real case is in LoadModel and LoadTrigModel.  The closed forms are in LoadComplexGen.v.  A zero
    denominator (inf or nan in numpy) is not modelled: the theorems exclude it.  implementation='fortran' is the vectorized
    code, as where the compiled extension is missing. *)
From Coq Require Import Reals List Arith.
From Coquelicot Require Import Coquelicot.
From Verif Require Import Base PiecewiseModel LoadModel LoadComplexGen SpectralModel BeamModel.
Import ListNotations.
Local Open Scope R_scope.

Definition sumC (l : list C) : C := fold_right Cplus (RtoC 0) l.
(** A closed form applied to segment k: loadtim[k], loadtim[k+1], loadmag[k], loadmag[k+1] *)
Definition closedC (x y : list R) (om ph dT t : R) (lam : C) (f : R -> R -> R -> R -> R -> R -> R -> R -> C -> C) (k : nat) : result C :=
  x0 <- get x k ;; x1 <- get x (S k) ;; y0 <- get y k ;; y1 <- get y (S k) ;; Ok (f y0 y1 x0 x1 om ph dT t lam).
(** integrals.py:2784-2842 (scalar) and 2864-2925 (vectorized) *)
Definition CElin_entry (im : impl) (x y : list R) (dT t : R) (sets : list nat * list nat * list nat * list nat * list nat) (lam : C) : result C :=
  let '(rl, cl, sl, rc, cc) := sets in
  let c := closedC x y 0 0 dT t lam in
  match im with
  | scalar =>
    v1 <- mapM (c CElin_scalar_const_in) cc ;; v2 <- mapM (c CElin_scalar_const_less) cl ;;
    v3 <- mapM (c CElin_scalar_ramp_in) rc ;; v4 <- mapM (c CElin_scalar_ramp_less) rl ;;
    Ok (sumC (v1 ++ v2 ++ v3 ++ v4))
  | _ =>
    v1 <- mapM (c CElin_vectorized_const_in) cc ;; v2 <- mapM (c CElin_vectorized_const_less) cl ;;
    v3 <- mapM (c CElin_vectorized_ramp_in) rc ;; v4 <- mapM (c CElin_vectorized_ramp_less) rl ;;
    Ok (sumC (v1 ++ v2 ++ v3 ++ v4))
  end.
(** integrals.py:2666-2926 Eload_linear *)
Definition CEload_linear (im : impl) (loadtim loadmag : list R) (eigs : list C) (tvals : list R) (dT : R) : result (list (list C)) :=
  mapM (fun t => sets <- containing_also_less1 loadtim loadmag true false false t ;;
                 mapM (CElin_entry im loadtim loadmag dT t sets) eigs) tvals.
(** integrals.py:5587-6128 (scalar) and 6150-6694 (vectorized) *)
Definition CEsin_entry (im : impl) (x y : list R) (om ph dT t : R) (sets : list nat * list nat * list nat * list nat * list nat) (lam : C) : result C :=
  let '(rl, cl, sl, rc, cc) := sets in
  let c := closedC x y om ph dT t lam in
  match im with
  | scalar =>
    v1 <- mapM (c CEsin_scalar_const_in) cc ;; v2 <- mapM (c CEsin_scalar_const_less) cl ;;
    v3 <- mapM (c CEsin_scalar_ramp_in) rc ;; v4 <- mapM (c CEsin_scalar_ramp_less) rl ;;
    Ok (sumC (v1 ++ v2 ++ v3 ++ v4))
  | _ =>
    v1 <- mapM (c CEsin_vectorized_const_in) cc ;; v2 <- mapM (c CEsin_vectorized_const_less) cl ;;
    v3 <- mapM (c CEsin_vectorized_ramp_in) rc ;; v4 <- mapM (c CEsin_vectorized_ramp_less) rl ;;
    Ok (sumC (v1 ++ v2 ++ v3 ++ v4))
  end.
(** integrals.py:5569-6695 Eload_sinlinear *)
Definition CEload_sinlinear (im : impl) (loadtim loadmag : list R) (om ph : R) (eigs : list C) (tvals : list R) (dT : R) : result (list (list C)) :=
  mapM (fun t => sets <- containing_also_less1 loadtim loadmag true false false t ;;
                 mapM (CEsin_entry im loadtim loadmag om ph dT t sets) eigs) tvals.
