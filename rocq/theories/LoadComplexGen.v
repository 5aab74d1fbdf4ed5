(** Generated from /repo/geotecha/speccon/integrals.py by tools/gen_load_complex.py; do not edit.
    One complex expression per load segment: x0, x1 = loadtim[k], loadtim[k+1]; y0, y1 = loadmag[k], loadmag[k+1];
    om, ph = omega, phase (unused for Eload_linear); lam one eigenvalue.  The lets bind repeated sub-expressions. *)
From Coq Require Import Reals.
From Coquelicot Require Import Coquelicot.
From Verif Require Import BeamModel.
Open Scope R_scope.

(** integrals.py:2787-2787 (Eload_linear, scalar, const_in) *)
Definition CElin_scalar_const_in (y0 y1 x0 x1 om ph dT t : R) (lam : C) : C :=
  let e1 : C := ((cexp (((RtoC (- dT)) * lam) * (RtoC (t - x0)))))%C in
  (((((- e1) * (RtoC y0)) / ((RtoC dT) * lam)) + ((RtoC y0) / ((RtoC dT) * lam))))%C.

(** integrals.py:2790-2791 (Eload_linear, scalar, const_less) *)
Definition CElin_scalar_const_less (y0 y1 x0 x1 om ph dT t : R) (lam : C) : C :=
  let e1 : C := ((cexp (((RtoC (- dT)) * lam) * (RtoC (t - x1)))))%C in
  let e2 : C := ((cexp (((RtoC (- dT)) * lam) * (RtoC (t - x0)))))%C in
  ((((e1 * (RtoC y0)) / ((RtoC dT) * lam)) - ((e2 * (RtoC y0)) / ((RtoC dT) * lam))))%C.

(** integrals.py:2794-2813 (Eload_linear, scalar, ramp_in) *)
Definition CElin_scalar_ramp_in (y0 y1 x0 x1 om ph dT t : R) (lam : C) : C :=
  let d1 : C := ((/ ((((RtoC (- dT)) * lam) * (RtoC x1)) + (((RtoC dT) * lam) * (RtoC x0)))))%C in
  let e1 : C := ((cexp (((RtoC (- dT)) * lam) * (RtoC (t - x0)))))%C in
  (((((((((((((RtoC (- dT)) * lam) * (RtoC t)) * d1) * (RtoC y1)) + (((((RtoC dT) * lam) * (RtoC
  t)) * d1) * (RtoC y0))) - (((((RtoC dT) * lam) * (RtoC x1)) * d1) * (RtoC y0))) + (((((RtoC dT)
  * lam) * (RtoC x0)) * d1) * (RtoC y1))) + (d1 * (RtoC y1))) - (d1 * (RtoC y0))) / ((RtoC dT) *
  lam)) - ((((((((((((((RtoC (- dT)) * lam) * (RtoC t)) * d1) * e1) * (RtoC y1)) + ((((((RtoC dT)
  * lam) * (RtoC t)) * d1) * e1) * (RtoC y0))) + ((((((RtoC dT) * lam) * d1) * (RtoC (t - x0))) *
  e1) * (RtoC y1))) - ((((((RtoC dT) * lam) * d1) * (RtoC (t - x0))) * e1) * (RtoC y0))) -
  ((((((RtoC dT) * lam) * (RtoC x1)) * d1) * e1) * (RtoC y0))) + ((((((RtoC dT) * lam) * (RtoC
  x0)) * d1) * e1) * (RtoC y1))) + ((d1 * e1) * (RtoC y1))) - ((d1 * e1) * (RtoC y0))) / ((RtoC
  dT) * lam))))%C.

(** integrals.py:2816-2842 (Eload_linear, scalar, ramp_less) *)
Definition CElin_scalar_ramp_less (y0 y1 x0 x1 om ph dT t : R) (lam : C) : C :=
  let d1 : C := ((/ ((((RtoC (- dT)) * lam) * (RtoC x1)) + (((RtoC dT) * lam) * (RtoC x0)))))%C in
  let e1 : C := ((cexp (((RtoC (- dT)) * lam) * (RtoC (t - x0)))))%C in
  let e2 : C := ((cexp (((RtoC (- dT)) * lam) * (RtoC (t - x1)))))%C in
  ((((- (((((((((((((RtoC (- dT)) * lam) * (RtoC t)) * d1) * e1) * (RtoC y1)) + ((((((RtoC dT) *
  lam) * (RtoC t)) * d1) * e1) * (RtoC y0))) + ((((((RtoC dT) * lam) * d1) * (RtoC (t - x0))) *
  e1) * (RtoC y1))) - ((((((RtoC dT) * lam) * d1) * (RtoC (t - x0))) * e1) * (RtoC y0))) -
  ((((((RtoC dT) * lam) * (RtoC x1)) * d1) * e1) * (RtoC y0))) + ((((((RtoC dT) * lam) * (RtoC
  x0)) * d1) * e1) * (RtoC y1))) + ((d1 * e1) * (RtoC y1))) - ((d1 * e1) * (RtoC y0)))) / ((RtoC
  dT) * lam)) + ((((((((((((((RtoC (- dT)) * lam) * (RtoC t)) * e2) * d1) * (RtoC y1)) +
  ((((((RtoC dT) * lam) * (RtoC t)) * e2) * d1) * (RtoC y0))) + ((((((RtoC dT) * lam) * (RtoC (t -
  x1))) * e2) * d1) * (RtoC y1))) - ((((((RtoC dT) * lam) * (RtoC (t - x1))) * e2) * d1) * (RtoC
  y0))) + ((((((RtoC dT) * lam) * e2) * (RtoC x0)) * d1) * (RtoC y1))) - ((((((RtoC dT) * lam) *
  (RtoC x1)) * e2) * d1) * (RtoC y0))) + ((e2 * d1) * (RtoC y1))) - ((e2 * d1) * (RtoC y0))) /
  ((RtoC dT) * lam))))%C.

(** integrals.py:2867-2867 (Eload_linear, vectorized, const_in) *)
Definition CElin_vectorized_const_in (y0 y1 x0 x1 om ph dT t : R) (lam : C) : C :=
  let e1 : C := ((cexp (((RtoC (- dT)) * lam) * (RtoC (t - x0)))))%C in
  (((((- e1) * (RtoC y0)) / ((RtoC dT) * lam)) + ((RtoC y0) / ((RtoC dT) * lam))))%C.

(** integrals.py:2871-2872 (Eload_linear, vectorized, const_less) *)
Definition CElin_vectorized_const_less (y0 y1 x0 x1 om ph dT t : R) (lam : C) : C :=
  let e1 : C := ((cexp (((RtoC (- dT)) * lam) * (RtoC (t - x1)))))%C in
  let e2 : C := ((cexp (((RtoC (- dT)) * lam) * (RtoC (t - x0)))))%C in
  ((((e1 * (RtoC y0)) / ((RtoC dT) * lam)) - ((e2 * (RtoC y0)) / ((RtoC dT) * lam))))%C.

(** integrals.py:2876-2895 (Eload_linear, vectorized, ramp_in) *)
Definition CElin_vectorized_ramp_in (y0 y1 x0 x1 om ph dT t : R) (lam : C) : C :=
  let d1 : C := ((/ ((((RtoC (- dT)) * lam) * (RtoC x1)) + (((RtoC dT) * lam) * (RtoC x0)))))%C in
  let e1 : C := ((cexp (((RtoC (- dT)) * lam) * (RtoC (t - x0)))))%C in
  (((((((((((((RtoC (- dT)) * lam) * (RtoC t)) * d1) * (RtoC y1)) + (((((RtoC dT) * lam) * (RtoC
  t)) * d1) * (RtoC y0))) - (((((RtoC dT) * lam) * (RtoC x1)) * d1) * (RtoC y0))) + (((((RtoC dT)
  * lam) * (RtoC x0)) * d1) * (RtoC y1))) + (d1 * (RtoC y1))) - (d1 * (RtoC y0))) / ((RtoC dT) *
  lam)) - ((((((((((((((RtoC (- dT)) * lam) * (RtoC t)) * d1) * e1) * (RtoC y1)) + ((((((RtoC dT)
  * lam) * (RtoC t)) * d1) * e1) * (RtoC y0))) + ((((((RtoC dT) * lam) * d1) * (RtoC (t - x0))) *
  e1) * (RtoC y1))) - ((((((RtoC dT) * lam) * d1) * (RtoC (t - x0))) * e1) * (RtoC y0))) -
  ((((((RtoC dT) * lam) * (RtoC x1)) * d1) * e1) * (RtoC y0))) + ((((((RtoC dT) * lam) * (RtoC
  x0)) * d1) * e1) * (RtoC y1))) + ((d1 * e1) * (RtoC y1))) - ((d1 * e1) * (RtoC y0))) / ((RtoC
  dT) * lam))))%C.

(** integrals.py:2899-2925 (Eload_linear, vectorized, ramp_less) *)
Definition CElin_vectorized_ramp_less (y0 y1 x0 x1 om ph dT t : R) (lam : C) : C :=
  let d1 : C := ((/ ((((RtoC (- dT)) * lam) * (RtoC x1)) + (((RtoC dT) * lam) * (RtoC x0)))))%C in
  let e1 : C := ((cexp (((RtoC (- dT)) * lam) * (RtoC (t - x0)))))%C in
  let e2 : C := ((cexp (((RtoC (- dT)) * lam) * (RtoC (t - x1)))))%C in
  ((((- (((((((((((((RtoC (- dT)) * lam) * (RtoC t)) * d1) * e1) * (RtoC y1)) + ((((((RtoC dT) *
  lam) * (RtoC t)) * d1) * e1) * (RtoC y0))) + ((((((RtoC dT) * lam) * d1) * (RtoC (t - x0))) *
  e1) * (RtoC y1))) - ((((((RtoC dT) * lam) * d1) * (RtoC (t - x0))) * e1) * (RtoC y0))) -
  ((((((RtoC dT) * lam) * (RtoC x1)) * d1) * e1) * (RtoC y0))) + ((((((RtoC dT) * lam) * (RtoC
  x0)) * d1) * e1) * (RtoC y1))) + ((d1 * e1) * (RtoC y1))) - ((d1 * e1) * (RtoC y0)))) / ((RtoC
  dT) * lam)) + ((((((((((((((RtoC (- dT)) * lam) * (RtoC t)) * e2) * d1) * (RtoC y1)) +
  ((((((RtoC dT) * lam) * (RtoC t)) * e2) * d1) * (RtoC y0))) + ((((((RtoC dT) * lam) * (RtoC (t -
  x1))) * e2) * d1) * (RtoC y1))) - ((((((RtoC dT) * lam) * (RtoC (t - x1))) * e2) * d1) * (RtoC
  y0))) + ((((((RtoC dT) * lam) * e2) * (RtoC x0)) * d1) * (RtoC y1))) - ((((((RtoC dT) * lam) *
  (RtoC x1)) * e2) * d1) * (RtoC y0))) + ((e2 * d1) * (RtoC y1))) - ((e2 * d1) * (RtoC y0))) /
  ((RtoC dT) * lam))))%C.

(** integrals.py:5590-5595 (Eload_sinlinear, scalar, const_in) *)
Definition CEsin_scalar_const_in (y0 y1 x0 x1 om ph dT t : R) (lam : C) : C :=
  let s1 : C := (RtoC (sin ((om * t) + ph)))%C in
  let e1 : C := ((cexp (((RtoC (- dT)) * lam) * (RtoC (t - x0)))))%C in
  let s2 : C := (RtoC (sin (((om * t) - (om * (t - x0))) + ph)))%C in
  ((((((s1 / ((RtoC 1) + ((RtoC (om ^ 2)) / ((RtoC (dT ^ 2)) * (cpow lam 2))))) - ((RtoC (om * (cos
  ((om * t) + ph)))) / (((RtoC dT) * lam) * ((RtoC 1) + ((RtoC (om ^ 2)) / ((RtoC (dT ^ 2)) *
  (cpow lam 2))))))) * (RtoC y0)) / ((RtoC dT) * lam)) - (((((e1 * s2) / ((RtoC 1) + ((RtoC (om ^
  2)) / ((RtoC (dT ^ 2)) * (cpow lam 2))))) - (((RtoC (om * (cos (((om * t) - (om * (t - x0))) +
  ph)))) * e1) / (((RtoC dT) * lam) * ((RtoC 1) + ((RtoC (om ^ 2)) / ((RtoC (dT ^ 2)) * (cpow lam
  2))))))) * (RtoC y0)) / ((RtoC dT) * lam))))%C.

(** integrals.py:5598-5605 (Eload_sinlinear, scalar, const_less) *)
Definition CEsin_scalar_const_less (y0 y1 x0 x1 om ph dT t : R) (lam : C) : C :=
  let e1 : C := ((cexp (((RtoC (- dT)) * lam) * (RtoC (t - x1)))))%C in
  let s1 : C := (RtoC (sin (((om * t) - (om * (t - x1))) + ph)))%C in
  let e2 : C := ((cexp (((RtoC (- dT)) * lam) * (RtoC (t - x0)))))%C in
  let s2 : C := (RtoC (sin (((om * t) - (om * (t - x0))) + ph)))%C in
  (((((((e1 * s1) / ((RtoC 1) + ((RtoC (om ^ 2)) / ((RtoC (dT ^ 2)) * (cpow lam 2))))) - (((RtoC
  (om * (cos (((om * t) - (om * (t - x1))) + ph)))) * e1) / (((RtoC dT) * lam) * ((RtoC 1) +
  ((RtoC (om ^ 2)) / ((RtoC (dT ^ 2)) * (cpow lam 2))))))) * (RtoC y0)) / ((RtoC dT) * lam)) -
  (((((e2 * s2) / ((RtoC 1) + ((RtoC (om ^ 2)) / ((RtoC (dT ^ 2)) * (cpow lam 2))))) - (((RtoC (om
  * (cos (((om * t) - (om * (t - x0))) + ph)))) * e2) / (((RtoC dT) * lam) * ((RtoC 1) + ((RtoC
  (om ^ 2)) / ((RtoC (dT ^ 2)) * (cpow lam 2))))))) * (RtoC y0)) / ((RtoC dT) * lam))))%C.

(** integrals.py:5608-5837 (Eload_sinlinear, scalar, ramp_in) *)
Definition CEsin_scalar_ramp_in (y0 y1 x0 x1 om ph dT t : R) (lam : C) : C :=
  let s1 : C := (RtoC (sin ((om * t) + ph)))%C in
  let d1 : C := ((/ ((((((((RtoC (- dT)) * lam) * (RtoC x1)) + (((RtoC dT) * lam) * (RtoC x0))) - ((RtoC ((2 *
  (om ^ 2)) * x1)) / ((RtoC dT) * lam))) + ((RtoC ((2 * (om ^ 2)) * x0)) / ((RtoC dT) * lam))) -
  ((RtoC ((om ^ 4) * x1)) / ((RtoC (dT ^ 3)) * (cpow lam 3)))) + ((RtoC ((om ^ 4) * x0)) / ((RtoC
  (dT ^ 3)) * (cpow lam 3))))))%C in
  let e1 : C := ((cexp (((RtoC (- dT)) * lam) * (RtoC (t - x0)))))%C in
  let s2 : C := (RtoC (sin (((om * t) - (om * (t - x0))) + ph)))%C in
  let c1 : C := (RtoC (cos (((om * t) - (om * (t - x0))) + ph)))%C in
  ((((((((((((((((((((((((((((((RtoC (- dT)) * lam) * (RtoC t)) * s1) * d1) * (RtoC y1)) +
  ((((((RtoC dT) * lam) * (RtoC t)) * s1) * d1) * (RtoC y0))) - ((((((RtoC dT) * lam) * s1) *
  (RtoC x1)) * d1) * (RtoC y0))) + ((((((RtoC dT) * lam) * s1) * (RtoC x0)) * d1) * (RtoC y1))) +
  (((RtoC ((om * t) * (cos ((om * t) + ph)))) * d1) * (RtoC y1))) - (((RtoC ((om * t) * (cos ((om
  * t) + ph)))) * d1) * (RtoC y0))) + (((RtoC ((om * (cos ((om * t) + ph))) * x1)) * d1) * (RtoC
  y0))) - (((RtoC ((om * (cos ((om * t) + ph))) * x0)) * d1) * (RtoC y1))) + ((s1 * d1) * (RtoC
  y1))) - ((s1 * d1) * (RtoC y0))) - ((((RtoC (((om ^ 2) * t) * (sin ((om * t) + ph)))) * d1) *
  (RtoC y1)) / ((RtoC dT) * lam))) + ((((RtoC (((om ^ 2) * t) * (sin ((om * t) + ph)))) * d1) *
  (RtoC y0)) / ((RtoC dT) * lam))) - ((((RtoC (((om ^ 2) * (sin ((om * t) + ph))) * x1)) * d1) *
  (RtoC y0)) / ((RtoC dT) * lam))) + ((((RtoC (((om ^ 2) * (sin ((om * t) + ph))) * x0)) * d1) *
  (RtoC y1)) / ((RtoC dT) * lam))) - ((((RtoC ((2 * om) * (cos ((om * t) + ph)))) * d1) * (RtoC
  y1)) / ((RtoC dT) * lam))) + ((((RtoC ((2 * om) * (cos ((om * t) + ph)))) * d1) * (RtoC y0)) /
  ((RtoC dT) * lam))) + ((((RtoC (((om ^ 3) * t) * (cos ((om * t) + ph)))) * d1) * (RtoC y1)) /
  ((RtoC (dT ^ 2)) * (cpow lam 2)))) - ((((RtoC (((om ^ 3) * t) * (cos ((om * t) + ph)))) * d1) *
  (RtoC y0)) / ((RtoC (dT ^ 2)) * (cpow lam 2)))) + ((((RtoC (((om ^ 3) * (cos ((om * t) + ph))) *
  x1)) * d1) * (RtoC y0)) / ((RtoC (dT ^ 2)) * (cpow lam 2)))) - ((((RtoC (((om ^ 3) * (cos ((om *
  t) + ph))) * x0)) * d1) * (RtoC y1)) / ((RtoC (dT ^ 2)) * (cpow lam 2)))) - ((((RtoC ((om ^ 2) *
  (sin ((om * t) + ph)))) * d1) * (RtoC y1)) / ((RtoC (dT ^ 2)) * (cpow lam 2)))) + ((((RtoC ((om
  ^ 2) * (sin ((om * t) + ph)))) * d1) * (RtoC y0)) / ((RtoC (dT ^ 2)) * (cpow lam 2)))) / ((RtoC
  dT) * lam)) - (((((((((((((((((((((((((((((((((((((RtoC (- dT)) * lam) * (RtoC t)) * d1) * e1) *
  s2) * (RtoC y1)) + (((((((RtoC dT) * lam) * (RtoC t)) * d1) * e1) * s2) * (RtoC y0))) +
  (((((((RtoC dT) * lam) * d1) * (RtoC (t - x0))) * e1) * s2) * (RtoC y1))) - (((((((RtoC dT) *
  lam) * d1) * (RtoC (t - x0))) * e1) * s2) * (RtoC y0))) - (((((((RtoC dT) * lam) * (RtoC x1)) *
  d1) * e1) * s2) * (RtoC y0))) + (((((((RtoC dT) * lam) * (RtoC x0)) * d1) * e1) * s2) * (RtoC
  y1))) + (((((RtoC (om * t)) * d1) * c1) * e1) * (RtoC y1))) - (((((RtoC (om * t)) * d1) * c1) *
  e1) * (RtoC y0))) - ((((((RtoC om) * d1) * (RtoC (t - x0))) * c1) * e1) * (RtoC y1))) +
  ((((((RtoC om) * d1) * (RtoC (t - x0))) * c1) * e1) * (RtoC y0))) + (((((RtoC (om * x1)) * d1) *
  c1) * e1) * (RtoC y0))) - (((((RtoC (om * x0)) * d1) * c1) * e1) * (RtoC y1))) + (((d1 * e1) *
  s2) * (RtoC y1))) - (((d1 * e1) * s2) * (RtoC y0))) - ((((((RtoC ((om ^ 2) * t)) * d1) * e1) *
  s2) * (RtoC y1)) / ((RtoC dT) * lam))) + ((((((RtoC ((om ^ 2) * t)) * d1) * e1) * s2) * (RtoC
  y0)) / ((RtoC dT) * lam))) + (((((((RtoC (om ^ 2)) * d1) * (RtoC (t - x0))) * e1) * s2) * (RtoC
  y1)) / ((RtoC dT) * lam))) - (((((((RtoC (om ^ 2)) * d1) * (RtoC (t - x0))) * e1) * s2) * (RtoC
  y0)) / ((RtoC dT) * lam))) - ((((((RtoC ((om ^ 2) * x1)) * d1) * e1) * s2) * (RtoC y0)) / ((RtoC
  dT) * lam))) + ((((((RtoC ((om ^ 2) * x0)) * d1) * e1) * s2) * (RtoC y1)) / ((RtoC dT) * lam)))
  - ((((((RtoC (2 * om)) * d1) * c1) * e1) * (RtoC y1)) / ((RtoC dT) * lam))) + ((((((RtoC (2 *
  om)) * d1) * c1) * e1) * (RtoC y0)) / ((RtoC dT) * lam))) + ((((((RtoC ((om ^ 3) * t)) * d1) *
  c1) * e1) * (RtoC y1)) / ((RtoC (dT ^ 2)) * (cpow lam 2)))) - ((((((RtoC ((om ^ 3) * t)) * d1) *
  c1) * e1) * (RtoC y0)) / ((RtoC (dT ^ 2)) * (cpow lam 2)))) - (((((((RtoC (om ^ 3)) * d1) *
  (RtoC (t - x0))) * c1) * e1) * (RtoC y1)) / ((RtoC (dT ^ 2)) * (cpow lam 2)))) + (((((((RtoC (om
  ^ 3)) * d1) * (RtoC (t - x0))) * c1) * e1) * (RtoC y0)) / ((RtoC (dT ^ 2)) * (cpow lam 2)))) +
  ((((((RtoC ((om ^ 3) * x1)) * d1) * c1) * e1) * (RtoC y0)) / ((RtoC (dT ^ 2)) * (cpow lam 2))))
  - ((((((RtoC ((om ^ 3) * x0)) * d1) * c1) * e1) * (RtoC y1)) / ((RtoC (dT ^ 2)) * (cpow lam
  2)))) - ((((((RtoC (om ^ 2)) * d1) * e1) * s2) * (RtoC y1)) / ((RtoC (dT ^ 2)) * (cpow lam 2))))
  + ((((((RtoC (om ^ 2)) * d1) * e1) * s2) * (RtoC y0)) / ((RtoC (dT ^ 2)) * (cpow lam 2)))) /
  ((RtoC dT) * lam))))%C.

(** integrals.py:5840-6128 (Eload_sinlinear, scalar, ramp_less) *)
Definition CEsin_scalar_ramp_less (y0 y1 x0 x1 om ph dT t : R) (lam : C) : C :=
  let d1 : C := ((/ ((((((((RtoC (- dT)) * lam) * (RtoC x1)) + (((RtoC dT) * lam) * (RtoC x0))) - ((RtoC ((2 *
  (om ^ 2)) * x1)) / ((RtoC dT) * lam))) + ((RtoC ((2 * (om ^ 2)) * x0)) / ((RtoC dT) * lam))) -
  ((RtoC ((om ^ 4) * x1)) / ((RtoC (dT ^ 3)) * (cpow lam 3)))) + ((RtoC ((om ^ 4) * x0)) / ((RtoC
  (dT ^ 3)) * (cpow lam 3))))))%C in
  let e1 : C := ((cexp (((RtoC (- dT)) * lam) * (RtoC (t - x0)))))%C in
  let s1 : C := (RtoC (sin (((om * t) - (om * (t - x0))) + ph)))%C in
  let c1 : C := (RtoC (cos (((om * t) - (om * (t - x0))) + ph)))%C in
  let e2 : C := ((cexp (((RtoC (- dT)) * lam) * (RtoC (t - x1)))))%C in
  let s2 : C := (RtoC (sin (((om * t) - (om * (t - x1))) + ph)))%C in
  ((((- ((((((((((((((((((((((((((((((((((((RtoC (- dT)) * lam) * (RtoC t)) * d1) * e1) * s1) *
  (RtoC y1)) + (((((((RtoC dT) * lam) * (RtoC t)) * d1) * e1) * s1) * (RtoC y0))) + (((((((RtoC
  dT) * lam) * d1) * (RtoC (t - x0))) * e1) * s1) * (RtoC y1))) - (((((((RtoC dT) * lam) * d1) *
  (RtoC (t - x0))) * e1) * s1) * (RtoC y0))) - (((((((RtoC dT) * lam) * (RtoC x1)) * d1) * e1) *
  s1) * (RtoC y0))) + (((((((RtoC dT) * lam) * (RtoC x0)) * d1) * e1) * s1) * (RtoC y1))) +
  (((((RtoC (om * t)) * d1) * c1) * e1) * (RtoC y1))) - (((((RtoC (om * t)) * d1) * c1) * e1) *
  (RtoC y0))) - ((((((RtoC om) * d1) * (RtoC (t - x0))) * c1) * e1) * (RtoC y1))) + ((((((RtoC om)
  * d1) * (RtoC (t - x0))) * c1) * e1) * (RtoC y0))) + (((((RtoC (om * x1)) * d1) * c1) * e1) *
  (RtoC y0))) - (((((RtoC (om * x0)) * d1) * c1) * e1) * (RtoC y1))) + (((d1 * e1) * s1) * (RtoC
  y1))) - (((d1 * e1) * s1) * (RtoC y0))) - ((((((RtoC ((om ^ 2) * t)) * d1) * e1) * s1) * (RtoC
  y1)) / ((RtoC dT) * lam))) + ((((((RtoC ((om ^ 2) * t)) * d1) * e1) * s1) * (RtoC y0)) / ((RtoC
  dT) * lam))) + (((((((RtoC (om ^ 2)) * d1) * (RtoC (t - x0))) * e1) * s1) * (RtoC y1)) / ((RtoC
  dT) * lam))) - (((((((RtoC (om ^ 2)) * d1) * (RtoC (t - x0))) * e1) * s1) * (RtoC y0)) / ((RtoC
  dT) * lam))) - ((((((RtoC ((om ^ 2) * x1)) * d1) * e1) * s1) * (RtoC y0)) / ((RtoC dT) * lam)))
  + ((((((RtoC ((om ^ 2) * x0)) * d1) * e1) * s1) * (RtoC y1)) / ((RtoC dT) * lam))) - ((((((RtoC
  (2 * om)) * d1) * c1) * e1) * (RtoC y1)) / ((RtoC dT) * lam))) + ((((((RtoC (2 * om)) * d1) *
  c1) * e1) * (RtoC y0)) / ((RtoC dT) * lam))) + ((((((RtoC ((om ^ 3) * t)) * d1) * c1) * e1) *
  (RtoC y1)) / ((RtoC (dT ^ 2)) * (cpow lam 2)))) - ((((((RtoC ((om ^ 3) * t)) * d1) * c1) * e1) *
  (RtoC y0)) / ((RtoC (dT ^ 2)) * (cpow lam 2)))) - (((((((RtoC (om ^ 3)) * d1) * (RtoC (t - x0)))
  * c1) * e1) * (RtoC y1)) / ((RtoC (dT ^ 2)) * (cpow lam 2)))) + (((((((RtoC (om ^ 3)) * d1) *
  (RtoC (t - x0))) * c1) * e1) * (RtoC y0)) / ((RtoC (dT ^ 2)) * (cpow lam 2)))) + ((((((RtoC ((om
  ^ 3) * x1)) * d1) * c1) * e1) * (RtoC y0)) / ((RtoC (dT ^ 2)) * (cpow lam 2)))) - ((((((RtoC
  ((om ^ 3) * x0)) * d1) * c1) * e1) * (RtoC y1)) / ((RtoC (dT ^ 2)) * (cpow lam 2)))) -
  ((((((RtoC (om ^ 2)) * d1) * e1) * s1) * (RtoC y1)) / ((RtoC (dT ^ 2)) * (cpow lam 2)))) +
  ((((((RtoC (om ^ 2)) * d1) * e1) * s1) * (RtoC y0)) / ((RtoC (dT ^ 2)) * (cpow lam 2))))) /
  ((RtoC dT) * lam)) + (((((((((((((((((((((((((((((((((((((RtoC (- dT)) * lam) * (RtoC t)) * e2)
  * s2) * d1) * (RtoC y1)) + (((((((RtoC dT) * lam) * (RtoC t)) * e2) * s2) * d1) * (RtoC y0))) +
  (((((((RtoC dT) * lam) * (RtoC (t - x1))) * e2) * s2) * d1) * (RtoC y1))) - (((((((RtoC dT) *
  lam) * (RtoC (t - x1))) * e2) * s2) * d1) * (RtoC y0))) + (((((((RtoC dT) * lam) * e2) * s2) *
  (RtoC x0)) * d1) * (RtoC y1))) - (((((((RtoC dT) * lam) * (RtoC x1)) * e2) * s2) * d1) * (RtoC
  y0))) + ((((RtoC ((om * t) * (cos (((om * t) - (om * (t - x1))) + ph)))) * e2) * d1) * (RtoC
  y1))) - ((((RtoC ((om * t) * (cos (((om * t) - (om * (t - x1))) + ph)))) * e2) * d1) * (RtoC
  y0))) - ((((RtoC ((om * (t - x1)) * (cos (((om * t) - (om * (t - x1))) + ph)))) * e2) * d1) *
  (RtoC y1))) + ((((RtoC ((om * (t - x1)) * (cos (((om * t) - (om * (t - x1))) + ph)))) * e2) *
  d1) * (RtoC y0))) - (((((RtoC (om * (cos (((om * t) - (om * (t - x1))) + ph)))) * e2) * (RtoC
  x0)) * d1) * (RtoC y1))) + ((((RtoC ((om * x1) * (cos (((om * t) - (om * (t - x1))) + ph)))) *
  e2) * d1) * (RtoC y0))) + (((e2 * s2) * d1) * (RtoC y1))) - (((e2 * s2) * d1) * (RtoC y0))) -
  ((((((RtoC ((om ^ 2) * t)) * e2) * s2) * d1) * (RtoC y1)) / ((RtoC dT) * lam))) + ((((((RtoC
  ((om ^ 2) * t)) * e2) * s2) * d1) * (RtoC y0)) / ((RtoC dT) * lam))) + ((((((RtoC ((om ^ 2) * (t
  - x1))) * e2) * s2) * d1) * (RtoC y1)) / ((RtoC dT) * lam))) - ((((((RtoC ((om ^ 2) * (t - x1)))
  * e2) * s2) * d1) * (RtoC y0)) / ((RtoC dT) * lam))) + (((((((RtoC (om ^ 2)) * e2) * s2) * (RtoC
  x0)) * d1) * (RtoC y1)) / ((RtoC dT) * lam))) - ((((((RtoC ((om ^ 2) * x1)) * e2) * s2) * d1) *
  (RtoC y0)) / ((RtoC dT) * lam))) - (((((RtoC ((2 * om) * (cos (((om * t) - (om * (t - x1))) +
  ph)))) * e2) * d1) * (RtoC y1)) / ((RtoC dT) * lam))) + (((((RtoC ((2 * om) * (cos (((om * t) -
  (om * (t - x1))) + ph)))) * e2) * d1) * (RtoC y0)) / ((RtoC dT) * lam))) + (((((RtoC (((om ^ 3)
  * t) * (cos (((om * t) - (om * (t - x1))) + ph)))) * e2) * d1) * (RtoC y1)) / ((RtoC (dT ^ 2)) *
  (cpow lam 2)))) - (((((RtoC (((om ^ 3) * t) * (cos (((om * t) - (om * (t - x1))) + ph)))) * e2)
  * d1) * (RtoC y0)) / ((RtoC (dT ^ 2)) * (cpow lam 2)))) - (((((RtoC (((om ^ 3) * (t - x1)) *
  (cos (((om * t) - (om * (t - x1))) + ph)))) * e2) * d1) * (RtoC y1)) / ((RtoC (dT ^ 2)) * (cpow
  lam 2)))) + (((((RtoC (((om ^ 3) * (t - x1)) * (cos (((om * t) - (om * (t - x1))) + ph)))) * e2)
  * d1) * (RtoC y0)) / ((RtoC (dT ^ 2)) * (cpow lam 2)))) - ((((((RtoC ((om ^ 3) * (cos (((om * t)
  - (om * (t - x1))) + ph)))) * e2) * (RtoC x0)) * d1) * (RtoC y1)) / ((RtoC (dT ^ 2)) * (cpow lam
  2)))) + (((((RtoC (((om ^ 3) * x1) * (cos (((om * t) - (om * (t - x1))) + ph)))) * e2) * d1) *
  (RtoC y0)) / ((RtoC (dT ^ 2)) * (cpow lam 2)))) - ((((((RtoC (om ^ 2)) * e2) * s2) * d1) * (RtoC
  y1)) / ((RtoC (dT ^ 2)) * (cpow lam 2)))) + ((((((RtoC (om ^ 2)) * e2) * s2) * d1) * (RtoC y0))
  / ((RtoC (dT ^ 2)) * (cpow lam 2)))) / ((RtoC dT) * lam))))%C.

(** integrals.py:6153-6158 (Eload_sinlinear, vectorized, const_in) *)
Definition CEsin_vectorized_const_in (y0 y1 x0 x1 om ph dT t : R) (lam : C) : C :=
  let s1 : C := (RtoC (sin ((om * t) + ph)))%C in
  let e1 : C := ((cexp (((RtoC (- dT)) * lam) * (RtoC (t - x0)))))%C in
  let s2 : C := (RtoC (sin (((om * t) - (om * (t - x0))) + ph)))%C in
  ((((((s1 / ((RtoC 1) + ((RtoC (om ^ 2)) / ((RtoC (dT ^ 2)) * (cpow lam 2))))) - ((RtoC (om * (cos
  ((om * t) + ph)))) / (((RtoC dT) * lam) * ((RtoC 1) + ((RtoC (om ^ 2)) / ((RtoC (dT ^ 2)) *
  (cpow lam 2))))))) * (RtoC y0)) / ((RtoC dT) * lam)) - (((((e1 * s2) / ((RtoC 1) + ((RtoC (om ^
  2)) / ((RtoC (dT ^ 2)) * (cpow lam 2))))) - (((RtoC (om * (cos (((om * t) - (om * (t - x0))) +
  ph)))) * e1) / (((RtoC dT) * lam) * ((RtoC 1) + ((RtoC (om ^ 2)) / ((RtoC (dT ^ 2)) * (cpow lam
  2))))))) * (RtoC y0)) / ((RtoC dT) * lam))))%C.

(** integrals.py:6162-6169 (Eload_sinlinear, vectorized, const_less) *)
Definition CEsin_vectorized_const_less (y0 y1 x0 x1 om ph dT t : R) (lam : C) : C :=
  let e1 : C := ((cexp (((RtoC (- dT)) * lam) * (RtoC (t - x1)))))%C in
  let s1 : C := (RtoC (sin (((om * t) - (om * (t - x1))) + ph)))%C in
  let e2 : C := ((cexp (((RtoC (- dT)) * lam) * (RtoC (t - x0)))))%C in
  let s2 : C := (RtoC (sin (((om * t) - (om * (t - x0))) + ph)))%C in
  (((((((e1 * s1) / ((RtoC 1) + ((RtoC (om ^ 2)) / ((RtoC (dT ^ 2)) * (cpow lam 2))))) - (((RtoC
  (om * (cos (((om * t) - (om * (t - x1))) + ph)))) * e1) / (((RtoC dT) * lam) * ((RtoC 1) +
  ((RtoC (om ^ 2)) / ((RtoC (dT ^ 2)) * (cpow lam 2))))))) * (RtoC y0)) / ((RtoC dT) * lam)) -
  (((((e2 * s2) / ((RtoC 1) + ((RtoC (om ^ 2)) / ((RtoC (dT ^ 2)) * (cpow lam 2))))) - (((RtoC (om
  * (cos (((om * t) - (om * (t - x0))) + ph)))) * e2) / (((RtoC dT) * lam) * ((RtoC 1) + ((RtoC
  (om ^ 2)) / ((RtoC (dT ^ 2)) * (cpow lam 2))))))) * (RtoC y0)) / ((RtoC dT) * lam))))%C.

(** integrals.py:6173-6402 (Eload_sinlinear, vectorized, ramp_in) *)
Definition CEsin_vectorized_ramp_in (y0 y1 x0 x1 om ph dT t : R) (lam : C) : C :=
  let s1 : C := (RtoC (sin ((om * t) + ph)))%C in
  let d1 : C := ((/ ((((((((RtoC (- dT)) * lam) * (RtoC x1)) + (((RtoC dT) * lam) * (RtoC x0))) - ((RtoC ((2 *
  (om ^ 2)) * x1)) / ((RtoC dT) * lam))) + ((RtoC ((2 * (om ^ 2)) * x0)) / ((RtoC dT) * lam))) -
  ((RtoC ((om ^ 4) * x1)) / ((RtoC (dT ^ 3)) * (cpow lam 3)))) + ((RtoC ((om ^ 4) * x0)) / ((RtoC
  (dT ^ 3)) * (cpow lam 3))))))%C in
  let e1 : C := ((cexp (((RtoC (- dT)) * lam) * (RtoC (t - x0)))))%C in
  let s2 : C := (RtoC (sin (((om * t) - (om * (t - x0))) + ph)))%C in
  let c1 : C := (RtoC (cos (((om * t) - (om * (t - x0))) + ph)))%C in
  ((((((((((((((((((((((((((((((RtoC (- dT)) * lam) * (RtoC t)) * s1) * d1) * (RtoC y1)) +
  ((((((RtoC dT) * lam) * (RtoC t)) * s1) * d1) * (RtoC y0))) - ((((((RtoC dT) * lam) * s1) *
  (RtoC x1)) * d1) * (RtoC y0))) + ((((((RtoC dT) * lam) * s1) * (RtoC x0)) * d1) * (RtoC y1))) +
  (((RtoC ((om * t) * (cos ((om * t) + ph)))) * d1) * (RtoC y1))) - (((RtoC ((om * t) * (cos ((om
  * t) + ph)))) * d1) * (RtoC y0))) + (((RtoC ((om * (cos ((om * t) + ph))) * x1)) * d1) * (RtoC
  y0))) - (((RtoC ((om * (cos ((om * t) + ph))) * x0)) * d1) * (RtoC y1))) + ((s1 * d1) * (RtoC
  y1))) - ((s1 * d1) * (RtoC y0))) - ((((RtoC (((om ^ 2) * t) * (sin ((om * t) + ph)))) * d1) *
  (RtoC y1)) / ((RtoC dT) * lam))) + ((((RtoC (((om ^ 2) * t) * (sin ((om * t) + ph)))) * d1) *
  (RtoC y0)) / ((RtoC dT) * lam))) - ((((RtoC (((om ^ 2) * (sin ((om * t) + ph))) * x1)) * d1) *
  (RtoC y0)) / ((RtoC dT) * lam))) + ((((RtoC (((om ^ 2) * (sin ((om * t) + ph))) * x0)) * d1) *
  (RtoC y1)) / ((RtoC dT) * lam))) - ((((RtoC ((2 * om) * (cos ((om * t) + ph)))) * d1) * (RtoC
  y1)) / ((RtoC dT) * lam))) + ((((RtoC ((2 * om) * (cos ((om * t) + ph)))) * d1) * (RtoC y0)) /
  ((RtoC dT) * lam))) + ((((RtoC (((om ^ 3) * t) * (cos ((om * t) + ph)))) * d1) * (RtoC y1)) /
  ((RtoC (dT ^ 2)) * (cpow lam 2)))) - ((((RtoC (((om ^ 3) * t) * (cos ((om * t) + ph)))) * d1) *
  (RtoC y0)) / ((RtoC (dT ^ 2)) * (cpow lam 2)))) + ((((RtoC (((om ^ 3) * (cos ((om * t) + ph))) *
  x1)) * d1) * (RtoC y0)) / ((RtoC (dT ^ 2)) * (cpow lam 2)))) - ((((RtoC (((om ^ 3) * (cos ((om *
  t) + ph))) * x0)) * d1) * (RtoC y1)) / ((RtoC (dT ^ 2)) * (cpow lam 2)))) - ((((RtoC ((om ^ 2) *
  (sin ((om * t) + ph)))) * d1) * (RtoC y1)) / ((RtoC (dT ^ 2)) * (cpow lam 2)))) + ((((RtoC ((om
  ^ 2) * (sin ((om * t) + ph)))) * d1) * (RtoC y0)) / ((RtoC (dT ^ 2)) * (cpow lam 2)))) / ((RtoC
  dT) * lam)) - (((((((((((((((((((((((((((((((((((((RtoC (- dT)) * lam) * (RtoC t)) * d1) * e1) *
  s2) * (RtoC y1)) + (((((((RtoC dT) * lam) * (RtoC t)) * d1) * e1) * s2) * (RtoC y0))) +
  (((((((RtoC dT) * lam) * d1) * (RtoC (t - x0))) * e1) * s2) * (RtoC y1))) - (((((((RtoC dT) *
  lam) * d1) * (RtoC (t - x0))) * e1) * s2) * (RtoC y0))) - (((((((RtoC dT) * lam) * (RtoC x1)) *
  d1) * e1) * s2) * (RtoC y0))) + (((((((RtoC dT) * lam) * (RtoC x0)) * d1) * e1) * s2) * (RtoC
  y1))) + (((((RtoC (om * t)) * d1) * c1) * e1) * (RtoC y1))) - (((((RtoC (om * t)) * d1) * c1) *
  e1) * (RtoC y0))) - ((((((RtoC om) * d1) * (RtoC (t - x0))) * c1) * e1) * (RtoC y1))) +
  ((((((RtoC om) * d1) * (RtoC (t - x0))) * c1) * e1) * (RtoC y0))) + (((((RtoC (om * x1)) * d1) *
  c1) * e1) * (RtoC y0))) - (((((RtoC (om * x0)) * d1) * c1) * e1) * (RtoC y1))) + (((d1 * e1) *
  s2) * (RtoC y1))) - (((d1 * e1) * s2) * (RtoC y0))) - ((((((RtoC ((om ^ 2) * t)) * d1) * e1) *
  s2) * (RtoC y1)) / ((RtoC dT) * lam))) + ((((((RtoC ((om ^ 2) * t)) * d1) * e1) * s2) * (RtoC
  y0)) / ((RtoC dT) * lam))) + (((((((RtoC (om ^ 2)) * d1) * (RtoC (t - x0))) * e1) * s2) * (RtoC
  y1)) / ((RtoC dT) * lam))) - (((((((RtoC (om ^ 2)) * d1) * (RtoC (t - x0))) * e1) * s2) * (RtoC
  y0)) / ((RtoC dT) * lam))) - ((((((RtoC ((om ^ 2) * x1)) * d1) * e1) * s2) * (RtoC y0)) / ((RtoC
  dT) * lam))) + ((((((RtoC ((om ^ 2) * x0)) * d1) * e1) * s2) * (RtoC y1)) / ((RtoC dT) * lam)))
  - ((((((RtoC (2 * om)) * d1) * c1) * e1) * (RtoC y1)) / ((RtoC dT) * lam))) + ((((((RtoC (2 *
  om)) * d1) * c1) * e1) * (RtoC y0)) / ((RtoC dT) * lam))) + ((((((RtoC ((om ^ 3) * t)) * d1) *
  c1) * e1) * (RtoC y1)) / ((RtoC (dT ^ 2)) * (cpow lam 2)))) - ((((((RtoC ((om ^ 3) * t)) * d1) *
  c1) * e1) * (RtoC y0)) / ((RtoC (dT ^ 2)) * (cpow lam 2)))) - (((((((RtoC (om ^ 3)) * d1) *
  (RtoC (t - x0))) * c1) * e1) * (RtoC y1)) / ((RtoC (dT ^ 2)) * (cpow lam 2)))) + (((((((RtoC (om
  ^ 3)) * d1) * (RtoC (t - x0))) * c1) * e1) * (RtoC y0)) / ((RtoC (dT ^ 2)) * (cpow lam 2)))) +
  ((((((RtoC ((om ^ 3) * x1)) * d1) * c1) * e1) * (RtoC y0)) / ((RtoC (dT ^ 2)) * (cpow lam 2))))
  - ((((((RtoC ((om ^ 3) * x0)) * d1) * c1) * e1) * (RtoC y1)) / ((RtoC (dT ^ 2)) * (cpow lam
  2)))) - ((((((RtoC (om ^ 2)) * d1) * e1) * s2) * (RtoC y1)) / ((RtoC (dT ^ 2)) * (cpow lam 2))))
  + ((((((RtoC (om ^ 2)) * d1) * e1) * s2) * (RtoC y0)) / ((RtoC (dT ^ 2)) * (cpow lam 2)))) /
  ((RtoC dT) * lam))))%C.

(** integrals.py:6406-6694 (Eload_sinlinear, vectorized, ramp_less) *)
Definition CEsin_vectorized_ramp_less (y0 y1 x0 x1 om ph dT t : R) (lam : C) : C :=
  let d1 : C := ((/ ((((((((RtoC (- dT)) * lam) * (RtoC x1)) + (((RtoC dT) * lam) * (RtoC x0))) - ((RtoC ((2 *
  (om ^ 2)) * x1)) / ((RtoC dT) * lam))) + ((RtoC ((2 * (om ^ 2)) * x0)) / ((RtoC dT) * lam))) -
  ((RtoC ((om ^ 4) * x1)) / ((RtoC (dT ^ 3)) * (cpow lam 3)))) + ((RtoC ((om ^ 4) * x0)) / ((RtoC
  (dT ^ 3)) * (cpow lam 3))))))%C in
  let e1 : C := ((cexp (((RtoC (- dT)) * lam) * (RtoC (t - x0)))))%C in
  let s1 : C := (RtoC (sin (((om * t) - (om * (t - x0))) + ph)))%C in
  let c1 : C := (RtoC (cos (((om * t) - (om * (t - x0))) + ph)))%C in
  let e2 : C := ((cexp (((RtoC (- dT)) * lam) * (RtoC (t - x1)))))%C in
  let s2 : C := (RtoC (sin (((om * t) - (om * (t - x1))) + ph)))%C in
  ((((- ((((((((((((((((((((((((((((((((((((RtoC (- dT)) * lam) * (RtoC t)) * d1) * e1) * s1) *
  (RtoC y1)) + (((((((RtoC dT) * lam) * (RtoC t)) * d1) * e1) * s1) * (RtoC y0))) + (((((((RtoC
  dT) * lam) * d1) * (RtoC (t - x0))) * e1) * s1) * (RtoC y1))) - (((((((RtoC dT) * lam) * d1) *
  (RtoC (t - x0))) * e1) * s1) * (RtoC y0))) - (((((((RtoC dT) * lam) * (RtoC x1)) * d1) * e1) *
  s1) * (RtoC y0))) + (((((((RtoC dT) * lam) * (RtoC x0)) * d1) * e1) * s1) * (RtoC y1))) +
  (((((RtoC (om * t)) * d1) * c1) * e1) * (RtoC y1))) - (((((RtoC (om * t)) * d1) * c1) * e1) *
  (RtoC y0))) - ((((((RtoC om) * d1) * (RtoC (t - x0))) * c1) * e1) * (RtoC y1))) + ((((((RtoC om)
  * d1) * (RtoC (t - x0))) * c1) * e1) * (RtoC y0))) + (((((RtoC (om * x1)) * d1) * c1) * e1) *
  (RtoC y0))) - (((((RtoC (om * x0)) * d1) * c1) * e1) * (RtoC y1))) + (((d1 * e1) * s1) * (RtoC
  y1))) - (((d1 * e1) * s1) * (RtoC y0))) - ((((((RtoC ((om ^ 2) * t)) * d1) * e1) * s1) * (RtoC
  y1)) / ((RtoC dT) * lam))) + ((((((RtoC ((om ^ 2) * t)) * d1) * e1) * s1) * (RtoC y0)) / ((RtoC
  dT) * lam))) + (((((((RtoC (om ^ 2)) * d1) * (RtoC (t - x0))) * e1) * s1) * (RtoC y1)) / ((RtoC
  dT) * lam))) - (((((((RtoC (om ^ 2)) * d1) * (RtoC (t - x0))) * e1) * s1) * (RtoC y0)) / ((RtoC
  dT) * lam))) - ((((((RtoC ((om ^ 2) * x1)) * d1) * e1) * s1) * (RtoC y0)) / ((RtoC dT) * lam)))
  + ((((((RtoC ((om ^ 2) * x0)) * d1) * e1) * s1) * (RtoC y1)) / ((RtoC dT) * lam))) - ((((((RtoC
  (2 * om)) * d1) * c1) * e1) * (RtoC y1)) / ((RtoC dT) * lam))) + ((((((RtoC (2 * om)) * d1) *
  c1) * e1) * (RtoC y0)) / ((RtoC dT) * lam))) + ((((((RtoC ((om ^ 3) * t)) * d1) * c1) * e1) *
  (RtoC y1)) / ((RtoC (dT ^ 2)) * (cpow lam 2)))) - ((((((RtoC ((om ^ 3) * t)) * d1) * c1) * e1) *
  (RtoC y0)) / ((RtoC (dT ^ 2)) * (cpow lam 2)))) - (((((((RtoC (om ^ 3)) * d1) * (RtoC (t - x0)))
  * c1) * e1) * (RtoC y1)) / ((RtoC (dT ^ 2)) * (cpow lam 2)))) + (((((((RtoC (om ^ 3)) * d1) *
  (RtoC (t - x0))) * c1) * e1) * (RtoC y0)) / ((RtoC (dT ^ 2)) * (cpow lam 2)))) + ((((((RtoC ((om
  ^ 3) * x1)) * d1) * c1) * e1) * (RtoC y0)) / ((RtoC (dT ^ 2)) * (cpow lam 2)))) - ((((((RtoC
  ((om ^ 3) * x0)) * d1) * c1) * e1) * (RtoC y1)) / ((RtoC (dT ^ 2)) * (cpow lam 2)))) -
  ((((((RtoC (om ^ 2)) * d1) * e1) * s1) * (RtoC y1)) / ((RtoC (dT ^ 2)) * (cpow lam 2)))) +
  ((((((RtoC (om ^ 2)) * d1) * e1) * s1) * (RtoC y0)) / ((RtoC (dT ^ 2)) * (cpow lam 2))))) /
  ((RtoC dT) * lam)) + (((((((((((((((((((((((((((((((((((((RtoC (- dT)) * lam) * (RtoC t)) * e2)
  * s2) * d1) * (RtoC y1)) + (((((((RtoC dT) * lam) * (RtoC t)) * e2) * s2) * d1) * (RtoC y0))) +
  (((((((RtoC dT) * lam) * (RtoC (t - x1))) * e2) * s2) * d1) * (RtoC y1))) - (((((((RtoC dT) *
  lam) * (RtoC (t - x1))) * e2) * s2) * d1) * (RtoC y0))) + (((((((RtoC dT) * lam) * e2) * s2) *
  (RtoC x0)) * d1) * (RtoC y1))) - (((((((RtoC dT) * lam) * (RtoC x1)) * e2) * s2) * d1) * (RtoC
  y0))) + ((((RtoC ((om * t) * (cos (((om * t) - (om * (t - x1))) + ph)))) * e2) * d1) * (RtoC
  y1))) - ((((RtoC ((om * t) * (cos (((om * t) - (om * (t - x1))) + ph)))) * e2) * d1) * (RtoC
  y0))) - ((((RtoC ((om * (t - x1)) * (cos (((om * t) - (om * (t - x1))) + ph)))) * e2) * d1) *
  (RtoC y1))) + ((((RtoC ((om * (t - x1)) * (cos (((om * t) - (om * (t - x1))) + ph)))) * e2) *
  d1) * (RtoC y0))) - (((((RtoC (om * (cos (((om * t) - (om * (t - x1))) + ph)))) * e2) * (RtoC
  x0)) * d1) * (RtoC y1))) + ((((RtoC ((om * x1) * (cos (((om * t) - (om * (t - x1))) + ph)))) *
  e2) * d1) * (RtoC y0))) + (((e2 * s2) * d1) * (RtoC y1))) - (((e2 * s2) * d1) * (RtoC y0))) -
  ((((((RtoC ((om ^ 2) * t)) * e2) * s2) * d1) * (RtoC y1)) / ((RtoC dT) * lam))) + ((((((RtoC
  ((om ^ 2) * t)) * e2) * s2) * d1) * (RtoC y0)) / ((RtoC dT) * lam))) + ((((((RtoC ((om ^ 2) * (t
  - x1))) * e2) * s2) * d1) * (RtoC y1)) / ((RtoC dT) * lam))) - ((((((RtoC ((om ^ 2) * (t - x1)))
  * e2) * s2) * d1) * (RtoC y0)) / ((RtoC dT) * lam))) + (((((((RtoC (om ^ 2)) * e2) * s2) * (RtoC
  x0)) * d1) * (RtoC y1)) / ((RtoC dT) * lam))) - ((((((RtoC ((om ^ 2) * x1)) * e2) * s2) * d1) *
  (RtoC y0)) / ((RtoC dT) * lam))) - (((((RtoC ((2 * om) * (cos (((om * t) - (om * (t - x1))) +
  ph)))) * e2) * d1) * (RtoC y1)) / ((RtoC dT) * lam))) + (((((RtoC ((2 * om) * (cos (((om * t) -
  (om * (t - x1))) + ph)))) * e2) * d1) * (RtoC y0)) / ((RtoC dT) * lam))) + (((((RtoC (((om ^ 3)
  * t) * (cos (((om * t) - (om * (t - x1))) + ph)))) * e2) * d1) * (RtoC y1)) / ((RtoC (dT ^ 2)) *
  (cpow lam 2)))) - (((((RtoC (((om ^ 3) * t) * (cos (((om * t) - (om * (t - x1))) + ph)))) * e2)
  * d1) * (RtoC y0)) / ((RtoC (dT ^ 2)) * (cpow lam 2)))) - (((((RtoC (((om ^ 3) * (t - x1)) *
  (cos (((om * t) - (om * (t - x1))) + ph)))) * e2) * d1) * (RtoC y1)) / ((RtoC (dT ^ 2)) * (cpow
  lam 2)))) + (((((RtoC (((om ^ 3) * (t - x1)) * (cos (((om * t) - (om * (t - x1))) + ph)))) * e2)
  * d1) * (RtoC y0)) / ((RtoC (dT ^ 2)) * (cpow lam 2)))) - ((((((RtoC ((om ^ 3) * (cos (((om * t)
  - (om * (t - x1))) + ph)))) * e2) * (RtoC x0)) * d1) * (RtoC y1)) / ((RtoC (dT ^ 2)) * (cpow lam
  2)))) + (((((RtoC (((om ^ 3) * x1) * (cos (((om * t) - (om * (t - x1))) + ph)))) * e2) * d1) *
  (RtoC y0)) / ((RtoC (dT ^ 2)) * (cpow lam 2)))) - ((((((RtoC (om ^ 2)) * e2) * s2) * d1) * (RtoC
  y1)) / ((RtoC (dT ^ 2)) * (cpow lam 2)))) + ((((((RtoC (om ^ 2)) * e2) * s2) * d1) * (RtoC y0))
  / ((RtoC (dT ^ 2)) * (cpow lam 2)))) / ((RtoC dT) * lam))))%C.
