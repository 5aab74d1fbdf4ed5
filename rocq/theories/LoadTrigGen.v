(** Generated from /repo/geotecha/speccon/integrals.py by tools/gen_load_trig.py; do not edit.
    One real expression per load segment: x0, x1 = loadtim[k], loadtim[k+1]; y0, y1 = loadmag[k], loadmag[k+1];
    om, ph = omega, phase; lam one eigenvalue.  The lets bind repeated sub-expressions. *)
From Coq Require Import Reals.
Open Scope R_scope.

(** integrals.py:3222-3227 (Eload_coslinear, scalar, const_in) *)
Definition Ecos_scalar_const_in (y0 y1 x0 x1 om ph dT lam t : R) : R :=
  let c1 := (cos ((om * t) + ph)) in
  let s1 := (sin ((om * t) + ph)) in
  let c2 := (cos (((om * t) - (om * (t - x0))) + ph)) in
  let e1 := (exp (((- dT) * lam) * (t - x0))) in
  let s2 := (sin (((om * t) - (om * (t - x0))) + ph)) in
  (((((c1 / (1 + ((om ^ 2) / ((dT ^ 2) * (lam ^ 2))))) + ((om * s1) / ((dT * lam) * (1 + ((om ^ 2)
  / ((dT ^ 2) * (lam ^ 2))))))) * y0) / (dT * lam)) - (((((c2 * e1) / (1 + ((om ^ 2) / ((dT ^ 2) *
  (lam ^ 2))))) + (((om * e1) * s2) / ((dT * lam) * (1 + ((om ^ 2) / ((dT ^ 2) * (lam ^ 2))))))) *
  y0) / (dT * lam))).

(** integrals.py:3230-3237 (Eload_coslinear, scalar, const_less) *)
Definition Ecos_scalar_const_less (y0 y1 x0 x1 om ph dT lam t : R) : R :=
  let c1 := (cos (((om * t) - (om * (t - x1))) + ph)) in
  let e1 := (exp (((- dT) * lam) * (t - x1))) in
  let s1 := (sin (((om * t) - (om * (t - x1))) + ph)) in
  let c2 := (cos (((om * t) - (om * (t - x0))) + ph)) in
  let e2 := (exp (((- dT) * lam) * (t - x0))) in
  let s2 := (sin (((om * t) - (om * (t - x0))) + ph)) in
  ((((((c1 * e1) / (1 + ((om ^ 2) / ((dT ^ 2) * (lam ^ 2))))) + (((om * e1) * s1) / ((dT * lam) *
  (1 + ((om ^ 2) / ((dT ^ 2) * (lam ^ 2))))))) * y0) / (dT * lam)) - (((((c2 * e2) / (1 + ((om ^
  2) / ((dT ^ 2) * (lam ^ 2))))) + (((om * e2) * s2) / ((dT * lam) * (1 + ((om ^ 2) / ((dT ^ 2) *
  (lam ^ 2))))))) * y0) / (dT * lam))).

(** integrals.py:3240-3467 (Eload_coslinear, scalar, ramp_in) *)
Definition Ecos_scalar_ramp_in (y0 y1 x0 x1 om ph dT lam t : R) : R :=
  let c1 := (cos ((om * t) + ph)) in
  let d1 := (/ (((((((((- dT) * lam) * x1) + ((dT * lam) * x0)) - (((2 * (om ^ 2)) * x1) / (dT * lam))) +
  (((2 * (om ^ 2)) * x0) / (dT * lam))) - (((om ^ 4) * x1) / ((dT ^ 3) * (lam ^ 3)))) + (((om ^ 4)
  * x0) / ((dT ^ 3) * (lam ^ 3)))) ^ 1)) in
  let s1 := (sin ((om * t) + ph)) in
  let c2 := (cos (((om * t) - (om * (t - x0))) + ph)) in
  let e1 := (exp (((- dT) * lam) * (t - x0))) in
  let s2 := (sin (((om * t) - (om * (t - x0))) + ph)) in
  (((((((((((((((((((((((((((((- dT) * lam) * t) * c1) * d1) * y1) + (((((dT * lam) * t) * c1) *
  d1) * y0)) - (((((dT * lam) * c1) * x1) * d1) * y0)) + (((((dT * lam) * c1) * x0) * d1) * y1)) -
  ((((om * t) * s1) * d1) * y1)) + ((((om * t) * s1) * d1) * y0)) - ((((om * s1) * x1) * d1) *
  y0)) + ((((om * s1) * x0) * d1) * y1)) + ((c1 * d1) * y1)) - ((c1 * d1) * y0)) - ((((((om ^ 2) *
  t) * c1) * d1) * y1) / (dT * lam))) + ((((((om ^ 2) * t) * c1) * d1) * y0) / (dT * lam))) -
  ((((((om ^ 2) * c1) * x1) * d1) * y0) / (dT * lam))) + ((((((om ^ 2) * c1) * x0) * d1) * y1) /
  (dT * lam))) + (((((2 * om) * s1) * d1) * y1) / (dT * lam))) - (((((2 * om) * s1) * d1) * y0) /
  (dT * lam))) - ((((((om ^ 3) * t) * s1) * d1) * y1) / ((dT ^ 2) * (lam ^ 2)))) + ((((((om ^ 3) *
  t) * s1) * d1) * y0) / ((dT ^ 2) * (lam ^ 2)))) - ((((((om ^ 3) * s1) * x1) * d1) * y0) / ((dT ^
  2) * (lam ^ 2)))) + ((((((om ^ 3) * s1) * x0) * d1) * y1) / ((dT ^ 2) * (lam ^ 2)))) - (((((om ^
  2) * c1) * d1) * y1) / ((dT ^ 2) * (lam ^ 2)))) + (((((om ^ 2) * c1) * d1) * y0) / ((dT ^ 2) *
  (lam ^ 2)))) / (dT * lam)) - (((((((((((((((((((((((((((((((((((((- dT) * lam) * t) * d1) * c2)
  * e1) * y1) + ((((((dT * lam) * t) * d1) * c2) * e1) * y0)) + ((((((dT * lam) * d1) * (t - x0))
  * c2) * e1) * y1)) - ((((((dT * lam) * d1) * (t - x0)) * c2) * e1) * y0)) - ((((((dT * lam) *
  x1) * d1) * c2) * e1) * y0)) + ((((((dT * lam) * x0) * d1) * c2) * e1) * y1)) - (((((om * t) *
  d1) * e1) * s2) * y1)) + (((((om * t) * d1) * e1) * s2) * y0)) + (((((om * d1) * (t - x0)) * e1)
  * s2) * y1)) - (((((om * d1) * (t - x0)) * e1) * s2) * y0)) - (((((om * x1) * d1) * e1) * s2) *
  y0)) + (((((om * x0) * d1) * e1) * s2) * y1)) + (((d1 * c2) * e1) * y1)) - (((d1 * c2) * e1) *
  y0)) - (((((((om ^ 2) * t) * d1) * c2) * e1) * y1) / (dT * lam))) + (((((((om ^ 2) * t) * d1) *
  c2) * e1) * y0) / (dT * lam))) + (((((((om ^ 2) * d1) * (t - x0)) * c2) * e1) * y1) / (dT *
  lam))) - (((((((om ^ 2) * d1) * (t - x0)) * c2) * e1) * y0) / (dT * lam))) - (((((((om ^ 2) *
  x1) * d1) * c2) * e1) * y0) / (dT * lam))) + (((((((om ^ 2) * x0) * d1) * c2) * e1) * y1) / (dT
  * lam))) + ((((((2 * om) * d1) * e1) * s2) * y1) / (dT * lam))) - ((((((2 * om) * d1) * e1) *
  s2) * y0) / (dT * lam))) - (((((((om ^ 3) * t) * d1) * e1) * s2) * y1) / ((dT ^ 2) * (lam ^
  2)))) + (((((((om ^ 3) * t) * d1) * e1) * s2) * y0) / ((dT ^ 2) * (lam ^ 2)))) + (((((((om ^ 3)
  * d1) * (t - x0)) * e1) * s2) * y1) / ((dT ^ 2) * (lam ^ 2)))) - (((((((om ^ 3) * d1) * (t -
  x0)) * e1) * s2) * y0) / ((dT ^ 2) * (lam ^ 2)))) - (((((((om ^ 3) * x1) * d1) * e1) * s2) * y0)
  / ((dT ^ 2) * (lam ^ 2)))) + (((((((om ^ 3) * x0) * d1) * e1) * s2) * y1) / ((dT ^ 2) * (lam ^
  2)))) - ((((((om ^ 2) * d1) * c2) * e1) * y1) / ((dT ^ 2) * (lam ^ 2)))) + ((((((om ^ 2) * d1) *
  c2) * e1) * y0) / ((dT ^ 2) * (lam ^ 2)))) / (dT * lam))).

(** integrals.py:3470-3758 (Eload_coslinear, scalar, ramp_less) *)
Definition Ecos_scalar_ramp_less (y0 y1 x0 x1 om ph dT lam t : R) : R :=
  let d1 := (/ (((((((((- dT) * lam) * x1) + ((dT * lam) * x0)) - (((2 * (om ^ 2)) * x1) / (dT * lam))) +
  (((2 * (om ^ 2)) * x0) / (dT * lam))) - (((om ^ 4) * x1) / ((dT ^ 3) * (lam ^ 3)))) + (((om ^ 4)
  * x0) / ((dT ^ 3) * (lam ^ 3)))) ^ 1)) in
  let c1 := (cos (((om * t) - (om * (t - x0))) + ph)) in
  let e1 := (exp (((- dT) * lam) * (t - x0))) in
  let s1 := (sin (((om * t) - (om * (t - x0))) + ph)) in
  let c2 := (cos (((om * t) - (om * (t - x1))) + ph)) in
  let e2 := (exp (((- dT) * lam) * (t - x1))) in
  let s2 := (sin (((om * t) - (om * (t - x1))) + ph)) in
  (((- ((((((((((((((((((((((((((((((((((((- dT) * lam) * t) * d1) * c1) * e1) * y1) + ((((((dT *
  lam) * t) * d1) * c1) * e1) * y0)) + ((((((dT * lam) * d1) * (t - x0)) * c1) * e1) * y1)) -
  ((((((dT * lam) * d1) * (t - x0)) * c1) * e1) * y0)) - ((((((dT * lam) * x1) * d1) * c1) * e1) *
  y0)) + ((((((dT * lam) * x0) * d1) * c1) * e1) * y1)) - (((((om * t) * d1) * e1) * s1) * y1)) +
  (((((om * t) * d1) * e1) * s1) * y0)) + (((((om * d1) * (t - x0)) * e1) * s1) * y1)) - (((((om *
  d1) * (t - x0)) * e1) * s1) * y0)) - (((((om * x1) * d1) * e1) * s1) * y0)) + (((((om * x0) *
  d1) * e1) * s1) * y1)) + (((d1 * c1) * e1) * y1)) - (((d1 * c1) * e1) * y0)) - (((((((om ^ 2) *
  t) * d1) * c1) * e1) * y1) / (dT * lam))) + (((((((om ^ 2) * t) * d1) * c1) * e1) * y0) / (dT *
  lam))) + (((((((om ^ 2) * d1) * (t - x0)) * c1) * e1) * y1) / (dT * lam))) - (((((((om ^ 2) *
  d1) * (t - x0)) * c1) * e1) * y0) / (dT * lam))) - (((((((om ^ 2) * x1) * d1) * c1) * e1) * y0)
  / (dT * lam))) + (((((((om ^ 2) * x0) * d1) * c1) * e1) * y1) / (dT * lam))) + ((((((2 * om) *
  d1) * e1) * s1) * y1) / (dT * lam))) - ((((((2 * om) * d1) * e1) * s1) * y0) / (dT * lam))) -
  (((((((om ^ 3) * t) * d1) * e1) * s1) * y1) / ((dT ^ 2) * (lam ^ 2)))) + (((((((om ^ 3) * t) *
  d1) * e1) * s1) * y0) / ((dT ^ 2) * (lam ^ 2)))) + (((((((om ^ 3) * d1) * (t - x0)) * e1) * s1)
  * y1) / ((dT ^ 2) * (lam ^ 2)))) - (((((((om ^ 3) * d1) * (t - x0)) * e1) * s1) * y0) / ((dT ^
  2) * (lam ^ 2)))) - (((((((om ^ 3) * x1) * d1) * e1) * s1) * y0) / ((dT ^ 2) * (lam ^ 2)))) +
  (((((((om ^ 3) * x0) * d1) * e1) * s1) * y1) / ((dT ^ 2) * (lam ^ 2)))) - ((((((om ^ 2) * d1) *
  c1) * e1) * y1) / ((dT ^ 2) * (lam ^ 2)))) + ((((((om ^ 2) * d1) * c1) * e1) * y0) / ((dT ^ 2) *
  (lam ^ 2))))) / (dT * lam)) + (((((((((((((((((((((((((((((((((((((- dT) * lam) * t) * c2) * e2)
  * d1) * y1) + ((((((dT * lam) * t) * c2) * e2) * d1) * y0)) + ((((((dT * lam) * (t - x1)) * c2)
  * e2) * d1) * y1)) - ((((((dT * lam) * (t - x1)) * c2) * e2) * d1) * y0)) + ((((((dT * lam) *
  c2) * e2) * x0) * d1) * y1)) - ((((((dT * lam) * x1) * c2) * e2) * d1) * y0)) - (((((om * t) *
  e2) * s2) * d1) * y1)) + (((((om * t) * e2) * s2) * d1) * y0)) + (((((om * (t - x1)) * e2) * s2)
  * d1) * y1)) - (((((om * (t - x1)) * e2) * s2) * d1) * y0)) + (((((om * e2) * s2) * x0) * d1) *
  y1)) - (((((om * x1) * e2) * s2) * d1) * y0)) + (((c2 * e2) * d1) * y1)) - (((c2 * e2) * d1) *
  y0)) - (((((((om ^ 2) * t) * c2) * e2) * d1) * y1) / (dT * lam))) + (((((((om ^ 2) * t) * c2) *
  e2) * d1) * y0) / (dT * lam))) + (((((((om ^ 2) * (t - x1)) * c2) * e2) * d1) * y1) / (dT *
  lam))) - (((((((om ^ 2) * (t - x1)) * c2) * e2) * d1) * y0) / (dT * lam))) + (((((((om ^ 2) *
  c2) * e2) * x0) * d1) * y1) / (dT * lam))) - (((((((om ^ 2) * x1) * c2) * e2) * d1) * y0) / (dT
  * lam))) + ((((((2 * om) * e2) * s2) * d1) * y1) / (dT * lam))) - ((((((2 * om) * e2) * s2) *
  d1) * y0) / (dT * lam))) - (((((((om ^ 3) * t) * e2) * s2) * d1) * y1) / ((dT ^ 2) * (lam ^
  2)))) + (((((((om ^ 3) * t) * e2) * s2) * d1) * y0) / ((dT ^ 2) * (lam ^ 2)))) + (((((((om ^ 3)
  * (t - x1)) * e2) * s2) * d1) * y1) / ((dT ^ 2) * (lam ^ 2)))) - (((((((om ^ 3) * (t - x1)) *
  e2) * s2) * d1) * y0) / ((dT ^ 2) * (lam ^ 2)))) + (((((((om ^ 3) * e2) * s2) * x0) * d1) * y1)
  / ((dT ^ 2) * (lam ^ 2)))) - (((((((om ^ 3) * x1) * e2) * s2) * d1) * y0) / ((dT ^ 2) * (lam ^
  2)))) - ((((((om ^ 2) * c2) * e2) * d1) * y1) / ((dT ^ 2) * (lam ^ 2)))) + ((((((om ^ 2) * c2) *
  e2) * d1) * y0) / ((dT ^ 2) * (lam ^ 2)))) / (dT * lam))).

(** integrals.py:3783-3788 (Eload_coslinear, vectorized, const_in) *)
Definition Ecos_vectorized_const_in (y0 y1 x0 x1 om ph dT lam t : R) : R :=
  let c1 := (cos ((om * t) + ph)) in
  let s1 := (sin ((om * t) + ph)) in
  let c2 := (cos (((om * t) - (om * (t - x0))) + ph)) in
  let e1 := (exp (((- dT) * lam) * (t - x0))) in
  let s2 := (sin (((om * t) - (om * (t - x0))) + ph)) in
  (((((c1 / (1 + ((om ^ 2) / ((dT ^ 2) * (lam ^ 2))))) + ((om * s1) / ((dT * lam) * (1 + ((om ^ 2)
  / ((dT ^ 2) * (lam ^ 2))))))) * y0) / (dT * lam)) - (((((c2 * e1) / (1 + ((om ^ 2) / ((dT ^ 2) *
  (lam ^ 2))))) + (((om * e1) * s2) / ((dT * lam) * (1 + ((om ^ 2) / ((dT ^ 2) * (lam ^ 2))))))) *
  y0) / (dT * lam))).

(** integrals.py:3792-3799 (Eload_coslinear, vectorized, const_less) *)
Definition Ecos_vectorized_const_less (y0 y1 x0 x1 om ph dT lam t : R) : R :=
  let c1 := (cos (((om * t) - (om * (t - x1))) + ph)) in
  let e1 := (exp (((- dT) * lam) * (t - x1))) in
  let s1 := (sin (((om * t) - (om * (t - x1))) + ph)) in
  let c2 := (cos (((om * t) - (om * (t - x0))) + ph)) in
  let e2 := (exp (((- dT) * lam) * (t - x0))) in
  let s2 := (sin (((om * t) - (om * (t - x0))) + ph)) in
  ((((((c1 * e1) / (1 + ((om ^ 2) / ((dT ^ 2) * (lam ^ 2))))) + (((om * e1) * s1) / ((dT * lam) *
  (1 + ((om ^ 2) / ((dT ^ 2) * (lam ^ 2))))))) * y0) / (dT * lam)) - (((((c2 * e2) / (1 + ((om ^
  2) / ((dT ^ 2) * (lam ^ 2))))) + (((om * e2) * s2) / ((dT * lam) * (1 + ((om ^ 2) / ((dT ^ 2) *
  (lam ^ 2))))))) * y0) / (dT * lam))).

(** integrals.py:3803-4030 (Eload_coslinear, vectorized, ramp_in) *)
Definition Ecos_vectorized_ramp_in (y0 y1 x0 x1 om ph dT lam t : R) : R :=
  let c1 := (cos ((om * t) + ph)) in
  let d1 := (/ (((((((((- dT) * lam) * x1) + ((dT * lam) * x0)) - (((2 * (om ^ 2)) * x1) / (dT * lam))) +
  (((2 * (om ^ 2)) * x0) / (dT * lam))) - (((om ^ 4) * x1) / ((dT ^ 3) * (lam ^ 3)))) + (((om ^ 4)
  * x0) / ((dT ^ 3) * (lam ^ 3)))) ^ 1)) in
  let s1 := (sin ((om * t) + ph)) in
  let c2 := (cos (((om * t) - (om * (t - x0))) + ph)) in
  let e1 := (exp (((- dT) * lam) * (t - x0))) in
  let s2 := (sin (((om * t) - (om * (t - x0))) + ph)) in
  (((((((((((((((((((((((((((((- dT) * lam) * t) * c1) * d1) * y1) + (((((dT * lam) * t) * c1) *
  d1) * y0)) - (((((dT * lam) * c1) * x1) * d1) * y0)) + (((((dT * lam) * c1) * x0) * d1) * y1)) -
  ((((om * t) * s1) * d1) * y1)) + ((((om * t) * s1) * d1) * y0)) - ((((om * s1) * x1) * d1) *
  y0)) + ((((om * s1) * x0) * d1) * y1)) + ((c1 * d1) * y1)) - ((c1 * d1) * y0)) - ((((((om ^ 2) *
  t) * c1) * d1) * y1) / (dT * lam))) + ((((((om ^ 2) * t) * c1) * d1) * y0) / (dT * lam))) -
  ((((((om ^ 2) * c1) * x1) * d1) * y0) / (dT * lam))) + ((((((om ^ 2) * c1) * x0) * d1) * y1) /
  (dT * lam))) + (((((2 * om) * s1) * d1) * y1) / (dT * lam))) - (((((2 * om) * s1) * d1) * y0) /
  (dT * lam))) - ((((((om ^ 3) * t) * s1) * d1) * y1) / ((dT ^ 2) * (lam ^ 2)))) + ((((((om ^ 3) *
  t) * s1) * d1) * y0) / ((dT ^ 2) * (lam ^ 2)))) - ((((((om ^ 3) * s1) * x1) * d1) * y0) / ((dT ^
  2) * (lam ^ 2)))) + ((((((om ^ 3) * s1) * x0) * d1) * y1) / ((dT ^ 2) * (lam ^ 2)))) - (((((om ^
  2) * c1) * d1) * y1) / ((dT ^ 2) * (lam ^ 2)))) + (((((om ^ 2) * c1) * d1) * y0) / ((dT ^ 2) *
  (lam ^ 2)))) / (dT * lam)) - (((((((((((((((((((((((((((((((((((((- dT) * lam) * t) * d1) * c2)
  * e1) * y1) + ((((((dT * lam) * t) * d1) * c2) * e1) * y0)) + ((((((dT * lam) * d1) * (t - x0))
  * c2) * e1) * y1)) - ((((((dT * lam) * d1) * (t - x0)) * c2) * e1) * y0)) - ((((((dT * lam) *
  x1) * d1) * c2) * e1) * y0)) + ((((((dT * lam) * x0) * d1) * c2) * e1) * y1)) - (((((om * t) *
  d1) * e1) * s2) * y1)) + (((((om * t) * d1) * e1) * s2) * y0)) + (((((om * d1) * (t - x0)) * e1)
  * s2) * y1)) - (((((om * d1) * (t - x0)) * e1) * s2) * y0)) - (((((om * x1) * d1) * e1) * s2) *
  y0)) + (((((om * x0) * d1) * e1) * s2) * y1)) + (((d1 * c2) * e1) * y1)) - (((d1 * c2) * e1) *
  y0)) - (((((((om ^ 2) * t) * d1) * c2) * e1) * y1) / (dT * lam))) + (((((((om ^ 2) * t) * d1) *
  c2) * e1) * y0) / (dT * lam))) + (((((((om ^ 2) * d1) * (t - x0)) * c2) * e1) * y1) / (dT *
  lam))) - (((((((om ^ 2) * d1) * (t - x0)) * c2) * e1) * y0) / (dT * lam))) - (((((((om ^ 2) *
  x1) * d1) * c2) * e1) * y0) / (dT * lam))) + (((((((om ^ 2) * x0) * d1) * c2) * e1) * y1) / (dT
  * lam))) + ((((((2 * om) * d1) * e1) * s2) * y1) / (dT * lam))) - ((((((2 * om) * d1) * e1) *
  s2) * y0) / (dT * lam))) - (((((((om ^ 3) * t) * d1) * e1) * s2) * y1) / ((dT ^ 2) * (lam ^
  2)))) + (((((((om ^ 3) * t) * d1) * e1) * s2) * y0) / ((dT ^ 2) * (lam ^ 2)))) + (((((((om ^ 3)
  * d1) * (t - x0)) * e1) * s2) * y1) / ((dT ^ 2) * (lam ^ 2)))) - (((((((om ^ 3) * d1) * (t -
  x0)) * e1) * s2) * y0) / ((dT ^ 2) * (lam ^ 2)))) - (((((((om ^ 3) * x1) * d1) * e1) * s2) * y0)
  / ((dT ^ 2) * (lam ^ 2)))) + (((((((om ^ 3) * x0) * d1) * e1) * s2) * y1) / ((dT ^ 2) * (lam ^
  2)))) - ((((((om ^ 2) * d1) * c2) * e1) * y1) / ((dT ^ 2) * (lam ^ 2)))) + ((((((om ^ 2) * d1) *
  c2) * e1) * y0) / ((dT ^ 2) * (lam ^ 2)))) / (dT * lam))).

(** integrals.py:4034-4322 (Eload_coslinear, vectorized, ramp_less) *)
Definition Ecos_vectorized_ramp_less (y0 y1 x0 x1 om ph dT lam t : R) : R :=
  let d1 := (/ (((((((((- dT) * lam) * x1) + ((dT * lam) * x0)) - (((2 * (om ^ 2)) * x1) / (dT * lam))) +
  (((2 * (om ^ 2)) * x0) / (dT * lam))) - (((om ^ 4) * x1) / ((dT ^ 3) * (lam ^ 3)))) + (((om ^ 4)
  * x0) / ((dT ^ 3) * (lam ^ 3)))) ^ 1)) in
  let c1 := (cos (((om * t) - (om * (t - x0))) + ph)) in
  let e1 := (exp (((- dT) * lam) * (t - x0))) in
  let s1 := (sin (((om * t) - (om * (t - x0))) + ph)) in
  let c2 := (cos (((om * t) - (om * (t - x1))) + ph)) in
  let e2 := (exp (((- dT) * lam) * (t - x1))) in
  let s2 := (sin (((om * t) - (om * (t - x1))) + ph)) in
  (((- ((((((((((((((((((((((((((((((((((((- dT) * lam) * t) * d1) * c1) * e1) * y1) + ((((((dT *
  lam) * t) * d1) * c1) * e1) * y0)) + ((((((dT * lam) * d1) * (t - x0)) * c1) * e1) * y1)) -
  ((((((dT * lam) * d1) * (t - x0)) * c1) * e1) * y0)) - ((((((dT * lam) * x1) * d1) * c1) * e1) *
  y0)) + ((((((dT * lam) * x0) * d1) * c1) * e1) * y1)) - (((((om * t) * d1) * e1) * s1) * y1)) +
  (((((om * t) * d1) * e1) * s1) * y0)) + (((((om * d1) * (t - x0)) * e1) * s1) * y1)) - (((((om *
  d1) * (t - x0)) * e1) * s1) * y0)) - (((((om * x1) * d1) * e1) * s1) * y0)) + (((((om * x0) *
  d1) * e1) * s1) * y1)) + (((d1 * c1) * e1) * y1)) - (((d1 * c1) * e1) * y0)) - (((((((om ^ 2) *
  t) * d1) * c1) * e1) * y1) / (dT * lam))) + (((((((om ^ 2) * t) * d1) * c1) * e1) * y0) / (dT *
  lam))) + (((((((om ^ 2) * d1) * (t - x0)) * c1) * e1) * y1) / (dT * lam))) - (((((((om ^ 2) *
  d1) * (t - x0)) * c1) * e1) * y0) / (dT * lam))) - (((((((om ^ 2) * x1) * d1) * c1) * e1) * y0)
  / (dT * lam))) + (((((((om ^ 2) * x0) * d1) * c1) * e1) * y1) / (dT * lam))) + ((((((2 * om) *
  d1) * e1) * s1) * y1) / (dT * lam))) - ((((((2 * om) * d1) * e1) * s1) * y0) / (dT * lam))) -
  (((((((om ^ 3) * t) * d1) * e1) * s1) * y1) / ((dT ^ 2) * (lam ^ 2)))) + (((((((om ^ 3) * t) *
  d1) * e1) * s1) * y0) / ((dT ^ 2) * (lam ^ 2)))) + (((((((om ^ 3) * d1) * (t - x0)) * e1) * s1)
  * y1) / ((dT ^ 2) * (lam ^ 2)))) - (((((((om ^ 3) * d1) * (t - x0)) * e1) * s1) * y0) / ((dT ^
  2) * (lam ^ 2)))) - (((((((om ^ 3) * x1) * d1) * e1) * s1) * y0) / ((dT ^ 2) * (lam ^ 2)))) +
  (((((((om ^ 3) * x0) * d1) * e1) * s1) * y1) / ((dT ^ 2) * (lam ^ 2)))) - ((((((om ^ 2) * d1) *
  c1) * e1) * y1) / ((dT ^ 2) * (lam ^ 2)))) + ((((((om ^ 2) * d1) * c1) * e1) * y0) / ((dT ^ 2) *
  (lam ^ 2))))) / (dT * lam)) + (((((((((((((((((((((((((((((((((((((- dT) * lam) * t) * c2) * e2)
  * d1) * y1) + ((((((dT * lam) * t) * c2) * e2) * d1) * y0)) + ((((((dT * lam) * (t - x1)) * c2)
  * e2) * d1) * y1)) - ((((((dT * lam) * (t - x1)) * c2) * e2) * d1) * y0)) + ((((((dT * lam) *
  c2) * e2) * x0) * d1) * y1)) - ((((((dT * lam) * x1) * c2) * e2) * d1) * y0)) - (((((om * t) *
  e2) * s2) * d1) * y1)) + (((((om * t) * e2) * s2) * d1) * y0)) + (((((om * (t - x1)) * e2) * s2)
  * d1) * y1)) - (((((om * (t - x1)) * e2) * s2) * d1) * y0)) + (((((om * e2) * s2) * x0) * d1) *
  y1)) - (((((om * x1) * e2) * s2) * d1) * y0)) + (((c2 * e2) * d1) * y1)) - (((c2 * e2) * d1) *
  y0)) - (((((((om ^ 2) * t) * c2) * e2) * d1) * y1) / (dT * lam))) + (((((((om ^ 2) * t) * c2) *
  e2) * d1) * y0) / (dT * lam))) + (((((((om ^ 2) * (t - x1)) * c2) * e2) * d1) * y1) / (dT *
  lam))) - (((((((om ^ 2) * (t - x1)) * c2) * e2) * d1) * y0) / (dT * lam))) + (((((((om ^ 2) *
  c2) * e2) * x0) * d1) * y1) / (dT * lam))) - (((((((om ^ 2) * x1) * c2) * e2) * d1) * y0) / (dT
  * lam))) + ((((((2 * om) * e2) * s2) * d1) * y1) / (dT * lam))) - ((((((2 * om) * e2) * s2) *
  d1) * y0) / (dT * lam))) - (((((((om ^ 3) * t) * e2) * s2) * d1) * y1) / ((dT ^ 2) * (lam ^
  2)))) + (((((((om ^ 3) * t) * e2) * s2) * d1) * y0) / ((dT ^ 2) * (lam ^ 2)))) + (((((((om ^ 3)
  * (t - x1)) * e2) * s2) * d1) * y1) / ((dT ^ 2) * (lam ^ 2)))) - (((((((om ^ 3) * (t - x1)) *
  e2) * s2) * d1) * y0) / ((dT ^ 2) * (lam ^ 2)))) + (((((((om ^ 3) * e2) * s2) * x0) * d1) * y1)
  / ((dT ^ 2) * (lam ^ 2)))) - (((((((om ^ 3) * x1) * e2) * s2) * d1) * y0) / ((dT ^ 2) * (lam ^
  2)))) - ((((((om ^ 2) * c2) * e2) * d1) * y1) / ((dT ^ 2) * (lam ^ 2)))) + ((((((om ^ 2) * c2) *
  e2) * d1) * y0) / ((dT ^ 2) * (lam ^ 2)))) / (dT * lam))).

(** integrals.py:4447-4447 (EDload_coslinear, scalar, step) *)
Definition EDcos_scalar_step (y0 y1 x0 x1 om ph dT lam t : R) : R :=
  let c1 := (cos ((om * x0) + ph)) in
  let e1 := (exp (((- dT) * lam) * (t - x0))) in
  ((c1 * e1) * (y1 - y0)).

(** integrals.py:4450-4678 (EDload_coslinear, scalar, ramp_in) *)
Definition EDcos_scalar_ramp_in (y0 y1 x0 x1 om ph dT lam t : R) : R :=
  let s1 := (sin ((om * t) + ph)) in
  let d1 := (/ (((((((((- dT) * lam) * x1) + ((dT * lam) * x0)) - (((2 * (om ^ 2)) * x1) / (dT * lam))) +
  (((2 * (om ^ 2)) * x0) / (dT * lam))) - (((om ^ 4) * x1) / ((dT ^ 3) * (lam ^ 3)))) + (((om ^ 4)
  * x0) / ((dT ^ 3) * (lam ^ 3)))) ^ 1)) in
  let e1 := (exp (((- dT) * lam) * (t - x0))) in
  let s2 := (sin (((om * t) - (om * (t - x0))) + ph)) in
  let c1 := (cos ((om * t) + ph)) in
  let c2 := (cos (((om * t) - (om * (t - x0))) + ph)) in
  (((((((((((((((((((((((((((((((((((((((((((((((((((((((om * t) * s1) * d1) * y1) - ((((om * t) *
  s1) * d1) * y0)) - (((((om * t) * d1) * e1) * s2) * y1)) + (((((om * t) * d1) * e1) * s2) * y0))
  + ((((om * s1) * x1) * d1) * y0)) - ((((om * s1) * x0) * d1) * y1)) + (((((om * d1) * (t - x0))
  * e1) * s2) * y1)) - (((((om * d1) * (t - x0)) * e1) * s2) * y0)) - (((((om * x1) * d1) * e1) *
  s2) * y0)) + (((((om * x0) * d1) * e1) * s2) * y1)) - ((c1 * d1) * y1)) + ((c1 * d1) * y0)) +
  (((d1 * c2) * e1) * y1)) - (((d1 * c2) * e1) * y0)) - ((((((om ^ 2) * t) * c1) * d1) * y1) / (dT
  * lam))) + ((((((om ^ 2) * t) * c1) * d1) * y0) / (dT * lam))) + (((((((om ^ 2) * t) * d1) * c2)
  * e1) * y1) / (dT * lam))) - (((((((om ^ 2) * t) * d1) * c2) * e1) * y0) / (dT * lam))) -
  ((((((om ^ 2) * c1) * x1) * d1) * y0) / (dT * lam))) + ((((((om ^ 2) * c1) * x0) * d1) * y1) /
  (dT * lam))) - (((((((om ^ 2) * d1) * (t - x0)) * c2) * e1) * y1) / (dT * lam))) + (((((((om ^
  2) * d1) * (t - x0)) * c2) * e1) * y0) / (dT * lam))) + (((((((om ^ 2) * x1) * d1) * c2) * e1) *
  y0) / (dT * lam))) - (((((((om ^ 2) * x0) * d1) * c2) * e1) * y1) / (dT * lam))) - (((((2 * om)
  * s1) * d1) * y1) / (dT * lam))) + (((((2 * om) * s1) * d1) * y0) / (dT * lam))) + ((((((2 * om)
  * d1) * e1) * s2) * y1) / (dT * lam))) - ((((((2 * om) * d1) * e1) * s2) * y0) / (dT * lam))) +
  ((((((om ^ 3) * t) * s1) * d1) * y1) / ((dT ^ 2) * (lam ^ 2)))) - ((((((om ^ 3) * t) * s1) * d1)
  * y0) / ((dT ^ 2) * (lam ^ 2)))) - (((((((om ^ 3) * t) * d1) * e1) * s2) * y1) / ((dT ^ 2) *
  (lam ^ 2)))) + (((((((om ^ 3) * t) * d1) * e1) * s2) * y0) / ((dT ^ 2) * (lam ^ 2)))) + ((((((om
  ^ 3) * s1) * x1) * d1) * y0) / ((dT ^ 2) * (lam ^ 2)))) - ((((((om ^ 3) * s1) * x0) * d1) * y1)
  / ((dT ^ 2) * (lam ^ 2)))) + (((((((om ^ 3) * d1) * (t - x0)) * e1) * s2) * y1) / ((dT ^ 2) *
  (lam ^ 2)))) - (((((((om ^ 3) * d1) * (t - x0)) * e1) * s2) * y0) / ((dT ^ 2) * (lam ^ 2)))) -
  (((((((om ^ 3) * x1) * d1) * e1) * s2) * y0) / ((dT ^ 2) * (lam ^ 2)))) + (((((((om ^ 3) * x0) *
  d1) * e1) * s2) * y1) / ((dT ^ 2) * (lam ^ 2)))) + (((((om ^ 2) * c1) * d1) * y1) / ((dT ^ 2) *
  (lam ^ 2)))) - (((((om ^ 2) * c1) * d1) * y0) / ((dT ^ 2) * (lam ^ 2)))) - ((((((om ^ 2) * d1) *
  c2) * e1) * y1) / ((dT ^ 2) * (lam ^ 2)))) + ((((((om ^ 2) * d1) * c2) * e1) * y0) / ((dT ^ 2) *
  (lam ^ 2)))) - ((((((om ^ 4) * t) * c1) * d1) * y1) / ((dT ^ 3) * (lam ^ 3)))) + ((((((om ^ 4) *
  t) * c1) * d1) * y0) / ((dT ^ 3) * (lam ^ 3)))) + (((((((om ^ 4) * t) * d1) * c2) * e1) * y1) /
  ((dT ^ 3) * (lam ^ 3)))) - (((((((om ^ 4) * t) * d1) * c2) * e1) * y0) / ((dT ^ 3) * (lam ^
  3)))) - ((((((om ^ 4) * c1) * x1) * d1) * y0) / ((dT ^ 3) * (lam ^ 3)))) + ((((((om ^ 4) * c1) *
  x0) * d1) * y1) / ((dT ^ 3) * (lam ^ 3)))) - (((((((om ^ 4) * d1) * (t - x0)) * c2) * e1) * y1)
  / ((dT ^ 3) * (lam ^ 3)))) + (((((((om ^ 4) * d1) * (t - x0)) * c2) * e1) * y0) / ((dT ^ 3) *
  (lam ^ 3)))) + (((((((om ^ 4) * x1) * d1) * c2) * e1) * y0) / ((dT ^ 3) * (lam ^ 3)))) -
  (((((((om ^ 4) * x0) * d1) * c2) * e1) * y1) / ((dT ^ 3) * (lam ^ 3)))).

(** integrals.py:4681-4974 (EDload_coslinear, scalar, ramp_less) *)
Definition EDcos_scalar_ramp_less (y0 y1 x0 x1 om ph dT lam t : R) : R :=
  let d1 := (/ (((((((((- dT) * lam) * x1) + ((dT * lam) * x0)) - (((2 * (om ^ 2)) * x1) / (dT * lam))) +
  (((2 * (om ^ 2)) * x0) / (dT * lam))) - (((om ^ 4) * x1) / ((dT ^ 3) * (lam ^ 3)))) + (((om ^ 4)
  * x0) / ((dT ^ 3) * (lam ^ 3)))) ^ 1)) in
  let e1 := (exp (((- dT) * lam) * (t - x0))) in
  let s1 := (sin (((om * t) - (om * (t - x0))) + ph)) in
  let e2 := (exp (((- dT) * lam) * (t - x1))) in
  let s2 := (sin (((om * t) - (om * (t - x1))) + ph)) in
  let c1 := (cos (((om * t) - (om * (t - x0))) + ph)) in
  let c2 := (cos (((om * t) - (om * (t - x1))) + ph)) in
  (((((((((((((((((((((((((((((((((((((((((((((((((((((((((((((((((- om) * t) * d1) * e1) * s1) *
  y1) + (((((om * t) * d1) * e1) * s1) * y0)) + (((((om * t) * e2) * s2) * d1) * y1)) - (((((om *
  t) * e2) * s2) * d1) * y0)) - (((((om * (t - x1)) * e2) * s2) * d1) * y1)) + (((((om * (t - x1))
  * e2) * s2) * d1) * y0)) + (((((om * d1) * (t - x0)) * e1) * s1) * y1)) - (((((om * d1) * (t -
  x0)) * e1) * s1) * y0)) - (((((om * e2) * s2) * x0) * d1) * y1)) - (((((om * x1) * d1) * e1) *
  s1) * y0)) + (((((om * x1) * e2) * s2) * d1) * y0)) + (((((om * x0) * d1) * e1) * s1) * y1)) +
  (((d1 * c1) * e1) * y1)) - (((d1 * c1) * e1) * y0)) - (((c2 * e2) * d1) * y1)) + (((c2 * e2) *
  d1) * y0)) + (((((((om ^ 2) * t) * d1) * c1) * e1) * y1) / (dT * lam))) - (((((((om ^ 2) * t) *
  d1) * c1) * e1) * y0) / (dT * lam))) - (((((((om ^ 2) * t) * c2) * e2) * d1) * y1) / (dT *
  lam))) + (((((((om ^ 2) * t) * c2) * e2) * d1) * y0) / (dT * lam))) + (((((((om ^ 2) * (t - x1))
  * c2) * e2) * d1) * y1) / (dT * lam))) - (((((((om ^ 2) * (t - x1)) * c2) * e2) * d1) * y0) /
  (dT * lam))) - (((((((om ^ 2) * d1) * (t - x0)) * c1) * e1) * y1) / (dT * lam))) + (((((((om ^
  2) * d1) * (t - x0)) * c1) * e1) * y0) / (dT * lam))) + (((((((om ^ 2) * c2) * e2) * x0) * d1) *
  y1) / (dT * lam))) + (((((((om ^ 2) * x1) * d1) * c1) * e1) * y0) / (dT * lam))) - (((((((om ^
  2) * x1) * c2) * e2) * d1) * y0) / (dT * lam))) - (((((((om ^ 2) * x0) * d1) * c1) * e1) * y1) /
  (dT * lam))) + ((((((2 * om) * d1) * e1) * s1) * y1) / (dT * lam))) - ((((((2 * om) * d1) * e1)
  * s1) * y0) / (dT * lam))) - ((((((2 * om) * e2) * s2) * d1) * y1) / (dT * lam))) + ((((((2 *
  om) * e2) * s2) * d1) * y0) / (dT * lam))) - (((((((om ^ 3) * t) * d1) * e1) * s1) * y1) / ((dT
  ^ 2) * (lam ^ 2)))) + (((((((om ^ 3) * t) * d1) * e1) * s1) * y0) / ((dT ^ 2) * (lam ^ 2)))) +
  (((((((om ^ 3) * t) * e2) * s2) * d1) * y1) / ((dT ^ 2) * (lam ^ 2)))) - (((((((om ^ 3) * t) *
  e2) * s2) * d1) * y0) / ((dT ^ 2) * (lam ^ 2)))) - (((((((om ^ 3) * (t - x1)) * e2) * s2) * d1)
  * y1) / ((dT ^ 2) * (lam ^ 2)))) + (((((((om ^ 3) * (t - x1)) * e2) * s2) * d1) * y0) / ((dT ^
  2) * (lam ^ 2)))) + (((((((om ^ 3) * d1) * (t - x0)) * e1) * s1) * y1) / ((dT ^ 2) * (lam ^
  2)))) - (((((((om ^ 3) * d1) * (t - x0)) * e1) * s1) * y0) / ((dT ^ 2) * (lam ^ 2)))) -
  (((((((om ^ 3) * e2) * s2) * x0) * d1) * y1) / ((dT ^ 2) * (lam ^ 2)))) - (((((((om ^ 3) * x1) *
  d1) * e1) * s1) * y0) / ((dT ^ 2) * (lam ^ 2)))) + (((((((om ^ 3) * x1) * e2) * s2) * d1) * y0)
  / ((dT ^ 2) * (lam ^ 2)))) + (((((((om ^ 3) * x0) * d1) * e1) * s1) * y1) / ((dT ^ 2) * (lam ^
  2)))) - ((((((om ^ 2) * d1) * c1) * e1) * y1) / ((dT ^ 2) * (lam ^ 2)))) + ((((((om ^ 2) * d1) *
  c1) * e1) * y0) / ((dT ^ 2) * (lam ^ 2)))) + ((((((om ^ 2) * c2) * e2) * d1) * y1) / ((dT ^ 2) *
  (lam ^ 2)))) - ((((((om ^ 2) * c2) * e2) * d1) * y0) / ((dT ^ 2) * (lam ^ 2)))) + (((((((om ^ 4)
  * t) * d1) * c1) * e1) * y1) / ((dT ^ 3) * (lam ^ 3)))) - (((((((om ^ 4) * t) * d1) * c1) * e1)
  * y0) / ((dT ^ 3) * (lam ^ 3)))) - (((((((om ^ 4) * t) * c2) * e2) * d1) * y1) / ((dT ^ 3) *
  (lam ^ 3)))) + (((((((om ^ 4) * t) * c2) * e2) * d1) * y0) / ((dT ^ 3) * (lam ^ 3)))) +
  (((((((om ^ 4) * (t - x1)) * c2) * e2) * d1) * y1) / ((dT ^ 3) * (lam ^ 3)))) - (((((((om ^ 4) *
  (t - x1)) * c2) * e2) * d1) * y0) / ((dT ^ 3) * (lam ^ 3)))) - (((((((om ^ 4) * d1) * (t - x0))
  * c1) * e1) * y1) / ((dT ^ 3) * (lam ^ 3)))) + (((((((om ^ 4) * d1) * (t - x0)) * c1) * e1) *
  y0) / ((dT ^ 3) * (lam ^ 3)))) + (((((((om ^ 4) * c2) * e2) * x0) * d1) * y1) / ((dT ^ 3) * (lam
  ^ 3)))) + (((((((om ^ 4) * x1) * d1) * c1) * e1) * y0) / ((dT ^ 3) * (lam ^ 3)))) - (((((((om ^
  4) * x1) * c2) * e2) * d1) * y0) / ((dT ^ 3) * (lam ^ 3)))) - (((((((om ^ 4) * x0) * d1) * c1) *
  e1) * y1) / ((dT ^ 3) * (lam ^ 3)))).

(** integrals.py:4977-4982 (EDload_coslinear, scalar, const_in) *)
Definition EDcos_scalar_const_in (y0 y1 x0 x1 om ph dT lam t : R) : R :=
  let s1 := (sin ((om * t) + ph)) in
  let c1 := (cos ((om * t) + ph)) in
  let e1 := (exp (((- dT) * lam) * (t - x0))) in
  let s2 := (sin (((om * t) - (om * (t - x0))) + ph)) in
  let c2 := (cos (((om * t) - (om * (t - x0))) + ph)) in
  (((((- om) * ((s1 / (1 + ((om ^ 2) / ((dT ^ 2) * (lam ^ 2))))) - ((om * c1) / ((dT * lam) * (1 +
  ((om ^ 2) / ((dT ^ 2) * (lam ^ 2)))))))) * y0) / (dT * lam)) + (((om * (((e1 * s2) / (1 + ((om ^
  2) / ((dT ^ 2) * (lam ^ 2))))) - (((om * c2) * e1) / ((dT * lam) * (1 + ((om ^ 2) / ((dT ^ 2) *
  (lam ^ 2)))))))) * y0) / (dT * lam))).

(** integrals.py:4985-4992 (EDload_coslinear, scalar, const_less) *)
Definition EDcos_scalar_const_less (y0 y1 x0 x1 om ph dT lam t : R) : R :=
  let e1 := (exp (((- dT) * lam) * (t - x1))) in
  let s1 := (sin (((om * t) - (om * (t - x1))) + ph)) in
  let c1 := (cos (((om * t) - (om * (t - x1))) + ph)) in
  let e2 := (exp (((- dT) * lam) * (t - x0))) in
  let s2 := (sin (((om * t) - (om * (t - x0))) + ph)) in
  let c2 := (cos (((om * t) - (om * (t - x0))) + ph)) in
  (((((- om) * (((e1 * s1) / (1 + ((om ^ 2) / ((dT ^ 2) * (lam ^ 2))))) - (((om * c1) * e1) / ((dT
  * lam) * (1 + ((om ^ 2) / ((dT ^ 2) * (lam ^ 2)))))))) * y0) / (dT * lam)) + (((om * (((e2 * s2)
  / (1 + ((om ^ 2) / ((dT ^ 2) * (lam ^ 2))))) - (((om * c2) * e2) / ((dT * lam) * (1 + ((om ^ 2)
  / ((dT ^ 2) * (lam ^ 2)))))))) * y0) / (dT * lam))).

(** integrals.py:5020-5020 (EDload_coslinear, vectorized, step) *)
Definition EDcos_vectorized_step (y0 y1 x0 x1 om ph dT lam t : R) : R :=
  let c1 := (cos ((om * x0) + ph)) in
  let e1 := (exp (((- dT) * lam) * (t - x0))) in
  ((c1 * e1) * (y1 - y0)).

(** integrals.py:5023-5251 (EDload_coslinear, vectorized, ramp_in) *)
Definition EDcos_vectorized_ramp_in (y0 y1 x0 x1 om ph dT lam t : R) : R :=
  let s1 := (sin ((om * t) + ph)) in
  let d1 := (/ (((((((((- dT) * lam) * x1) + ((dT * lam) * x0)) - (((2 * (om ^ 2)) * x1) / (dT * lam))) +
  (((2 * (om ^ 2)) * x0) / (dT * lam))) - (((om ^ 4) * x1) / ((dT ^ 3) * (lam ^ 3)))) + (((om ^ 4)
  * x0) / ((dT ^ 3) * (lam ^ 3)))) ^ 1)) in
  let e1 := (exp (((- dT) * lam) * (t - x0))) in
  let s2 := (sin (((om * t) - (om * (t - x0))) + ph)) in
  let c1 := (cos ((om * t) + ph)) in
  let c2 := (cos (((om * t) - (om * (t - x0))) + ph)) in
  (((((((((((((((((((((((((((((((((((((((((((((((((((((((om * t) * s1) * d1) * y1) - ((((om * t) *
  s1) * d1) * y0)) - (((((om * t) * d1) * e1) * s2) * y1)) + (((((om * t) * d1) * e1) * s2) * y0))
  + ((((om * s1) * x1) * d1) * y0)) - ((((om * s1) * x0) * d1) * y1)) + (((((om * d1) * (t - x0))
  * e1) * s2) * y1)) - (((((om * d1) * (t - x0)) * e1) * s2) * y0)) - (((((om * x1) * d1) * e1) *
  s2) * y0)) + (((((om * x0) * d1) * e1) * s2) * y1)) - ((c1 * d1) * y1)) + ((c1 * d1) * y0)) +
  (((d1 * c2) * e1) * y1)) - (((d1 * c2) * e1) * y0)) - ((((((om ^ 2) * t) * c1) * d1) * y1) / (dT
  * lam))) + ((((((om ^ 2) * t) * c1) * d1) * y0) / (dT * lam))) + (((((((om ^ 2) * t) * d1) * c2)
  * e1) * y1) / (dT * lam))) - (((((((om ^ 2) * t) * d1) * c2) * e1) * y0) / (dT * lam))) -
  ((((((om ^ 2) * c1) * x1) * d1) * y0) / (dT * lam))) + ((((((om ^ 2) * c1) * x0) * d1) * y1) /
  (dT * lam))) - (((((((om ^ 2) * d1) * (t - x0)) * c2) * e1) * y1) / (dT * lam))) + (((((((om ^
  2) * d1) * (t - x0)) * c2) * e1) * y0) / (dT * lam))) + (((((((om ^ 2) * x1) * d1) * c2) * e1) *
  y0) / (dT * lam))) - (((((((om ^ 2) * x0) * d1) * c2) * e1) * y1) / (dT * lam))) - (((((2 * om)
  * s1) * d1) * y1) / (dT * lam))) + (((((2 * om) * s1) * d1) * y0) / (dT * lam))) + ((((((2 * om)
  * d1) * e1) * s2) * y1) / (dT * lam))) - ((((((2 * om) * d1) * e1) * s2) * y0) / (dT * lam))) +
  ((((((om ^ 3) * t) * s1) * d1) * y1) / ((dT ^ 2) * (lam ^ 2)))) - ((((((om ^ 3) * t) * s1) * d1)
  * y0) / ((dT ^ 2) * (lam ^ 2)))) - (((((((om ^ 3) * t) * d1) * e1) * s2) * y1) / ((dT ^ 2) *
  (lam ^ 2)))) + (((((((om ^ 3) * t) * d1) * e1) * s2) * y0) / ((dT ^ 2) * (lam ^ 2)))) + ((((((om
  ^ 3) * s1) * x1) * d1) * y0) / ((dT ^ 2) * (lam ^ 2)))) - ((((((om ^ 3) * s1) * x0) * d1) * y1)
  / ((dT ^ 2) * (lam ^ 2)))) + (((((((om ^ 3) * d1) * (t - x0)) * e1) * s2) * y1) / ((dT ^ 2) *
  (lam ^ 2)))) - (((((((om ^ 3) * d1) * (t - x0)) * e1) * s2) * y0) / ((dT ^ 2) * (lam ^ 2)))) -
  (((((((om ^ 3) * x1) * d1) * e1) * s2) * y0) / ((dT ^ 2) * (lam ^ 2)))) + (((((((om ^ 3) * x0) *
  d1) * e1) * s2) * y1) / ((dT ^ 2) * (lam ^ 2)))) + (((((om ^ 2) * c1) * d1) * y1) / ((dT ^ 2) *
  (lam ^ 2)))) - (((((om ^ 2) * c1) * d1) * y0) / ((dT ^ 2) * (lam ^ 2)))) - ((((((om ^ 2) * d1) *
  c2) * e1) * y1) / ((dT ^ 2) * (lam ^ 2)))) + ((((((om ^ 2) * d1) * c2) * e1) * y0) / ((dT ^ 2) *
  (lam ^ 2)))) - ((((((om ^ 4) * t) * c1) * d1) * y1) / ((dT ^ 3) * (lam ^ 3)))) + ((((((om ^ 4) *
  t) * c1) * d1) * y0) / ((dT ^ 3) * (lam ^ 3)))) + (((((((om ^ 4) * t) * d1) * c2) * e1) * y1) /
  ((dT ^ 3) * (lam ^ 3)))) - (((((((om ^ 4) * t) * d1) * c2) * e1) * y0) / ((dT ^ 3) * (lam ^
  3)))) - ((((((om ^ 4) * c1) * x1) * d1) * y0) / ((dT ^ 3) * (lam ^ 3)))) + ((((((om ^ 4) * c1) *
  x0) * d1) * y1) / ((dT ^ 3) * (lam ^ 3)))) - (((((((om ^ 4) * d1) * (t - x0)) * c2) * e1) * y1)
  / ((dT ^ 3) * (lam ^ 3)))) + (((((((om ^ 4) * d1) * (t - x0)) * c2) * e1) * y0) / ((dT ^ 3) *
  (lam ^ 3)))) + (((((((om ^ 4) * x1) * d1) * c2) * e1) * y0) / ((dT ^ 3) * (lam ^ 3)))) -
  (((((((om ^ 4) * x0) * d1) * c2) * e1) * y1) / ((dT ^ 3) * (lam ^ 3)))).

(** integrals.py:5254-5547 (EDload_coslinear, vectorized, ramp_less) *)
Definition EDcos_vectorized_ramp_less (y0 y1 x0 x1 om ph dT lam t : R) : R :=
  let d1 := (/ (((((((((- dT) * lam) * x1) + ((dT * lam) * x0)) - (((2 * (om ^ 2)) * x1) / (dT * lam))) +
  (((2 * (om ^ 2)) * x0) / (dT * lam))) - (((om ^ 4) * x1) / ((dT ^ 3) * (lam ^ 3)))) + (((om ^ 4)
  * x0) / ((dT ^ 3) * (lam ^ 3)))) ^ 1)) in
  let e1 := (exp (((- dT) * lam) * (t - x0))) in
  let s1 := (sin (((om * t) - (om * (t - x0))) + ph)) in
  let e2 := (exp (((- dT) * lam) * (t - x1))) in
  let s2 := (sin (((om * t) - (om * (t - x1))) + ph)) in
  let c1 := (cos (((om * t) - (om * (t - x0))) + ph)) in
  let c2 := (cos (((om * t) - (om * (t - x1))) + ph)) in
  (((((((((((((((((((((((((((((((((((((((((((((((((((((((((((((((((- om) * t) * d1) * e1) * s1) *
  y1) + (((((om * t) * d1) * e1) * s1) * y0)) + (((((om * t) * e2) * s2) * d1) * y1)) - (((((om *
  t) * e2) * s2) * d1) * y0)) - (((((om * (t - x1)) * e2) * s2) * d1) * y1)) + (((((om * (t - x1))
  * e2) * s2) * d1) * y0)) + (((((om * d1) * (t - x0)) * e1) * s1) * y1)) - (((((om * d1) * (t -
  x0)) * e1) * s1) * y0)) - (((((om * e2) * s2) * x0) * d1) * y1)) - (((((om * x1) * d1) * e1) *
  s1) * y0)) + (((((om * x1) * e2) * s2) * d1) * y0)) + (((((om * x0) * d1) * e1) * s1) * y1)) +
  (((d1 * c1) * e1) * y1)) - (((d1 * c1) * e1) * y0)) - (((c2 * e2) * d1) * y1)) + (((c2 * e2) *
  d1) * y0)) + (((((((om ^ 2) * t) * d1) * c1) * e1) * y1) / (dT * lam))) - (((((((om ^ 2) * t) *
  d1) * c1) * e1) * y0) / (dT * lam))) - (((((((om ^ 2) * t) * c2) * e2) * d1) * y1) / (dT *
  lam))) + (((((((om ^ 2) * t) * c2) * e2) * d1) * y0) / (dT * lam))) + (((((((om ^ 2) * (t - x1))
  * c2) * e2) * d1) * y1) / (dT * lam))) - (((((((om ^ 2) * (t - x1)) * c2) * e2) * d1) * y0) /
  (dT * lam))) - (((((((om ^ 2) * d1) * (t - x0)) * c1) * e1) * y1) / (dT * lam))) + (((((((om ^
  2) * d1) * (t - x0)) * c1) * e1) * y0) / (dT * lam))) + (((((((om ^ 2) * c2) * e2) * x0) * d1) *
  y1) / (dT * lam))) + (((((((om ^ 2) * x1) * d1) * c1) * e1) * y0) / (dT * lam))) - (((((((om ^
  2) * x1) * c2) * e2) * d1) * y0) / (dT * lam))) - (((((((om ^ 2) * x0) * d1) * c1) * e1) * y1) /
  (dT * lam))) + ((((((2 * om) * d1) * e1) * s1) * y1) / (dT * lam))) - ((((((2 * om) * d1) * e1)
  * s1) * y0) / (dT * lam))) - ((((((2 * om) * e2) * s2) * d1) * y1) / (dT * lam))) + ((((((2 *
  om) * e2) * s2) * d1) * y0) / (dT * lam))) - (((((((om ^ 3) * t) * d1) * e1) * s1) * y1) / ((dT
  ^ 2) * (lam ^ 2)))) + (((((((om ^ 3) * t) * d1) * e1) * s1) * y0) / ((dT ^ 2) * (lam ^ 2)))) +
  (((((((om ^ 3) * t) * e2) * s2) * d1) * y1) / ((dT ^ 2) * (lam ^ 2)))) - (((((((om ^ 3) * t) *
  e2) * s2) * d1) * y0) / ((dT ^ 2) * (lam ^ 2)))) - (((((((om ^ 3) * (t - x1)) * e2) * s2) * d1)
  * y1) / ((dT ^ 2) * (lam ^ 2)))) + (((((((om ^ 3) * (t - x1)) * e2) * s2) * d1) * y0) / ((dT ^
  2) * (lam ^ 2)))) + (((((((om ^ 3) * d1) * (t - x0)) * e1) * s1) * y1) / ((dT ^ 2) * (lam ^
  2)))) - (((((((om ^ 3) * d1) * (t - x0)) * e1) * s1) * y0) / ((dT ^ 2) * (lam ^ 2)))) -
  (((((((om ^ 3) * e2) * s2) * x0) * d1) * y1) / ((dT ^ 2) * (lam ^ 2)))) - (((((((om ^ 3) * x1) *
  d1) * e1) * s1) * y0) / ((dT ^ 2) * (lam ^ 2)))) + (((((((om ^ 3) * x1) * e2) * s2) * d1) * y0)
  / ((dT ^ 2) * (lam ^ 2)))) + (((((((om ^ 3) * x0) * d1) * e1) * s1) * y1) / ((dT ^ 2) * (lam ^
  2)))) - ((((((om ^ 2) * d1) * c1) * e1) * y1) / ((dT ^ 2) * (lam ^ 2)))) + ((((((om ^ 2) * d1) *
  c1) * e1) * y0) / ((dT ^ 2) * (lam ^ 2)))) + ((((((om ^ 2) * c2) * e2) * d1) * y1) / ((dT ^ 2) *
  (lam ^ 2)))) - ((((((om ^ 2) * c2) * e2) * d1) * y0) / ((dT ^ 2) * (lam ^ 2)))) + (((((((om ^ 4)
  * t) * d1) * c1) * e1) * y1) / ((dT ^ 3) * (lam ^ 3)))) - (((((((om ^ 4) * t) * d1) * c1) * e1)
  * y0) / ((dT ^ 3) * (lam ^ 3)))) - (((((((om ^ 4) * t) * c2) * e2) * d1) * y1) / ((dT ^ 3) *
  (lam ^ 3)))) + (((((((om ^ 4) * t) * c2) * e2) * d1) * y0) / ((dT ^ 3) * (lam ^ 3)))) +
  (((((((om ^ 4) * (t - x1)) * c2) * e2) * d1) * y1) / ((dT ^ 3) * (lam ^ 3)))) - (((((((om ^ 4) *
  (t - x1)) * c2) * e2) * d1) * y0) / ((dT ^ 3) * (lam ^ 3)))) - (((((((om ^ 4) * d1) * (t - x0))
  * c1) * e1) * y1) / ((dT ^ 3) * (lam ^ 3)))) + (((((((om ^ 4) * d1) * (t - x0)) * c1) * e1) *
  y0) / ((dT ^ 3) * (lam ^ 3)))) + (((((((om ^ 4) * c2) * e2) * x0) * d1) * y1) / ((dT ^ 3) * (lam
  ^ 3)))) + (((((((om ^ 4) * x1) * d1) * c1) * e1) * y0) / ((dT ^ 3) * (lam ^ 3)))) - (((((((om ^
  4) * x1) * c2) * e2) * d1) * y0) / ((dT ^ 3) * (lam ^ 3)))) - (((((((om ^ 4) * x0) * d1) * c1) *
  e1) * y1) / ((dT ^ 3) * (lam ^ 3)))).

(** integrals.py:5550-5555 (EDload_coslinear, vectorized, const_in) *)
Definition EDcos_vectorized_const_in (y0 y1 x0 x1 om ph dT lam t : R) : R :=
  let s1 := (sin ((om * t) + ph)) in
  let c1 := (cos ((om * t) + ph)) in
  let e1 := (exp (((- dT) * lam) * (t - x0))) in
  let s2 := (sin (((om * t) - (om * (t - x0))) + ph)) in
  let c2 := (cos (((om * t) - (om * (t - x0))) + ph)) in
  (((((- om) * ((s1 / (1 + ((om ^ 2) / ((dT ^ 2) * (lam ^ 2))))) - ((om * c1) / ((dT * lam) * (1 +
  ((om ^ 2) / ((dT ^ 2) * (lam ^ 2)))))))) * y0) / (dT * lam)) + (((om * (((e1 * s2) / (1 + ((om ^
  2) / ((dT ^ 2) * (lam ^ 2))))) - (((om * c2) * e1) / ((dT * lam) * (1 + ((om ^ 2) / ((dT ^ 2) *
  (lam ^ 2)))))))) * y0) / (dT * lam))).

(** integrals.py:5558-5565 (EDload_coslinear, vectorized, const_less) *)
Definition EDcos_vectorized_const_less (y0 y1 x0 x1 om ph dT lam t : R) : R :=
  let e1 := (exp (((- dT) * lam) * (t - x1))) in
  let s1 := (sin (((om * t) - (om * (t - x1))) + ph)) in
  let c1 := (cos (((om * t) - (om * (t - x1))) + ph)) in
  let e2 := (exp (((- dT) * lam) * (t - x0))) in
  let s2 := (sin (((om * t) - (om * (t - x0))) + ph)) in
  let c2 := (cos (((om * t) - (om * (t - x0))) + ph)) in
  (((((- om) * (((e1 * s1) / (1 + ((om ^ 2) / ((dT ^ 2) * (lam ^ 2))))) - (((om * c1) * e1) / ((dT
  * lam) * (1 + ((om ^ 2) / ((dT ^ 2) * (lam ^ 2)))))))) * y0) / (dT * lam)) + (((om * (((e2 * s2)
  / (1 + ((om ^ 2) / ((dT ^ 2) * (lam ^ 2))))) - (((om * c2) * e2) / ((dT * lam) * (1 + ((om ^ 2)
  / ((dT ^ 2) * (lam ^ 2)))))))) * y0) / (dT * lam))).

(** integrals.py:5590-5595 (Eload_sinlinear, scalar, const_in) *)
Definition Esin_scalar_const_in (y0 y1 x0 x1 om ph dT lam t : R) : R :=
  let s1 := (sin ((om * t) + ph)) in
  let c1 := (cos ((om * t) + ph)) in
  let e1 := (exp (((- dT) * lam) * (t - x0))) in
  let s2 := (sin (((om * t) - (om * (t - x0))) + ph)) in
  let c2 := (cos (((om * t) - (om * (t - x0))) + ph)) in
  (((((s1 / (1 + ((om ^ 2) / ((dT ^ 2) * (lam ^ 2))))) - ((om * c1) / ((dT * lam) * (1 + ((om ^ 2)
  / ((dT ^ 2) * (lam ^ 2))))))) * y0) / (dT * lam)) - (((((e1 * s2) / (1 + ((om ^ 2) / ((dT ^ 2) *
  (lam ^ 2))))) - (((om * c2) * e1) / ((dT * lam) * (1 + ((om ^ 2) / ((dT ^ 2) * (lam ^ 2))))))) *
  y0) / (dT * lam))).

(** integrals.py:5598-5605 (Eload_sinlinear, scalar, const_less) *)
Definition Esin_scalar_const_less (y0 y1 x0 x1 om ph dT lam t : R) : R :=
  let e1 := (exp (((- dT) * lam) * (t - x1))) in
  let s1 := (sin (((om * t) - (om * (t - x1))) + ph)) in
  let c1 := (cos (((om * t) - (om * (t - x1))) + ph)) in
  let e2 := (exp (((- dT) * lam) * (t - x0))) in
  let s2 := (sin (((om * t) - (om * (t - x0))) + ph)) in
  let c2 := (cos (((om * t) - (om * (t - x0))) + ph)) in
  ((((((e1 * s1) / (1 + ((om ^ 2) / ((dT ^ 2) * (lam ^ 2))))) - (((om * c1) * e1) / ((dT * lam) *
  (1 + ((om ^ 2) / ((dT ^ 2) * (lam ^ 2))))))) * y0) / (dT * lam)) - (((((e2 * s2) / (1 + ((om ^
  2) / ((dT ^ 2) * (lam ^ 2))))) - (((om * c2) * e2) / ((dT * lam) * (1 + ((om ^ 2) / ((dT ^ 2) *
  (lam ^ 2))))))) * y0) / (dT * lam))).

(** integrals.py:5608-5837 (Eload_sinlinear, scalar, ramp_in) *)
Definition Esin_scalar_ramp_in (y0 y1 x0 x1 om ph dT lam t : R) : R :=
  let s1 := (sin ((om * t) + ph)) in
  let d1 := (/ (((((((((- dT) * lam) * x1) + ((dT * lam) * x0)) - (((2 * (om ^ 2)) * x1) / (dT * lam))) +
  (((2 * (om ^ 2)) * x0) / (dT * lam))) - (((om ^ 4) * x1) / ((dT ^ 3) * (lam ^ 3)))) + (((om ^ 4)
  * x0) / ((dT ^ 3) * (lam ^ 3)))) ^ 1)) in
  let c1 := (cos ((om * t) + ph)) in
  let e1 := (exp (((- dT) * lam) * (t - x0))) in
  let s2 := (sin (((om * t) - (om * (t - x0))) + ph)) in
  let c2 := (cos (((om * t) - (om * (t - x0))) + ph)) in
  (((((((((((((((((((((((((((((- dT) * lam) * t) * s1) * d1) * y1) + (((((dT * lam) * t) * s1) *
  d1) * y0)) - (((((dT * lam) * s1) * x1) * d1) * y0)) + (((((dT * lam) * s1) * x0) * d1) * y1)) +
  ((((om * t) * c1) * d1) * y1)) - ((((om * t) * c1) * d1) * y0)) + ((((om * c1) * x1) * d1) *
  y0)) - ((((om * c1) * x0) * d1) * y1)) + ((s1 * d1) * y1)) - ((s1 * d1) * y0)) - ((((((om ^ 2) *
  t) * s1) * d1) * y1) / (dT * lam))) + ((((((om ^ 2) * t) * s1) * d1) * y0) / (dT * lam))) -
  ((((((om ^ 2) * s1) * x1) * d1) * y0) / (dT * lam))) + ((((((om ^ 2) * s1) * x0) * d1) * y1) /
  (dT * lam))) - (((((2 * om) * c1) * d1) * y1) / (dT * lam))) + (((((2 * om) * c1) * d1) * y0) /
  (dT * lam))) + ((((((om ^ 3) * t) * c1) * d1) * y1) / ((dT ^ 2) * (lam ^ 2)))) - ((((((om ^ 3) *
  t) * c1) * d1) * y0) / ((dT ^ 2) * (lam ^ 2)))) + ((((((om ^ 3) * c1) * x1) * d1) * y0) / ((dT ^
  2) * (lam ^ 2)))) - ((((((om ^ 3) * c1) * x0) * d1) * y1) / ((dT ^ 2) * (lam ^ 2)))) - (((((om ^
  2) * s1) * d1) * y1) / ((dT ^ 2) * (lam ^ 2)))) + (((((om ^ 2) * s1) * d1) * y0) / ((dT ^ 2) *
  (lam ^ 2)))) / (dT * lam)) - (((((((((((((((((((((((((((((((((((((- dT) * lam) * t) * d1) * e1)
  * s2) * y1) + ((((((dT * lam) * t) * d1) * e1) * s2) * y0)) + ((((((dT * lam) * d1) * (t - x0))
  * e1) * s2) * y1)) - ((((((dT * lam) * d1) * (t - x0)) * e1) * s2) * y0)) - ((((((dT * lam) *
  x1) * d1) * e1) * s2) * y0)) + ((((((dT * lam) * x0) * d1) * e1) * s2) * y1)) + (((((om * t) *
  d1) * c2) * e1) * y1)) - (((((om * t) * d1) * c2) * e1) * y0)) - (((((om * d1) * (t - x0)) * c2)
  * e1) * y1)) + (((((om * d1) * (t - x0)) * c2) * e1) * y0)) + (((((om * x1) * d1) * c2) * e1) *
  y0)) - (((((om * x0) * d1) * c2) * e1) * y1)) + (((d1 * e1) * s2) * y1)) - (((d1 * e1) * s2) *
  y0)) - (((((((om ^ 2) * t) * d1) * e1) * s2) * y1) / (dT * lam))) + (((((((om ^ 2) * t) * d1) *
  e1) * s2) * y0) / (dT * lam))) + (((((((om ^ 2) * d1) * (t - x0)) * e1) * s2) * y1) / (dT *
  lam))) - (((((((om ^ 2) * d1) * (t - x0)) * e1) * s2) * y0) / (dT * lam))) - (((((((om ^ 2) *
  x1) * d1) * e1) * s2) * y0) / (dT * lam))) + (((((((om ^ 2) * x0) * d1) * e1) * s2) * y1) / (dT
  * lam))) - ((((((2 * om) * d1) * c2) * e1) * y1) / (dT * lam))) + ((((((2 * om) * d1) * c2) *
  e1) * y0) / (dT * lam))) + (((((((om ^ 3) * t) * d1) * c2) * e1) * y1) / ((dT ^ 2) * (lam ^
  2)))) - (((((((om ^ 3) * t) * d1) * c2) * e1) * y0) / ((dT ^ 2) * (lam ^ 2)))) - (((((((om ^ 3)
  * d1) * (t - x0)) * c2) * e1) * y1) / ((dT ^ 2) * (lam ^ 2)))) + (((((((om ^ 3) * d1) * (t -
  x0)) * c2) * e1) * y0) / ((dT ^ 2) * (lam ^ 2)))) + (((((((om ^ 3) * x1) * d1) * c2) * e1) * y0)
  / ((dT ^ 2) * (lam ^ 2)))) - (((((((om ^ 3) * x0) * d1) * c2) * e1) * y1) / ((dT ^ 2) * (lam ^
  2)))) - ((((((om ^ 2) * d1) * e1) * s2) * y1) / ((dT ^ 2) * (lam ^ 2)))) + ((((((om ^ 2) * d1) *
  e1) * s2) * y0) / ((dT ^ 2) * (lam ^ 2)))) / (dT * lam))).

(** integrals.py:5840-6128 (Eload_sinlinear, scalar, ramp_less) *)
Definition Esin_scalar_ramp_less (y0 y1 x0 x1 om ph dT lam t : R) : R :=
  let d1 := (/ (((((((((- dT) * lam) * x1) + ((dT * lam) * x0)) - (((2 * (om ^ 2)) * x1) / (dT * lam))) +
  (((2 * (om ^ 2)) * x0) / (dT * lam))) - (((om ^ 4) * x1) / ((dT ^ 3) * (lam ^ 3)))) + (((om ^ 4)
  * x0) / ((dT ^ 3) * (lam ^ 3)))) ^ 1)) in
  let e1 := (exp (((- dT) * lam) * (t - x0))) in
  let s1 := (sin (((om * t) - (om * (t - x0))) + ph)) in
  let c1 := (cos (((om * t) - (om * (t - x0))) + ph)) in
  let e2 := (exp (((- dT) * lam) * (t - x1))) in
  let s2 := (sin (((om * t) - (om * (t - x1))) + ph)) in
  let c2 := (cos (((om * t) - (om * (t - x1))) + ph)) in
  (((- ((((((((((((((((((((((((((((((((((((- dT) * lam) * t) * d1) * e1) * s1) * y1) + ((((((dT *
  lam) * t) * d1) * e1) * s1) * y0)) + ((((((dT * lam) * d1) * (t - x0)) * e1) * s1) * y1)) -
  ((((((dT * lam) * d1) * (t - x0)) * e1) * s1) * y0)) - ((((((dT * lam) * x1) * d1) * e1) * s1) *
  y0)) + ((((((dT * lam) * x0) * d1) * e1) * s1) * y1)) + (((((om * t) * d1) * c1) * e1) * y1)) -
  (((((om * t) * d1) * c1) * e1) * y0)) - (((((om * d1) * (t - x0)) * c1) * e1) * y1)) + (((((om *
  d1) * (t - x0)) * c1) * e1) * y0)) + (((((om * x1) * d1) * c1) * e1) * y0)) - (((((om * x0) *
  d1) * c1) * e1) * y1)) + (((d1 * e1) * s1) * y1)) - (((d1 * e1) * s1) * y0)) - (((((((om ^ 2) *
  t) * d1) * e1) * s1) * y1) / (dT * lam))) + (((((((om ^ 2) * t) * d1) * e1) * s1) * y0) / (dT *
  lam))) + (((((((om ^ 2) * d1) * (t - x0)) * e1) * s1) * y1) / (dT * lam))) - (((((((om ^ 2) *
  d1) * (t - x0)) * e1) * s1) * y0) / (dT * lam))) - (((((((om ^ 2) * x1) * d1) * e1) * s1) * y0)
  / (dT * lam))) + (((((((om ^ 2) * x0) * d1) * e1) * s1) * y1) / (dT * lam))) - ((((((2 * om) *
  d1) * c1) * e1) * y1) / (dT * lam))) + ((((((2 * om) * d1) * c1) * e1) * y0) / (dT * lam))) +
  (((((((om ^ 3) * t) * d1) * c1) * e1) * y1) / ((dT ^ 2) * (lam ^ 2)))) - (((((((om ^ 3) * t) *
  d1) * c1) * e1) * y0) / ((dT ^ 2) * (lam ^ 2)))) - (((((((om ^ 3) * d1) * (t - x0)) * c1) * e1)
  * y1) / ((dT ^ 2) * (lam ^ 2)))) + (((((((om ^ 3) * d1) * (t - x0)) * c1) * e1) * y0) / ((dT ^
  2) * (lam ^ 2)))) + (((((((om ^ 3) * x1) * d1) * c1) * e1) * y0) / ((dT ^ 2) * (lam ^ 2)))) -
  (((((((om ^ 3) * x0) * d1) * c1) * e1) * y1) / ((dT ^ 2) * (lam ^ 2)))) - ((((((om ^ 2) * d1) *
  e1) * s1) * y1) / ((dT ^ 2) * (lam ^ 2)))) + ((((((om ^ 2) * d1) * e1) * s1) * y0) / ((dT ^ 2) *
  (lam ^ 2))))) / (dT * lam)) + (((((((((((((((((((((((((((((((((((((- dT) * lam) * t) * e2) * s2)
  * d1) * y1) + ((((((dT * lam) * t) * e2) * s2) * d1) * y0)) + ((((((dT * lam) * (t - x1)) * e2)
  * s2) * d1) * y1)) - ((((((dT * lam) * (t - x1)) * e2) * s2) * d1) * y0)) + ((((((dT * lam) *
  e2) * s2) * x0) * d1) * y1)) - ((((((dT * lam) * x1) * e2) * s2) * d1) * y0)) + (((((om * t) *
  c2) * e2) * d1) * y1)) - (((((om * t) * c2) * e2) * d1) * y0)) - (((((om * (t - x1)) * c2) * e2)
  * d1) * y1)) + (((((om * (t - x1)) * c2) * e2) * d1) * y0)) - (((((om * c2) * e2) * x0) * d1) *
  y1)) + (((((om * x1) * c2) * e2) * d1) * y0)) + (((e2 * s2) * d1) * y1)) - (((e2 * s2) * d1) *
  y0)) - (((((((om ^ 2) * t) * e2) * s2) * d1) * y1) / (dT * lam))) + (((((((om ^ 2) * t) * e2) *
  s2) * d1) * y0) / (dT * lam))) + (((((((om ^ 2) * (t - x1)) * e2) * s2) * d1) * y1) / (dT *
  lam))) - (((((((om ^ 2) * (t - x1)) * e2) * s2) * d1) * y0) / (dT * lam))) + (((((((om ^ 2) *
  e2) * s2) * x0) * d1) * y1) / (dT * lam))) - (((((((om ^ 2) * x1) * e2) * s2) * d1) * y0) / (dT
  * lam))) - ((((((2 * om) * c2) * e2) * d1) * y1) / (dT * lam))) + ((((((2 * om) * c2) * e2) *
  d1) * y0) / (dT * lam))) + (((((((om ^ 3) * t) * c2) * e2) * d1) * y1) / ((dT ^ 2) * (lam ^
  2)))) - (((((((om ^ 3) * t) * c2) * e2) * d1) * y0) / ((dT ^ 2) * (lam ^ 2)))) - (((((((om ^ 3)
  * (t - x1)) * c2) * e2) * d1) * y1) / ((dT ^ 2) * (lam ^ 2)))) + (((((((om ^ 3) * (t - x1)) *
  c2) * e2) * d1) * y0) / ((dT ^ 2) * (lam ^ 2)))) - (((((((om ^ 3) * c2) * e2) * x0) * d1) * y1)
  / ((dT ^ 2) * (lam ^ 2)))) + (((((((om ^ 3) * x1) * c2) * e2) * d1) * y0) / ((dT ^ 2) * (lam ^
  2)))) - ((((((om ^ 2) * e2) * s2) * d1) * y1) / ((dT ^ 2) * (lam ^ 2)))) + ((((((om ^ 2) * e2) *
  s2) * d1) * y0) / ((dT ^ 2) * (lam ^ 2)))) / (dT * lam))).

(** integrals.py:6153-6158 (Eload_sinlinear, vectorized, const_in) *)
Definition Esin_vectorized_const_in (y0 y1 x0 x1 om ph dT lam t : R) : R :=
  let s1 := (sin ((om * t) + ph)) in
  let c1 := (cos ((om * t) + ph)) in
  let e1 := (exp (((- dT) * lam) * (t - x0))) in
  let s2 := (sin (((om * t) - (om * (t - x0))) + ph)) in
  let c2 := (cos (((om * t) - (om * (t - x0))) + ph)) in
  (((((s1 / (1 + ((om ^ 2) / ((dT ^ 2) * (lam ^ 2))))) - ((om * c1) / ((dT * lam) * (1 + ((om ^ 2)
  / ((dT ^ 2) * (lam ^ 2))))))) * y0) / (dT * lam)) - (((((e1 * s2) / (1 + ((om ^ 2) / ((dT ^ 2) *
  (lam ^ 2))))) - (((om * c2) * e1) / ((dT * lam) * (1 + ((om ^ 2) / ((dT ^ 2) * (lam ^ 2))))))) *
  y0) / (dT * lam))).

(** integrals.py:6162-6169 (Eload_sinlinear, vectorized, const_less) *)
Definition Esin_vectorized_const_less (y0 y1 x0 x1 om ph dT lam t : R) : R :=
  let e1 := (exp (((- dT) * lam) * (t - x1))) in
  let s1 := (sin (((om * t) - (om * (t - x1))) + ph)) in
  let c1 := (cos (((om * t) - (om * (t - x1))) + ph)) in
  let e2 := (exp (((- dT) * lam) * (t - x0))) in
  let s2 := (sin (((om * t) - (om * (t - x0))) + ph)) in
  let c2 := (cos (((om * t) - (om * (t - x0))) + ph)) in
  ((((((e1 * s1) / (1 + ((om ^ 2) / ((dT ^ 2) * (lam ^ 2))))) - (((om * c1) * e1) / ((dT * lam) *
  (1 + ((om ^ 2) / ((dT ^ 2) * (lam ^ 2))))))) * y0) / (dT * lam)) - (((((e2 * s2) / (1 + ((om ^
  2) / ((dT ^ 2) * (lam ^ 2))))) - (((om * c2) * e2) / ((dT * lam) * (1 + ((om ^ 2) / ((dT ^ 2) *
  (lam ^ 2))))))) * y0) / (dT * lam))).

(** integrals.py:6173-6402 (Eload_sinlinear, vectorized, ramp_in) *)
Definition Esin_vectorized_ramp_in (y0 y1 x0 x1 om ph dT lam t : R) : R :=
  let s1 := (sin ((om * t) + ph)) in
  let d1 := (/ (((((((((- dT) * lam) * x1) + ((dT * lam) * x0)) - (((2 * (om ^ 2)) * x1) / (dT * lam))) +
  (((2 * (om ^ 2)) * x0) / (dT * lam))) - (((om ^ 4) * x1) / ((dT ^ 3) * (lam ^ 3)))) + (((om ^ 4)
  * x0) / ((dT ^ 3) * (lam ^ 3)))) ^ 1)) in
  let c1 := (cos ((om * t) + ph)) in
  let e1 := (exp (((- dT) * lam) * (t - x0))) in
  let s2 := (sin (((om * t) - (om * (t - x0))) + ph)) in
  let c2 := (cos (((om * t) - (om * (t - x0))) + ph)) in
  (((((((((((((((((((((((((((((- dT) * lam) * t) * s1) * d1) * y1) + (((((dT * lam) * t) * s1) *
  d1) * y0)) - (((((dT * lam) * s1) * x1) * d1) * y0)) + (((((dT * lam) * s1) * x0) * d1) * y1)) +
  ((((om * t) * c1) * d1) * y1)) - ((((om * t) * c1) * d1) * y0)) + ((((om * c1) * x1) * d1) *
  y0)) - ((((om * c1) * x0) * d1) * y1)) + ((s1 * d1) * y1)) - ((s1 * d1) * y0)) - ((((((om ^ 2) *
  t) * s1) * d1) * y1) / (dT * lam))) + ((((((om ^ 2) * t) * s1) * d1) * y0) / (dT * lam))) -
  ((((((om ^ 2) * s1) * x1) * d1) * y0) / (dT * lam))) + ((((((om ^ 2) * s1) * x0) * d1) * y1) /
  (dT * lam))) - (((((2 * om) * c1) * d1) * y1) / (dT * lam))) + (((((2 * om) * c1) * d1) * y0) /
  (dT * lam))) + ((((((om ^ 3) * t) * c1) * d1) * y1) / ((dT ^ 2) * (lam ^ 2)))) - ((((((om ^ 3) *
  t) * c1) * d1) * y0) / ((dT ^ 2) * (lam ^ 2)))) + ((((((om ^ 3) * c1) * x1) * d1) * y0) / ((dT ^
  2) * (lam ^ 2)))) - ((((((om ^ 3) * c1) * x0) * d1) * y1) / ((dT ^ 2) * (lam ^ 2)))) - (((((om ^
  2) * s1) * d1) * y1) / ((dT ^ 2) * (lam ^ 2)))) + (((((om ^ 2) * s1) * d1) * y0) / ((dT ^ 2) *
  (lam ^ 2)))) / (dT * lam)) - (((((((((((((((((((((((((((((((((((((- dT) * lam) * t) * d1) * e1)
  * s2) * y1) + ((((((dT * lam) * t) * d1) * e1) * s2) * y0)) + ((((((dT * lam) * d1) * (t - x0))
  * e1) * s2) * y1)) - ((((((dT * lam) * d1) * (t - x0)) * e1) * s2) * y0)) - ((((((dT * lam) *
  x1) * d1) * e1) * s2) * y0)) + ((((((dT * lam) * x0) * d1) * e1) * s2) * y1)) + (((((om * t) *
  d1) * c2) * e1) * y1)) - (((((om * t) * d1) * c2) * e1) * y0)) - (((((om * d1) * (t - x0)) * c2)
  * e1) * y1)) + (((((om * d1) * (t - x0)) * c2) * e1) * y0)) + (((((om * x1) * d1) * c2) * e1) *
  y0)) - (((((om * x0) * d1) * c2) * e1) * y1)) + (((d1 * e1) * s2) * y1)) - (((d1 * e1) * s2) *
  y0)) - (((((((om ^ 2) * t) * d1) * e1) * s2) * y1) / (dT * lam))) + (((((((om ^ 2) * t) * d1) *
  e1) * s2) * y0) / (dT * lam))) + (((((((om ^ 2) * d1) * (t - x0)) * e1) * s2) * y1) / (dT *
  lam))) - (((((((om ^ 2) * d1) * (t - x0)) * e1) * s2) * y0) / (dT * lam))) - (((((((om ^ 2) *
  x1) * d1) * e1) * s2) * y0) / (dT * lam))) + (((((((om ^ 2) * x0) * d1) * e1) * s2) * y1) / (dT
  * lam))) - ((((((2 * om) * d1) * c2) * e1) * y1) / (dT * lam))) + ((((((2 * om) * d1) * c2) *
  e1) * y0) / (dT * lam))) + (((((((om ^ 3) * t) * d1) * c2) * e1) * y1) / ((dT ^ 2) * (lam ^
  2)))) - (((((((om ^ 3) * t) * d1) * c2) * e1) * y0) / ((dT ^ 2) * (lam ^ 2)))) - (((((((om ^ 3)
  * d1) * (t - x0)) * c2) * e1) * y1) / ((dT ^ 2) * (lam ^ 2)))) + (((((((om ^ 3) * d1) * (t -
  x0)) * c2) * e1) * y0) / ((dT ^ 2) * (lam ^ 2)))) + (((((((om ^ 3) * x1) * d1) * c2) * e1) * y0)
  / ((dT ^ 2) * (lam ^ 2)))) - (((((((om ^ 3) * x0) * d1) * c2) * e1) * y1) / ((dT ^ 2) * (lam ^
  2)))) - ((((((om ^ 2) * d1) * e1) * s2) * y1) / ((dT ^ 2) * (lam ^ 2)))) + ((((((om ^ 2) * d1) *
  e1) * s2) * y0) / ((dT ^ 2) * (lam ^ 2)))) / (dT * lam))).

(** integrals.py:6406-6694 (Eload_sinlinear, vectorized, ramp_less) *)
Definition Esin_vectorized_ramp_less (y0 y1 x0 x1 om ph dT lam t : R) : R :=
  let d1 := (/ (((((((((- dT) * lam) * x1) + ((dT * lam) * x0)) - (((2 * (om ^ 2)) * x1) / (dT * lam))) +
  (((2 * (om ^ 2)) * x0) / (dT * lam))) - (((om ^ 4) * x1) / ((dT ^ 3) * (lam ^ 3)))) + (((om ^ 4)
  * x0) / ((dT ^ 3) * (lam ^ 3)))) ^ 1)) in
  let e1 := (exp (((- dT) * lam) * (t - x0))) in
  let s1 := (sin (((om * t) - (om * (t - x0))) + ph)) in
  let c1 := (cos (((om * t) - (om * (t - x0))) + ph)) in
  let e2 := (exp (((- dT) * lam) * (t - x1))) in
  let s2 := (sin (((om * t) - (om * (t - x1))) + ph)) in
  let c2 := (cos (((om * t) - (om * (t - x1))) + ph)) in
  (((- ((((((((((((((((((((((((((((((((((((- dT) * lam) * t) * d1) * e1) * s1) * y1) + ((((((dT *
  lam) * t) * d1) * e1) * s1) * y0)) + ((((((dT * lam) * d1) * (t - x0)) * e1) * s1) * y1)) -
  ((((((dT * lam) * d1) * (t - x0)) * e1) * s1) * y0)) - ((((((dT * lam) * x1) * d1) * e1) * s1) *
  y0)) + ((((((dT * lam) * x0) * d1) * e1) * s1) * y1)) + (((((om * t) * d1) * c1) * e1) * y1)) -
  (((((om * t) * d1) * c1) * e1) * y0)) - (((((om * d1) * (t - x0)) * c1) * e1) * y1)) + (((((om *
  d1) * (t - x0)) * c1) * e1) * y0)) + (((((om * x1) * d1) * c1) * e1) * y0)) - (((((om * x0) *
  d1) * c1) * e1) * y1)) + (((d1 * e1) * s1) * y1)) - (((d1 * e1) * s1) * y0)) - (((((((om ^ 2) *
  t) * d1) * e1) * s1) * y1) / (dT * lam))) + (((((((om ^ 2) * t) * d1) * e1) * s1) * y0) / (dT *
  lam))) + (((((((om ^ 2) * d1) * (t - x0)) * e1) * s1) * y1) / (dT * lam))) - (((((((om ^ 2) *
  d1) * (t - x0)) * e1) * s1) * y0) / (dT * lam))) - (((((((om ^ 2) * x1) * d1) * e1) * s1) * y0)
  / (dT * lam))) + (((((((om ^ 2) * x0) * d1) * e1) * s1) * y1) / (dT * lam))) - ((((((2 * om) *
  d1) * c1) * e1) * y1) / (dT * lam))) + ((((((2 * om) * d1) * c1) * e1) * y0) / (dT * lam))) +
  (((((((om ^ 3) * t) * d1) * c1) * e1) * y1) / ((dT ^ 2) * (lam ^ 2)))) - (((((((om ^ 3) * t) *
  d1) * c1) * e1) * y0) / ((dT ^ 2) * (lam ^ 2)))) - (((((((om ^ 3) * d1) * (t - x0)) * c1) * e1)
  * y1) / ((dT ^ 2) * (lam ^ 2)))) + (((((((om ^ 3) * d1) * (t - x0)) * c1) * e1) * y0) / ((dT ^
  2) * (lam ^ 2)))) + (((((((om ^ 3) * x1) * d1) * c1) * e1) * y0) / ((dT ^ 2) * (lam ^ 2)))) -
  (((((((om ^ 3) * x0) * d1) * c1) * e1) * y1) / ((dT ^ 2) * (lam ^ 2)))) - ((((((om ^ 2) * d1) *
  e1) * s1) * y1) / ((dT ^ 2) * (lam ^ 2)))) + ((((((om ^ 2) * d1) * e1) * s1) * y0) / ((dT ^ 2) *
  (lam ^ 2))))) / (dT * lam)) + (((((((((((((((((((((((((((((((((((((- dT) * lam) * t) * e2) * s2)
  * d1) * y1) + ((((((dT * lam) * t) * e2) * s2) * d1) * y0)) + ((((((dT * lam) * (t - x1)) * e2)
  * s2) * d1) * y1)) - ((((((dT * lam) * (t - x1)) * e2) * s2) * d1) * y0)) + ((((((dT * lam) *
  e2) * s2) * x0) * d1) * y1)) - ((((((dT * lam) * x1) * e2) * s2) * d1) * y0)) + (((((om * t) *
  c2) * e2) * d1) * y1)) - (((((om * t) * c2) * e2) * d1) * y0)) - (((((om * (t - x1)) * c2) * e2)
  * d1) * y1)) + (((((om * (t - x1)) * c2) * e2) * d1) * y0)) - (((((om * c2) * e2) * x0) * d1) *
  y1)) + (((((om * x1) * c2) * e2) * d1) * y0)) + (((e2 * s2) * d1) * y1)) - (((e2 * s2) * d1) *
  y0)) - (((((((om ^ 2) * t) * e2) * s2) * d1) * y1) / (dT * lam))) + (((((((om ^ 2) * t) * e2) *
  s2) * d1) * y0) / (dT * lam))) + (((((((om ^ 2) * (t - x1)) * e2) * s2) * d1) * y1) / (dT *
  lam))) - (((((((om ^ 2) * (t - x1)) * e2) * s2) * d1) * y0) / (dT * lam))) + (((((((om ^ 2) *
  e2) * s2) * x0) * d1) * y1) / (dT * lam))) - (((((((om ^ 2) * x1) * e2) * s2) * d1) * y0) / (dT
  * lam))) - ((((((2 * om) * c2) * e2) * d1) * y1) / (dT * lam))) + ((((((2 * om) * c2) * e2) *
  d1) * y0) / (dT * lam))) + (((((((om ^ 3) * t) * c2) * e2) * d1) * y1) / ((dT ^ 2) * (lam ^
  2)))) - (((((((om ^ 3) * t) * c2) * e2) * d1) * y0) / ((dT ^ 2) * (lam ^ 2)))) - (((((((om ^ 3)
  * (t - x1)) * c2) * e2) * d1) * y1) / ((dT ^ 2) * (lam ^ 2)))) + (((((((om ^ 3) * (t - x1)) *
  c2) * e2) * d1) * y0) / ((dT ^ 2) * (lam ^ 2)))) - (((((((om ^ 3) * c2) * e2) * x0) * d1) * y1)
  / ((dT ^ 2) * (lam ^ 2)))) + (((((((om ^ 3) * x1) * c2) * e2) * d1) * y0) / ((dT ^ 2) * (lam ^
  2)))) - ((((((om ^ 2) * e2) * s2) * d1) * y1) / ((dT ^ 2) * (lam ^ 2)))) + ((((((om ^ 2) * e2) *
  s2) * d1) * y0) / ((dT ^ 2) * (lam ^ 2)))) / (dT * lam))).
