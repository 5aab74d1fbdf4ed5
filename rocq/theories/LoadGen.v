(** Generated from /repo/geotecha/speccon/integrals.py by tools/gen_integrals.py; do not edit.
    One real expression per load segment: x0, x1 = loadtim[k], loadtim[k+1]; y0, y1 = loadmag[k], loadmag[k+1]. *)
From Coq Require Import Reals.
Open Scope R_scope.

(** integrals.py:2787-2787 (Eload_linear, scalar, const_in) *)
Definition Eload_scalar_const_in (y0 x0 dT lam t : R) : R :=
  ((((- (exp (((- dT) * lam) * (t - x0)))) * y0) / (dT * lam)) + (y0 / (dT * lam))).

(** integrals.py:2790-2791 (Eload_linear, scalar, const_less) *)
Definition Eload_scalar_const_less (y0 x0 x1 dT lam t : R) : R :=
  ((((exp (((- dT) * lam) * (t - x1))) * y0) / (dT * lam)) - (((exp (((- dT) * lam) * (t - x0))) *
  y0) / (dT * lam))).

(** integrals.py:2794-2813 (Eload_linear, scalar, ramp_in) *)
Definition Eload_scalar_ramp_in (y0 y1 x0 x1 dT lam t : R) : R :=
  ((((((((((((- dT) * lam) * t) * (/ (((((- dT) * lam) * x1) + ((dT * lam) * x0)) ^ 1))) * y1) +
  ((((dT * lam) * t) * (/ (((((- dT) * lam) * x1) + ((dT * lam) * x0)) ^ 1))) * y0)) - ((((dT *
  lam) * x1) * (/ (((((- dT) * lam) * x1) + ((dT * lam) * x0)) ^ 1))) * y0)) + ((((dT * lam) * x0)
  * (/ (((((- dT) * lam) * x1) + ((dT * lam) * x0)) ^ 1))) * y1)) + ((/ (((((- dT) * lam) * x1) +
  ((dT * lam) * x0)) ^ 1)) * y1)) - ((/ (((((- dT) * lam) * x1) + ((dT * lam) * x0)) ^ 1)) * y0))
  / (dT * lam)) - ((((((((((((((- dT) * lam) * t) * (/ (((((- dT) * lam) * x1) + ((dT * lam) *
  x0)) ^ 1))) * (exp (((- dT) * lam) * (t - x0)))) * y1) + (((((dT * lam) * t) * (/ (((((- dT) *
  lam) * x1) + ((dT * lam) * x0)) ^ 1))) * (exp (((- dT) * lam) * (t - x0)))) * y0)) + (((((dT *
  lam) * (/ (((((- dT) * lam) * x1) + ((dT * lam) * x0)) ^ 1))) * (t - x0)) * (exp (((- dT) * lam)
  * (t - x0)))) * y1)) - (((((dT * lam) * (/ (((((- dT) * lam) * x1) + ((dT * lam) * x0)) ^ 1))) *
  (t - x0)) * (exp (((- dT) * lam) * (t - x0)))) * y0)) - (((((dT * lam) * x1) * (/ (((((- dT) *
  lam) * x1) + ((dT * lam) * x0)) ^ 1))) * (exp (((- dT) * lam) * (t - x0)))) * y0)) + (((((dT *
  lam) * x0) * (/ (((((- dT) * lam) * x1) + ((dT * lam) * x0)) ^ 1))) * (exp (((- dT) * lam) * (t
  - x0)))) * y1)) + (((/ (((((- dT) * lam) * x1) + ((dT * lam) * x0)) ^ 1)) * (exp (((- dT) * lam)
  * (t - x0)))) * y1)) - (((/ (((((- dT) * lam) * x1) + ((dT * lam) * x0)) ^ 1)) * (exp (((- dT) *
  lam) * (t - x0)))) * y0)) / (dT * lam))).

(** integrals.py:2816-2842 (Eload_linear, scalar, ramp_less) *)
Definition Eload_scalar_ramp_less (y0 y1 x0 x1 dT lam t : R) : R :=
  (((- (((((((((((((- dT) * lam) * t) * (/ (((((- dT) * lam) * x1) + ((dT * lam) * x0)) ^ 1))) *
  (exp (((- dT) * lam) * (t - x0)))) * y1) + (((((dT * lam) * t) * (/ (((((- dT) * lam) * x1) +
  ((dT * lam) * x0)) ^ 1))) * (exp (((- dT) * lam) * (t - x0)))) * y0)) + (((((dT * lam) * (/
  (((((- dT) * lam) * x1) + ((dT * lam) * x0)) ^ 1))) * (t - x0)) * (exp (((- dT) * lam) * (t -
  x0)))) * y1)) - (((((dT * lam) * (/ (((((- dT) * lam) * x1) + ((dT * lam) * x0)) ^ 1))) * (t -
  x0)) * (exp (((- dT) * lam) * (t - x0)))) * y0)) - (((((dT * lam) * x1) * (/ (((((- dT) * lam) *
  x1) + ((dT * lam) * x0)) ^ 1))) * (exp (((- dT) * lam) * (t - x0)))) * y0)) + (((((dT * lam) *
  x0) * (/ (((((- dT) * lam) * x1) + ((dT * lam) * x0)) ^ 1))) * (exp (((- dT) * lam) * (t -
  x0)))) * y1)) + (((/ (((((- dT) * lam) * x1) + ((dT * lam) * x0)) ^ 1)) * (exp (((- dT) * lam) *
  (t - x0)))) * y1)) - (((/ (((((- dT) * lam) * x1) + ((dT * lam) * x0)) ^ 1)) * (exp (((- dT) *
  lam) * (t - x0)))) * y0))) / (dT * lam)) + ((((((((((((((- dT) * lam) * t) * (exp (((- dT) *
  lam) * (t - x1)))) * (/ (((((- dT) * lam) * x1) + ((dT * lam) * x0)) ^ 1))) * y1) + (((((dT *
  lam) * t) * (exp (((- dT) * lam) * (t - x1)))) * (/ (((((- dT) * lam) * x1) + ((dT * lam) * x0))
  ^ 1))) * y0)) + (((((dT * lam) * (t - x1)) * (exp (((- dT) * lam) * (t - x1)))) * (/ (((((- dT)
  * lam) * x1) + ((dT * lam) * x0)) ^ 1))) * y1)) - (((((dT * lam) * (t - x1)) * (exp (((- dT) *
  lam) * (t - x1)))) * (/ (((((- dT) * lam) * x1) + ((dT * lam) * x0)) ^ 1))) * y0)) + (((((dT *
  lam) * (exp (((- dT) * lam) * (t - x1)))) * x0) * (/ (((((- dT) * lam) * x1) + ((dT * lam) *
  x0)) ^ 1))) * y1)) - (((((dT * lam) * x1) * (exp (((- dT) * lam) * (t - x1)))) * (/ (((((- dT) *
  lam) * x1) + ((dT * lam) * x0)) ^ 1))) * y0)) + (((exp (((- dT) * lam) * (t - x1))) * (/ (((((-
  dT) * lam) * x1) + ((dT * lam) * x0)) ^ 1))) * y1)) - (((exp (((- dT) * lam) * (t - x1))) * (/
  (((((- dT) * lam) * x1) + ((dT * lam) * x0)) ^ 1))) * y0)) / (dT * lam))).

(** integrals.py:2867-2867 (Eload_linear, vectorized, const_in) *)
Definition Eload_vectorized_const_in (y0 x0 dT lam t : R) : R :=
  ((((- (exp (((- dT) * lam) * (t - x0)))) * y0) / (dT * lam)) + (y0 / (dT * lam))).

(** integrals.py:2871-2872 (Eload_linear, vectorized, const_less) *)
Definition Eload_vectorized_const_less (y0 x0 x1 dT lam t : R) : R :=
  ((((exp (((- dT) * lam) * (t - x1))) * y0) / (dT * lam)) - (((exp (((- dT) * lam) * (t - x0))) *
  y0) / (dT * lam))).

(** integrals.py:2876-2895 (Eload_linear, vectorized, ramp_in) *)
Definition Eload_vectorized_ramp_in (y0 y1 x0 x1 dT lam t : R) : R :=
  ((((((((((((- dT) * lam) * t) * (/ (((((- dT) * lam) * x1) + ((dT * lam) * x0)) ^ 1))) * y1) +
  ((((dT * lam) * t) * (/ (((((- dT) * lam) * x1) + ((dT * lam) * x0)) ^ 1))) * y0)) - ((((dT *
  lam) * x1) * (/ (((((- dT) * lam) * x1) + ((dT * lam) * x0)) ^ 1))) * y0)) + ((((dT * lam) * x0)
  * (/ (((((- dT) * lam) * x1) + ((dT * lam) * x0)) ^ 1))) * y1)) + ((/ (((((- dT) * lam) * x1) +
  ((dT * lam) * x0)) ^ 1)) * y1)) - ((/ (((((- dT) * lam) * x1) + ((dT * lam) * x0)) ^ 1)) * y0))
  / (dT * lam)) - ((((((((((((((- dT) * lam) * t) * (/ (((((- dT) * lam) * x1) + ((dT * lam) *
  x0)) ^ 1))) * (exp (((- dT) * lam) * (t - x0)))) * y1) + (((((dT * lam) * t) * (/ (((((- dT) *
  lam) * x1) + ((dT * lam) * x0)) ^ 1))) * (exp (((- dT) * lam) * (t - x0)))) * y0)) + (((((dT *
  lam) * (/ (((((- dT) * lam) * x1) + ((dT * lam) * x0)) ^ 1))) * (t - x0)) * (exp (((- dT) * lam)
  * (t - x0)))) * y1)) - (((((dT * lam) * (/ (((((- dT) * lam) * x1) + ((dT * lam) * x0)) ^ 1))) *
  (t - x0)) * (exp (((- dT) * lam) * (t - x0)))) * y0)) - (((((dT * lam) * x1) * (/ (((((- dT) *
  lam) * x1) + ((dT * lam) * x0)) ^ 1))) * (exp (((- dT) * lam) * (t - x0)))) * y0)) + (((((dT *
  lam) * x0) * (/ (((((- dT) * lam) * x1) + ((dT * lam) * x0)) ^ 1))) * (exp (((- dT) * lam) * (t
  - x0)))) * y1)) + (((/ (((((- dT) * lam) * x1) + ((dT * lam) * x0)) ^ 1)) * (exp (((- dT) * lam)
  * (t - x0)))) * y1)) - (((/ (((((- dT) * lam) * x1) + ((dT * lam) * x0)) ^ 1)) * (exp (((- dT) *
  lam) * (t - x0)))) * y0)) / (dT * lam))).

(** integrals.py:2899-2925 (Eload_linear, vectorized, ramp_less) *)
Definition Eload_vectorized_ramp_less (y0 y1 x0 x1 dT lam t : R) : R :=
  (((- (((((((((((((- dT) * lam) * t) * (/ (((((- dT) * lam) * x1) + ((dT * lam) * x0)) ^ 1))) *
  (exp (((- dT) * lam) * (t - x0)))) * y1) + (((((dT * lam) * t) * (/ (((((- dT) * lam) * x1) +
  ((dT * lam) * x0)) ^ 1))) * (exp (((- dT) * lam) * (t - x0)))) * y0)) + (((((dT * lam) * (/
  (((((- dT) * lam) * x1) + ((dT * lam) * x0)) ^ 1))) * (t - x0)) * (exp (((- dT) * lam) * (t -
  x0)))) * y1)) - (((((dT * lam) * (/ (((((- dT) * lam) * x1) + ((dT * lam) * x0)) ^ 1))) * (t -
  x0)) * (exp (((- dT) * lam) * (t - x0)))) * y0)) - (((((dT * lam) * x1) * (/ (((((- dT) * lam) *
  x1) + ((dT * lam) * x0)) ^ 1))) * (exp (((- dT) * lam) * (t - x0)))) * y0)) + (((((dT * lam) *
  x0) * (/ (((((- dT) * lam) * x1) + ((dT * lam) * x0)) ^ 1))) * (exp (((- dT) * lam) * (t -
  x0)))) * y1)) + (((/ (((((- dT) * lam) * x1) + ((dT * lam) * x0)) ^ 1)) * (exp (((- dT) * lam) *
  (t - x0)))) * y1)) - (((/ (((((- dT) * lam) * x1) + ((dT * lam) * x0)) ^ 1)) * (exp (((- dT) *
  lam) * (t - x0)))) * y0))) / (dT * lam)) + ((((((((((((((- dT) * lam) * t) * (exp (((- dT) *
  lam) * (t - x1)))) * (/ (((((- dT) * lam) * x1) + ((dT * lam) * x0)) ^ 1))) * y1) + (((((dT *
  lam) * t) * (exp (((- dT) * lam) * (t - x1)))) * (/ (((((- dT) * lam) * x1) + ((dT * lam) * x0))
  ^ 1))) * y0)) + (((((dT * lam) * (t - x1)) * (exp (((- dT) * lam) * (t - x1)))) * (/ (((((- dT)
  * lam) * x1) + ((dT * lam) * x0)) ^ 1))) * y1)) - (((((dT * lam) * (t - x1)) * (exp (((- dT) *
  lam) * (t - x1)))) * (/ (((((- dT) * lam) * x1) + ((dT * lam) * x0)) ^ 1))) * y0)) + (((((dT *
  lam) * (exp (((- dT) * lam) * (t - x1)))) * x0) * (/ (((((- dT) * lam) * x1) + ((dT * lam) *
  x0)) ^ 1))) * y1)) - (((((dT * lam) * x1) * (exp (((- dT) * lam) * (t - x1)))) * (/ (((((- dT) *
  lam) * x1) + ((dT * lam) * x0)) ^ 1))) * y0)) + (((exp (((- dT) * lam) * (t - x1))) * (/ (((((-
  dT) * lam) * x1) + ((dT * lam) * x0)) ^ 1))) * y1)) - (((exp (((- dT) * lam) * (t - x1))) * (/
  (((((- dT) * lam) * x1) + ((dT * lam) * x0)) ^ 1))) * y0)) / (dT * lam))).

(** integrals.py:3048-3048 (EDload_linear, scalar, step) *)
Definition EDload_scalar_step (y0 y1 x0 dT lam t : R) : R :=
  ((exp (((- dT) * lam) * (t - x0))) * (y1 - y0)).

(** integrals.py:3051-3053 (EDload_linear, scalar, ramp_in) *)
Definition EDload_scalar_ramp_in (y0 y1 x0 x1 dT lam t : R) : R :=
  ((((/ ((x1 - x0) ^ 1)) * (y1 - y0)) / (dT * lam)) - ((((/ ((x1 - x0) ^ 1)) * (exp (((- dT) *
  lam) * (t - x0)))) * (y1 - y0)) / (dT * lam))).

(** integrals.py:3056-3058 (EDload_linear, scalar, ramp_less) *)
Definition EDload_scalar_ramp_less (y0 y1 x0 x1 dT lam t : R) : R :=
  (((((- (/ ((x1 - x0) ^ 1))) * (exp (((- dT) * lam) * (t - x0)))) * (y1 - y0)) / (dT * lam)) +
  ((((exp (((- dT) * lam) * (t - x1))) * (/ ((x1 - x0) ^ 1))) * (y1 - y0)) / (dT * lam))).

(** integrals.py:3086-3086 (EDload_linear, vectorized, step) *)
Definition EDload_vectorized_step (y0 y1 x0 dT lam t : R) : R :=
  ((exp (((- dT) * lam) * (t - x0))) * (y1 - y0)).

(** integrals.py:3089-3091 (EDload_linear, vectorized, ramp_in) *)
Definition EDload_vectorized_ramp_in (y0 y1 x0 x1 dT lam t : R) : R :=
  ((((/ ((x1 - x0) ^ 1)) * (y1 - y0)) / (dT * lam)) - ((((/ ((x1 - x0) ^ 1)) * (exp (((- dT) *
  lam) * (t - x0)))) * (y1 - y0)) / (dT * lam))).

(** integrals.py:3094-3096 (EDload_linear, vectorized, ramp_less) *)
Definition EDload_vectorized_ramp_less (y0 y1 x0 x1 dT lam t : R) : R :=
  (((((- (/ ((x1 - x0) ^ 1))) * (exp (((- dT) * lam) * (t - x0)))) * (y1 - y0)) / (dT * lam)) +
  ((((exp (((- dT) * lam) * (t - x1))) * (/ ((x1 - x0) ^ 1))) * (y1 - y0)) / (dT * lam))).
