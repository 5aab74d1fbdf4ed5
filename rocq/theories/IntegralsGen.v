(** Generated from /repo/geotecha/speccon/integrals.py by tools/gen_integrals.py; do not edit.
    One real expression per layer contribution; a_slope = (ab-at)/(zb-zt) etc. are passed in. *)
From Coq Require Import Reals.
Open Scope R_scope.

(** integrals.py:1308-1322 (dim1sin_af_linear, scalar, diagonal entry) *)
Definition af_scalar_diag (a_slope at_ zt zb mi : R) : R :=
  ((((((((((((((((((a_slope * (/ (mi ^ 2))) * ((sin (mi * zb)) ^ 2)) / 4) - (((a_slope * (/ (mi ^
  2))) * ((sin (mi * zt)) ^ 2)) / 4)) + (((((a_slope * (/ (mi ^ 1))) * (cos (mi * zb))) * (sin (mi
  * zb))) * zt) / 2)) - (((((a_slope * (/ (mi ^ 1))) * zb) * (cos (mi * zb))) * (sin (mi * zb))) /
  2)) - ((((a_slope * zb) * ((sin (mi * zb)) ^ 2)) * zt) / 2)) - ((((a_slope * zb) * ((cos (mi *
  zb)) ^ 2)) * zt) / 2)) + (((a_slope * (zb ^ 2)) * ((sin (mi * zb)) ^ 2)) / 4)) + (((a_slope *
  (zb ^ 2)) * ((cos (mi * zb)) ^ 2)) / 4)) + (((a_slope * (zt ^ 2)) * ((sin (mi * zt)) ^ 2)) / 4))
  + (((a_slope * (zt ^ 2)) * ((cos (mi * zt)) ^ 2)) / 4)) - (((((/ (mi ^ 1)) * (cos (mi * zb))) *
  (sin (mi * zb))) * at_) / 2)) + (((((/ (mi ^ 1)) * (cos (mi * zt))) * (sin (mi * zt))) * at_) /
  2)) + (((zb * ((sin (mi * zb)) ^ 2)) * at_) / 2)) + (((zb * ((cos (mi * zb)) ^ 2)) * at_) / 2))
  - (((zt * ((sin (mi * zt)) ^ 2)) * at_) / 2)) - (((zt * ((cos (mi * zt)) ^ 2)) * at_) / 2)).

(** integrals.py:1325-1368 (dim1sin_af_linear, scalar, entry i<j) *)
Definition af_scalar_off (a_slope at_ zt zb mi mj : R) : R :=
  (((((((((((((((((((((((((a_slope * (mi ^ 2)) * (/ ((((mi ^ 4) - ((2 * (mj ^ 2)) * (mi ^ 2))) +
  (mj ^ 4)) ^ 1))) * (sin (mi * zb))) * (sin (mj * zb))) - ((((a_slope * (mi ^ 2)) * (/ ((((mi ^
  4) - ((2 * (mj ^ 2)) * (mi ^ 2))) + (mj ^ 4)) ^ 1))) * (sin (mi * zt))) * (sin (mj * zt)))) +
  (((((a_slope * (mi ^ 3)) * (/ ((((mi ^ 4) - ((2 * (mj ^ 2)) * (mi ^ 2))) + (mj ^ 4)) ^ 1))) *
  (cos (mi * zb))) * (sin (mj * zb))) * zt)) - (((((a_slope * (mi ^ 3)) * (/ ((((mi ^ 4) - ((2 *
  (mj ^ 2)) * (mi ^ 2))) + (mj ^ 4)) ^ 1))) * zb) * (cos (mi * zb))) * (sin (mj * zb)))) + ((((((2
  * a_slope) * mj) * mi) * (/ ((((mi ^ 4) - ((2 * (mj ^ 2)) * (mi ^ 2))) + (mj ^ 4)) ^ 1))) * (cos
  (mi * zb))) * (cos (mj * zb)))) - ((((((2 * a_slope) * mj) * mi) * (/ ((((mi ^ 4) - ((2 * (mj ^
  2)) * (mi ^ 2))) + (mj ^ 4)) ^ 1))) * (cos (mi * zt))) * (cos (mj * zt)))) - ((((((a_slope * mj)
  * (mi ^ 2)) * (/ ((((mi ^ 4) - ((2 * (mj ^ 2)) * (mi ^ 2))) + (mj ^ 4)) ^ 1))) * (cos (mj *
  zb))) * (sin (mi * zb))) * zt)) + ((((((a_slope * mj) * (mi ^ 2)) * (/ ((((mi ^ 4) - ((2 * (mj ^
  2)) * (mi ^ 2))) + (mj ^ 4)) ^ 1))) * zb) * (cos (mj * zb))) * (sin (mi * zb)))) + ((((a_slope *
  (mj ^ 2)) * (/ ((((mi ^ 4) - ((2 * (mj ^ 2)) * (mi ^ 2))) + (mj ^ 4)) ^ 1))) * (sin (mi * zb)))
  * (sin (mj * zb)))) - ((((a_slope * (mj ^ 2)) * (/ ((((mi ^ 4) - ((2 * (mj ^ 2)) * (mi ^ 2))) +
  (mj ^ 4)) ^ 1))) * (sin (mi * zt))) * (sin (mj * zt)))) - ((((((a_slope * (mj ^ 2)) * mi) * (/
  ((((mi ^ 4) - ((2 * (mj ^ 2)) * (mi ^ 2))) + (mj ^ 4)) ^ 1))) * (cos (mi * zb))) * (sin (mj *
  zb))) * zt)) + ((((((a_slope * (mj ^ 2)) * mi) * (/ ((((mi ^ 4) - ((2 * (mj ^ 2)) * (mi ^ 2))) +
  (mj ^ 4)) ^ 1))) * zb) * (cos (mi * zb))) * (sin (mj * zb)))) + (((((a_slope * (mj ^ 3)) * (/
  ((((mi ^ 4) - ((2 * (mj ^ 2)) * (mi ^ 2))) + (mj ^ 4)) ^ 1))) * (cos (mj * zb))) * (sin (mi *
  zb))) * zt)) - (((((a_slope * (mj ^ 3)) * (/ ((((mi ^ 4) - ((2 * (mj ^ 2)) * (mi ^ 2))) + (mj ^
  4)) ^ 1))) * zb) * (cos (mj * zb))) * (sin (mi * zb)))) - (((((mi ^ 3) * (/ ((((mi ^ 4) - ((2 *
  (mj ^ 2)) * (mi ^ 2))) + (mj ^ 4)) ^ 1))) * (cos (mi * zb))) * (sin (mj * zb))) * at_)) +
  (((((mi ^ 3) * (/ ((((mi ^ 4) - ((2 * (mj ^ 2)) * (mi ^ 2))) + (mj ^ 4)) ^ 1))) * (cos (mi *
  zt))) * (sin (mj * zt))) * at_)) + (((((mj * (mi ^ 2)) * (/ ((((mi ^ 4) - ((2 * (mj ^ 2)) * (mi
  ^ 2))) + (mj ^ 4)) ^ 1))) * (cos (mj * zb))) * (sin (mi * zb))) * at_)) - (((((mj * (mi ^ 2)) *
  (/ ((((mi ^ 4) - ((2 * (mj ^ 2)) * (mi ^ 2))) + (mj ^ 4)) ^ 1))) * (cos (mj * zt))) * (sin (mi *
  zt))) * at_)) + ((((((mj ^ 2) * mi) * (/ ((((mi ^ 4) - ((2 * (mj ^ 2)) * (mi ^ 2))) + (mj ^ 4))
  ^ 1))) * (cos (mi * zb))) * (sin (mj * zb))) * at_)) - ((((((mj ^ 2) * mi) * (/ ((((mi ^ 4) -
  ((2 * (mj ^ 2)) * (mi ^ 2))) + (mj ^ 4)) ^ 1))) * (cos (mi * zt))) * (sin (mj * zt))) * at_)) -
  (((((mj ^ 3) * (/ ((((mi ^ 4) - ((2 * (mj ^ 2)) * (mi ^ 2))) + (mj ^ 4)) ^ 1))) * (cos (mj *
  zb))) * (sin (mi * zb))) * at_)) + (((((mj ^ 3) * (/ ((((mi ^ 4) - ((2 * (mj ^ 2)) * (mi ^ 2)))
  + (mj ^ 4)) ^ 1))) * (cos (mj * zt))) * (sin (mi * zt))) * at_)).

(** integrals.py:1397-1403 (dim1sin_af_linear, vectorized, diagonal entry) *)
Definition af_vectorized_diag (a_slope at_ zt zb mi : R) : R :=
  ((((((((((((((((((((- a_slope) * zb) * ((sin (mi * zb)) ^ 2)) * zt) / 2) - ((((a_slope * zb) *
  ((cos (mi * zb)) ^ 2)) * zt) / 2)) + (((a_slope * (zb ^ 2)) * ((sin (mi * zb)) ^ 2)) / 4)) +
  (((a_slope * (zb ^ 2)) * ((cos (mi * zb)) ^ 2)) / 4)) + (((a_slope * (zt ^ 2)) * ((sin (mi *
  zt)) ^ 2)) / 4)) + (((a_slope * (zt ^ 2)) * ((cos (mi * zt)) ^ 2)) / 4)) + ((((a_slope * (cos
  (mi * zb))) * (sin (mi * zb))) * zt) / (2 * mi))) - ((((a_slope * zb) * (cos (mi * zb))) * (sin
  (mi * zb))) / (2 * mi))) + ((a_slope * ((sin (mi * zb)) ^ 2)) / (4 * (mi ^ 2)))) - ((a_slope *
  ((sin (mi * zt)) ^ 2)) / (4 * (mi ^ 2)))) + (((zb * ((sin (mi * zb)) ^ 2)) * at_) / 2)) + (((zb
  * ((cos (mi * zb)) ^ 2)) * at_) / 2)) - (((zt * ((sin (mi * zt)) ^ 2)) * at_) / 2)) - (((zt *
  ((cos (mi * zt)) ^ 2)) * at_) / 2)) - ((((cos (mi * zb)) * (sin (mi * zb))) * at_) / (2 * mi)))
  + ((((cos (mi * zt)) * (sin (mi * zt))) * at_) / (2 * mi))).

(** integrals.py:1407-1428 (dim1sin_af_linear, vectorized, entry i<j) *)
Definition af_vectorized_off (a_slope at_ zt zb mi mj : R) : R :=
  ((((((((((((((((((((((((((a_slope * (mi ^ 3)) * (cos (mi * zb))) * (sin (mj * zb))) * zt) /
  (((mi ^ 4) - ((2 * (mi ^ 2)) * (mj ^ 2))) + (mj ^ 4))) - (((((a_slope * (mi ^ 3)) * zb) * (cos
  (mi * zb))) * (sin (mj * zb))) / (((mi ^ 4) - ((2 * (mi ^ 2)) * (mj ^ 2))) + (mj ^ 4)))) -
  ((((((a_slope * (mi ^ 2)) * mj) * (cos (mj * zb))) * (sin (mi * zb))) * zt) / (((mi ^ 4) - ((2 *
  (mi ^ 2)) * (mj ^ 2))) + (mj ^ 4)))) + ((((((a_slope * (mi ^ 2)) * mj) * zb) * (cos (mj * zb)))
  * (sin (mi * zb))) / (((mi ^ 4) - ((2 * (mi ^ 2)) * (mj ^ 2))) + (mj ^ 4)))) + ((((a_slope * (mi
  ^ 2)) * (sin (mi * zb))) * (sin (mj * zb))) / (((mi ^ 4) - ((2 * (mi ^ 2)) * (mj ^ 2))) + (mj ^
  4)))) - ((((a_slope * (mi ^ 2)) * (sin (mi * zt))) * (sin (mj * zt))) / (((mi ^ 4) - ((2 * (mi ^
  2)) * (mj ^ 2))) + (mj ^ 4)))) - ((((((a_slope * mi) * (mj ^ 2)) * (cos (mi * zb))) * (sin (mj *
  zb))) * zt) / (((mi ^ 4) - ((2 * (mi ^ 2)) * (mj ^ 2))) + (mj ^ 4)))) + ((((((a_slope * mi) *
  (mj ^ 2)) * zb) * (cos (mi * zb))) * (sin (mj * zb))) / (((mi ^ 4) - ((2 * (mi ^ 2)) * (mj ^
  2))) + (mj ^ 4)))) + ((((((2 * a_slope) * mi) * mj) * (cos (mi * zb))) * (cos (mj * zb))) /
  (((mi ^ 4) - ((2 * (mi ^ 2)) * (mj ^ 2))) + (mj ^ 4)))) - ((((((2 * a_slope) * mi) * mj) * (cos
  (mi * zt))) * (cos (mj * zt))) / (((mi ^ 4) - ((2 * (mi ^ 2)) * (mj ^ 2))) + (mj ^ 4)))) +
  (((((a_slope * (mj ^ 3)) * (cos (mj * zb))) * (sin (mi * zb))) * zt) / (((mi ^ 4) - ((2 * (mi ^
  2)) * (mj ^ 2))) + (mj ^ 4)))) - (((((a_slope * (mj ^ 3)) * zb) * (cos (mj * zb))) * (sin (mi *
  zb))) / (((mi ^ 4) - ((2 * (mi ^ 2)) * (mj ^ 2))) + (mj ^ 4)))) + ((((a_slope * (mj ^ 2)) * (sin
  (mi * zb))) * (sin (mj * zb))) / (((mi ^ 4) - ((2 * (mi ^ 2)) * (mj ^ 2))) + (mj ^ 4)))) -
  ((((a_slope * (mj ^ 2)) * (sin (mi * zt))) * (sin (mj * zt))) / (((mi ^ 4) - ((2 * (mi ^ 2)) *
  (mj ^ 2))) + (mj ^ 4)))) - (((((mi ^ 3) * (cos (mi * zb))) * (sin (mj * zb))) * at_) / (((mi ^
  4) - ((2 * (mi ^ 2)) * (mj ^ 2))) + (mj ^ 4)))) + (((((mi ^ 3) * (cos (mi * zt))) * (sin (mj *
  zt))) * at_) / (((mi ^ 4) - ((2 * (mi ^ 2)) * (mj ^ 2))) + (mj ^ 4)))) + ((((((mi ^ 2) * mj) *
  (cos (mj * zb))) * (sin (mi * zb))) * at_) / (((mi ^ 4) - ((2 * (mi ^ 2)) * (mj ^ 2))) + (mj ^
  4)))) - ((((((mi ^ 2) * mj) * (cos (mj * zt))) * (sin (mi * zt))) * at_) / (((mi ^ 4) - ((2 *
  (mi ^ 2)) * (mj ^ 2))) + (mj ^ 4)))) + (((((mi * (mj ^ 2)) * (cos (mi * zb))) * (sin (mj * zb)))
  * at_) / (((mi ^ 4) - ((2 * (mi ^ 2)) * (mj ^ 2))) + (mj ^ 4)))) - (((((mi * (mj ^ 2)) * (cos
  (mi * zt))) * (sin (mj * zt))) * at_) / (((mi ^ 4) - ((2 * (mi ^ 2)) * (mj ^ 2))) + (mj ^ 4))))
  - (((((mj ^ 3) * (cos (mj * zb))) * (sin (mi * zb))) * at_) / (((mi ^ 4) - ((2 * (mi ^ 2)) * (mj
  ^ 2))) + (mj ^ 4)))) + (((((mj ^ 3) * (cos (mj * zt))) * (sin (mi * zt))) * at_) / (((mi ^ 4) -
  ((2 * (mi ^ 2)) * (mj ^ 2))) + (mj ^ 4)))).

(** integrals.py:2031-2046 (dim1sin_D_aDf_linear, scalar, diagonal entry) *)
Definition DaDf_scalar_diag (a_slope at_ zt zb mi : R) : R :=
  (((mi ^ 2) * (((((((((- a_slope) * (/ (mi ^ 2))) * ((sin (mi * zt)) ^ 2)) / 4) - (((a_slope *
  (zt ^ 2)) * ((sin (mi * zt)) ^ 2)) / 4)) - (((a_slope * (zt ^ 2)) * ((cos (mi * zt)) ^ 2)) / 4))
  + (((((/ (mi ^ 1)) * (cos (mi * zt))) * (sin (mi * zt))) * at_) / 2)) + (((zt * ((sin (mi * zt))
  ^ 2)) * at_) / 2)) + (((zt * ((cos (mi * zt)) ^ 2)) * at_) / 2))) - ((mi ^ 2) * (((((((((((((-
  a_slope) * (/ (mi ^ 2))) * ((sin (mi * zb)) ^ 2)) / 4) - (((((a_slope * (/ (mi ^ 1))) * (cos (mi
  * zb))) * (sin (mi * zb))) * zt) / 2)) + (((((a_slope * (/ (mi ^ 1))) * zb) * (cos (mi * zb))) *
  (sin (mi * zb))) / 2)) - ((((a_slope * zb) * ((sin (mi * zb)) ^ 2)) * zt) / 2)) - ((((a_slope *
  zb) * ((cos (mi * zb)) ^ 2)) * zt) / 2)) + (((a_slope * (zb ^ 2)) * ((sin (mi * zb)) ^ 2)) / 4))
  + (((a_slope * (zb ^ 2)) * ((cos (mi * zb)) ^ 2)) / 4)) + (((((/ (mi ^ 1)) * (cos (mi * zb))) *
  (sin (mi * zb))) * at_) / 2)) + (((zb * ((sin (mi * zb)) ^ 2)) * at_) / 2)) + (((zb * ((cos (mi
  * zb)) ^ 2)) * at_) / 2)))).

(** integrals.py:2049-2092 (dim1sin_D_aDf_linear, scalar, entry i<j) *)
Definition DaDf_scalar_off (a_slope at_ zt zb mi mj : R) : R :=
  (((mj * mi) * ((((((((((a_slope * (mi ^ 2)) * (/ ((((mi ^ 4) - ((2 * (mj ^ 2)) * (mi ^ 2))) +
  (mj ^ 4)) ^ 1))) * (cos (mi * zt))) * (cos (mj * zt))) + ((((((2 * a_slope) * mj) * mi) * (/
  ((((mi ^ 4) - ((2 * (mj ^ 2)) * (mi ^ 2))) + (mj ^ 4)) ^ 1))) * (sin (mi * zt))) * (sin (mj *
  zt)))) + ((((a_slope * (mj ^ 2)) * (/ ((((mi ^ 4) - ((2 * (mj ^ 2)) * (mi ^ 2))) + (mj ^ 4)) ^
  1))) * (cos (mi * zt))) * (cos (mj * zt)))) + (((((mi ^ 3) * (/ ((((mi ^ 4) - ((2 * (mj ^ 2)) *
  (mi ^ 2))) + (mj ^ 4)) ^ 1))) * (cos (mj * zt))) * (sin (mi * zt))) * at_)) - (((((mj * (mi ^
  2)) * (/ ((((mi ^ 4) - ((2 * (mj ^ 2)) * (mi ^ 2))) + (mj ^ 4)) ^ 1))) * (cos (mi * zt))) * (sin
  (mj * zt))) * at_)) - ((((((mj ^ 2) * mi) * (/ ((((mi ^ 4) - ((2 * (mj ^ 2)) * (mi ^ 2))) + (mj
  ^ 4)) ^ 1))) * (cos (mj * zt))) * (sin (mi * zt))) * at_)) + (((((mj ^ 3) * (/ ((((mi ^ 4) - ((2
  * (mj ^ 2)) * (mi ^ 2))) + (mj ^ 4)) ^ 1))) * (cos (mi * zt))) * (sin (mj * zt))) * at_))) -
  ((mj * mi) * ((((((((((((((((((a_slope * (mi ^ 2)) * (/ ((((mi ^ 4) - ((2 * (mj ^ 2)) * (mi ^
  2))) + (mj ^ 4)) ^ 1))) * (cos (mi * zb))) * (cos (mj * zb))) - (((((a_slope * (mi ^ 3)) * (/
  ((((mi ^ 4) - ((2 * (mj ^ 2)) * (mi ^ 2))) + (mj ^ 4)) ^ 1))) * (cos (mj * zb))) * (sin (mi *
  zb))) * zt)) + (((((a_slope * (mi ^ 3)) * (/ ((((mi ^ 4) - ((2 * (mj ^ 2)) * (mi ^ 2))) + (mj ^
  4)) ^ 1))) * zb) * (cos (mj * zb))) * (sin (mi * zb)))) + ((((((2 * a_slope) * mj) * mi) * (/
  ((((mi ^ 4) - ((2 * (mj ^ 2)) * (mi ^ 2))) + (mj ^ 4)) ^ 1))) * (sin (mi * zb))) * (sin (mj *
  zb)))) + ((((((a_slope * mj) * (mi ^ 2)) * (/ ((((mi ^ 4) - ((2 * (mj ^ 2)) * (mi ^ 2))) + (mj ^
  4)) ^ 1))) * (cos (mi * zb))) * (sin (mj * zb))) * zt)) - ((((((a_slope * mj) * (mi ^ 2)) * (/
  ((((mi ^ 4) - ((2 * (mj ^ 2)) * (mi ^ 2))) + (mj ^ 4)) ^ 1))) * zb) * (cos (mi * zb))) * (sin
  (mj * zb)))) + ((((a_slope * (mj ^ 2)) * (/ ((((mi ^ 4) - ((2 * (mj ^ 2)) * (mi ^ 2))) + (mj ^
  4)) ^ 1))) * (cos (mi * zb))) * (cos (mj * zb)))) + ((((((a_slope * (mj ^ 2)) * mi) * (/ ((((mi
  ^ 4) - ((2 * (mj ^ 2)) * (mi ^ 2))) + (mj ^ 4)) ^ 1))) * (cos (mj * zb))) * (sin (mi * zb))) *
  zt)) - ((((((a_slope * (mj ^ 2)) * mi) * (/ ((((mi ^ 4) - ((2 * (mj ^ 2)) * (mi ^ 2))) + (mj ^
  4)) ^ 1))) * zb) * (cos (mj * zb))) * (sin (mi * zb)))) - (((((a_slope * (mj ^ 3)) * (/ ((((mi ^
  4) - ((2 * (mj ^ 2)) * (mi ^ 2))) + (mj ^ 4)) ^ 1))) * (cos (mi * zb))) * (sin (mj * zb))) *
  zt)) + (((((a_slope * (mj ^ 3)) * (/ ((((mi ^ 4) - ((2 * (mj ^ 2)) * (mi ^ 2))) + (mj ^ 4)) ^
  1))) * zb) * (cos (mi * zb))) * (sin (mj * zb)))) + (((((mi ^ 3) * (/ ((((mi ^ 4) - ((2 * (mj ^
  2)) * (mi ^ 2))) + (mj ^ 4)) ^ 1))) * (cos (mj * zb))) * (sin (mi * zb))) * at_)) - (((((mj *
  (mi ^ 2)) * (/ ((((mi ^ 4) - ((2 * (mj ^ 2)) * (mi ^ 2))) + (mj ^ 4)) ^ 1))) * (cos (mi * zb)))
  * (sin (mj * zb))) * at_)) - ((((((mj ^ 2) * mi) * (/ ((((mi ^ 4) - ((2 * (mj ^ 2)) * (mi ^ 2)))
  + (mj ^ 4)) ^ 1))) * (cos (mj * zb))) * (sin (mi * zb))) * at_)) + (((((mj ^ 3) * (/ ((((mi ^ 4)
  - ((2 * (mj ^ 2)) * (mi ^ 2))) + (mj ^ 4)) ^ 1))) * (cos (mi * zb))) * (sin (mj * zb))) *
  at_)))).

(** integrals.py:2122-2128 (dim1sin_D_aDf_linear, vectorized, diagonal entry) *)
Definition DaDf_vectorized_diag (a_slope at_ zt zb mi : R) : R :=
  (((mi ^ 2) * (((((((((- a_slope) * (zt ^ 2)) * ((sin (mi * zt)) ^ 2)) / 4) - (((a_slope * (zt ^
  2)) * ((cos (mi * zt)) ^ 2)) / 4)) - ((a_slope * ((sin (mi * zt)) ^ 2)) / (4 * (mi ^ 2)))) +
  (((zt * ((sin (mi * zt)) ^ 2)) * at_) / 2)) + (((zt * ((cos (mi * zt)) ^ 2)) * at_) / 2)) +
  ((((cos (mi * zt)) * (sin (mi * zt))) * at_) / (2 * mi)))) - ((mi ^ 2) * ((((((((((((((-
  a_slope) * zb) * ((sin (mi * zb)) ^ 2)) * zt) / 2) - ((((a_slope * zb) * ((cos (mi * zb)) ^ 2))
  * zt) / 2)) + (((a_slope * (zb ^ 2)) * ((sin (mi * zb)) ^ 2)) / 4)) + (((a_slope * (zb ^ 2)) *
  ((cos (mi * zb)) ^ 2)) / 4)) - ((((a_slope * (cos (mi * zb))) * (sin (mi * zb))) * zt) / (2 *
  mi))) + ((((a_slope * zb) * (cos (mi * zb))) * (sin (mi * zb))) / (2 * mi))) - ((a_slope * ((sin
  (mi * zb)) ^ 2)) / (4 * (mi ^ 2)))) + (((zb * ((sin (mi * zb)) ^ 2)) * at_) / 2)) + (((zb *
  ((cos (mi * zb)) ^ 2)) * at_) / 2)) + ((((cos (mi * zb)) * (sin (mi * zb))) * at_) / (2 *
  mi))))).

(** integrals.py:2132-2153 (dim1sin_D_aDf_linear, vectorized, entry i<j) *)
Definition DaDf_vectorized_off (a_slope at_ zt zb mi mj : R) : R :=
  (((mi * mj) * ((((((((((a_slope * (mi ^ 2)) * (cos (mi * zt))) * (cos (mj * zt))) / (((mi ^ 4) -
  ((2 * (mi ^ 2)) * (mj ^ 2))) + (mj ^ 4))) + ((((((2 * a_slope) * mi) * mj) * (sin (mi * zt))) *
  (sin (mj * zt))) / (((mi ^ 4) - ((2 * (mi ^ 2)) * (mj ^ 2))) + (mj ^ 4)))) + ((((a_slope * (mj ^
  2)) * (cos (mi * zt))) * (cos (mj * zt))) / (((mi ^ 4) - ((2 * (mi ^ 2)) * (mj ^ 2))) + (mj ^
  4)))) + (((((mi ^ 3) * (cos (mj * zt))) * (sin (mi * zt))) * at_) / (((mi ^ 4) - ((2 * (mi ^ 2))
  * (mj ^ 2))) + (mj ^ 4)))) - ((((((mi ^ 2) * mj) * (cos (mi * zt))) * (sin (mj * zt))) * at_) /
  (((mi ^ 4) - ((2 * (mi ^ 2)) * (mj ^ 2))) + (mj ^ 4)))) - (((((mi * (mj ^ 2)) * (cos (mj * zt)))
  * (sin (mi * zt))) * at_) / (((mi ^ 4) - ((2 * (mi ^ 2)) * (mj ^ 2))) + (mj ^ 4)))) + (((((mj ^
  3) * (cos (mi * zt))) * (sin (mj * zt))) * at_) / (((mi ^ 4) - ((2 * (mi ^ 2)) * (mj ^ 2))) +
  (mj ^ 4))))) - ((mi * mj) * ((((((((((((((((((((- a_slope) * (mi ^ 3)) * (cos (mj * zb))) * (sin
  (mi * zb))) * zt) / (((mi ^ 4) - ((2 * (mi ^ 2)) * (mj ^ 2))) + (mj ^ 4))) + (((((a_slope * (mi
  ^ 3)) * zb) * (cos (mj * zb))) * (sin (mi * zb))) / (((mi ^ 4) - ((2 * (mi ^ 2)) * (mj ^ 2))) +
  (mj ^ 4)))) + ((((((a_slope * (mi ^ 2)) * mj) * (cos (mi * zb))) * (sin (mj * zb))) * zt) /
  (((mi ^ 4) - ((2 * (mi ^ 2)) * (mj ^ 2))) + (mj ^ 4)))) - ((((((a_slope * (mi ^ 2)) * mj) * zb)
  * (cos (mi * zb))) * (sin (mj * zb))) / (((mi ^ 4) - ((2 * (mi ^ 2)) * (mj ^ 2))) + (mj ^ 4))))
  + ((((a_slope * (mi ^ 2)) * (cos (mi * zb))) * (cos (mj * zb))) / (((mi ^ 4) - ((2 * (mi ^ 2)) *
  (mj ^ 2))) + (mj ^ 4)))) + ((((((a_slope * mi) * (mj ^ 2)) * (cos (mj * zb))) * (sin (mi * zb)))
  * zt) / (((mi ^ 4) - ((2 * (mi ^ 2)) * (mj ^ 2))) + (mj ^ 4)))) - ((((((a_slope * mi) * (mj ^
  2)) * zb) * (cos (mj * zb))) * (sin (mi * zb))) / (((mi ^ 4) - ((2 * (mi ^ 2)) * (mj ^ 2))) +
  (mj ^ 4)))) + ((((((2 * a_slope) * mi) * mj) * (sin (mi * zb))) * (sin (mj * zb))) / (((mi ^ 4)
  - ((2 * (mi ^ 2)) * (mj ^ 2))) + (mj ^ 4)))) - (((((a_slope * (mj ^ 3)) * (cos (mi * zb))) *
  (sin (mj * zb))) * zt) / (((mi ^ 4) - ((2 * (mi ^ 2)) * (mj ^ 2))) + (mj ^ 4)))) + (((((a_slope
  * (mj ^ 3)) * zb) * (cos (mi * zb))) * (sin (mj * zb))) / (((mi ^ 4) - ((2 * (mi ^ 2)) * (mj ^
  2))) + (mj ^ 4)))) + ((((a_slope * (mj ^ 2)) * (cos (mi * zb))) * (cos (mj * zb))) / (((mi ^ 4)
  - ((2 * (mi ^ 2)) * (mj ^ 2))) + (mj ^ 4)))) + (((((mi ^ 3) * (cos (mj * zb))) * (sin (mi *
  zb))) * at_) / (((mi ^ 4) - ((2 * (mi ^ 2)) * (mj ^ 2))) + (mj ^ 4)))) - ((((((mi ^ 2) * mj) *
  (cos (mi * zb))) * (sin (mj * zb))) * at_) / (((mi ^ 4) - ((2 * (mi ^ 2)) * (mj ^ 2))) + (mj ^
  4)))) - (((((mi * (mj ^ 2)) * (cos (mj * zb))) * (sin (mi * zb))) * at_) / (((mi ^ 4) - ((2 *
  (mi ^ 2)) * (mj ^ 2))) + (mj ^ 4)))) + (((((mj ^ 3) * (cos (mi * zb))) * (sin (mj * zb))) * at_)
  / (((mi ^ 4) - ((2 * (mi ^ 2)) * (mj ^ 2))) + (mj ^ 4)))))).

(** integrals.py:1523-1570 (dim1sin_abf_linear, scalar, diagonal entry) *)
Definition abf_scalar_diag (a_slope b_slope at_ bt zt zb mi : R) : R :=
  ((((((((((((((((((((((((((((((((((((((((((((((((a_slope * b_slope) * (/ (mi ^ 3))) * (cos (mi *
  zb))) * (sin (mi * zb))) / 4) - (((((a_slope * b_slope) * (/ (mi ^ 3))) * (cos (mi * zt))) *
  (sin (mi * zt))) / 4)) - (((((a_slope * b_slope) * (/ (mi ^ 2))) * ((sin (mi * zb)) ^ 2)) * zt)
  / 2)) + (((((a_slope * b_slope) * (/ (mi ^ 2))) * zb) * ((sin (mi * zb)) ^ 2)) / 4)) -
  (((((a_slope * b_slope) * (/ (mi ^ 2))) * zb) * ((cos (mi * zb)) ^ 2)) / 4)) + (((((a_slope *
  b_slope) * (/ (mi ^ 2))) * zt) * ((sin (mi * zt)) ^ 2)) / 4)) + (((((a_slope * b_slope) * (/ (mi
  ^ 2))) * zt) * ((cos (mi * zt)) ^ 2)) / 4)) - ((((((a_slope * b_slope) * (/ (mi ^ 1))) * (cos
  (mi * zb))) * (sin (mi * zb))) * (zt ^ 2)) / 2)) + ((((((a_slope * b_slope) * (/ (mi ^ 1))) *
  zb) * (cos (mi * zb))) * (sin (mi * zb))) * zt)) - ((((((a_slope * b_slope) * (/ (mi ^ 1))) *
  (zb ^ 2)) * (cos (mi * zb))) * (sin (mi * zb))) / 2)) + (((((a_slope * b_slope) * zb) * ((sin
  (mi * zb)) ^ 2)) * (zt ^ 2)) / 2)) + (((((a_slope * b_slope) * zb) * ((cos (mi * zb)) ^ 2)) *
  (zt ^ 2)) / 2)) - (((((a_slope * b_slope) * (zb ^ 2)) * ((sin (mi * zb)) ^ 2)) * zt) / 2)) -
  (((((a_slope * b_slope) * (zb ^ 2)) * ((cos (mi * zb)) ^ 2)) * zt) / 2)) + ((((a_slope *
  b_slope) * (zb ^ 3)) * ((sin (mi * zb)) ^ 2)) / 6)) + ((((a_slope * b_slope) * (zb ^ 3)) * ((cos
  (mi * zb)) ^ 2)) / 6)) - ((((a_slope * b_slope) * (zt ^ 3)) * ((sin (mi * zt)) ^ 2)) / 6)) -
  ((((a_slope * b_slope) * (zt ^ 3)) * ((cos (mi * zt)) ^ 2)) / 6)) + ((((a_slope * (/ (mi ^ 2)))
  * ((sin (mi * zb)) ^ 2)) * bt) / 4)) - ((((a_slope * (/ (mi ^ 2))) * ((sin (mi * zt)) ^ 2)) *
  bt) / 4)) + ((((((a_slope * (/ (mi ^ 1))) * (cos (mi * zb))) * (sin (mi * zb))) * zt) * bt) /
  2)) - ((((((a_slope * (/ (mi ^ 1))) * zb) * (cos (mi * zb))) * (sin (mi * zb))) * bt) / 2)) -
  (((((a_slope * zb) * ((sin (mi * zb)) ^ 2)) * zt) * bt) / 2)) - (((((a_slope * zb) * ((cos (mi *
  zb)) ^ 2)) * zt) * bt) / 2)) + ((((a_slope * (zb ^ 2)) * ((sin (mi * zb)) ^ 2)) * bt) / 4)) +
  ((((a_slope * (zb ^ 2)) * ((cos (mi * zb)) ^ 2)) * bt) / 4)) + ((((a_slope * (zt ^ 2)) * ((sin
  (mi * zt)) ^ 2)) * bt) / 4)) + ((((a_slope * (zt ^ 2)) * ((cos (mi * zt)) ^ 2)) * bt) / 4)) +
  ((((b_slope * (/ (mi ^ 2))) * ((sin (mi * zb)) ^ 2)) * at_) / 4)) - ((((b_slope * (/ (mi ^ 2)))
  * ((sin (mi * zt)) ^ 2)) * at_) / 4)) + ((((((b_slope * (/ (mi ^ 1))) * (cos (mi * zb))) * (sin
  (mi * zb))) * zt) * at_) / 2)) - ((((((b_slope * (/ (mi ^ 1))) * zb) * (cos (mi * zb))) * (sin
  (mi * zb))) * at_) / 2)) - (((((b_slope * zb) * ((sin (mi * zb)) ^ 2)) * zt) * at_) / 2)) -
  (((((b_slope * zb) * ((cos (mi * zb)) ^ 2)) * zt) * at_) / 2)) + ((((b_slope * (zb ^ 2)) * ((sin
  (mi * zb)) ^ 2)) * at_) / 4)) + ((((b_slope * (zb ^ 2)) * ((cos (mi * zb)) ^ 2)) * at_) / 4)) +
  ((((b_slope * (zt ^ 2)) * ((sin (mi * zt)) ^ 2)) * at_) / 4)) + ((((b_slope * (zt ^ 2)) * ((cos
  (mi * zt)) ^ 2)) * at_) / 4)) - ((((((/ (mi ^ 1)) * (cos (mi * zb))) * (sin (mi * zb))) * bt) *
  at_) / 2)) + ((((((/ (mi ^ 1)) * (cos (mi * zt))) * (sin (mi * zt))) * bt) * at_) / 2)) + ((((zb
  * ((sin (mi * zb)) ^ 2)) * bt) * at_) / 2)) + ((((zb * ((cos (mi * zb)) ^ 2)) * bt) * at_) / 2))
  - ((((zt * ((sin (mi * zt)) ^ 2)) * bt) * at_) / 2)) - ((((zt * ((cos (mi * zt)) ^ 2)) * bt) *
  at_) / 2)).

(** integrals.py:1573-1760 (dim1sin_abf_linear, scalar, entry i<j) *)
Definition abf_scalar_off (a_slope b_slope at_ bt zt zb mi mj : R) : R :=
  (((((((((((((((((((((((((((((((((((((((((((((((((((((((((((((((((((((((((((((((((((((((((((2 *
  a_slope) * b_slope) * (mi ^ 3)) * (/ (((((mi ^ 6) - ((3 * (mj ^ 2)) * (mi ^ 4))) + ((3 * (mj ^
  4)) * (mi ^ 2))) - (mj ^ 6)) ^ 1))) * (cos (mi * zb))) * (sin (mj * zb))) - ((((((2 * a_slope) *
  b_slope) * (mi ^ 3)) * (/ (((((mi ^ 6) - ((3 * (mj ^ 2)) * (mi ^ 4))) + ((3 * (mj ^ 4)) * (mi ^
  2))) - (mj ^ 6)) ^ 1))) * (cos (mi * zt))) * (sin (mj * zt)))) - (((((((2 * a_slope) * b_slope)
  * (mi ^ 4)) * (/ (((((mi ^ 6) - ((3 * (mj ^ 2)) * (mi ^ 4))) + ((3 * (mj ^ 4)) * (mi ^ 2))) -
  (mj ^ 6)) ^ 1))) * (sin (mi * zb))) * (sin (mj * zb))) * zt)) + (((((((2 * a_slope) * b_slope) *
  (mi ^ 4)) * (/ (((((mi ^ 6) - ((3 * (mj ^ 2)) * (mi ^ 4))) + ((3 * (mj ^ 4)) * (mi ^ 2))) - (mj
  ^ 6)) ^ 1))) * zb) * (sin (mi * zb))) * (sin (mj * zb)))) - ((((((a_slope * b_slope) * (mi ^ 5))
  * (/ (((((mi ^ 6) - ((3 * (mj ^ 2)) * (mi ^ 4))) + ((3 * (mj ^ 4)) * (mi ^ 2))) - (mj ^ 6)) ^
  1))) * (cos (mi * zb))) * (sin (mj * zb))) * (zt ^ 2))) + ((((((((2 * a_slope) * b_slope) * (mi
  ^ 5)) * (/ (((((mi ^ 6) - ((3 * (mj ^ 2)) * (mi ^ 4))) + ((3 * (mj ^ 4)) * (mi ^ 2))) - (mj ^
  6)) ^ 1))) * zb) * (cos (mi * zb))) * (sin (mj * zb))) * zt)) - ((((((a_slope * b_slope) * (mi ^
  5)) * (/ (((((mi ^ 6) - ((3 * (mj ^ 2)) * (mi ^ 4))) + ((3 * (mj ^ 4)) * (mi ^ 2))) - (mj ^ 6))
  ^ 1))) * (zb ^ 2)) * (cos (mi * zb))) * (sin (mj * zb)))) - (((((((6 * a_slope) * b_slope) * mj)
  * (mi ^ 2)) * (/ (((((mi ^ 6) - ((3 * (mj ^ 2)) * (mi ^ 4))) + ((3 * (mj ^ 4)) * (mi ^ 2))) -
  (mj ^ 6)) ^ 1))) * (cos (mj * zb))) * (sin (mi * zb)))) + (((((((6 * a_slope) * b_slope) * mj) *
  (mi ^ 2)) * (/ (((((mi ^ 6) - ((3 * (mj ^ 2)) * (mi ^ 4))) + ((3 * (mj ^ 4)) * (mi ^ 2))) - (mj
  ^ 6)) ^ 1))) * (cos (mj * zt))) * (sin (mi * zt)))) - ((((((((4 * a_slope) * b_slope) * mj) *
  (mi ^ 3)) * (/ (((((mi ^ 6) - ((3 * (mj ^ 2)) * (mi ^ 4))) + ((3 * (mj ^ 4)) * (mi ^ 2))) - (mj
  ^ 6)) ^ 1))) * (cos (mi * zb))) * (cos (mj * zb))) * zt)) + ((((((((4 * a_slope) * b_slope) *
  mj) * (mi ^ 3)) * (/ (((((mi ^ 6) - ((3 * (mj ^ 2)) * (mi ^ 4))) + ((3 * (mj ^ 4)) * (mi ^ 2)))
  - (mj ^ 6)) ^ 1))) * zb) * (cos (mi * zb))) * (cos (mj * zb)))) + (((((((a_slope * b_slope) *
  mj) * (mi ^ 4)) * (/ (((((mi ^ 6) - ((3 * (mj ^ 2)) * (mi ^ 4))) + ((3 * (mj ^ 4)) * (mi ^ 2)))
  - (mj ^ 6)) ^ 1))) * (cos (mj * zb))) * (sin (mi * zb))) * (zt ^ 2))) - (((((((((2 * a_slope) *
  b_slope) * mj) * (mi ^ 4)) * (/ (((((mi ^ 6) - ((3 * (mj ^ 2)) * (mi ^ 4))) + ((3 * (mj ^ 4)) *
  (mi ^ 2))) - (mj ^ 6)) ^ 1))) * zb) * (cos (mj * zb))) * (sin (mi * zb))) * zt)) +
  (((((((a_slope * b_slope) * mj) * (mi ^ 4)) * (/ (((((mi ^ 6) - ((3 * (mj ^ 2)) * (mi ^ 4))) +
  ((3 * (mj ^ 4)) * (mi ^ 2))) - (mj ^ 6)) ^ 1))) * (zb ^ 2)) * (cos (mj * zb))) * (sin (mi *
  zb)))) + (((((((6 * a_slope) * b_slope) * (mj ^ 2)) * mi) * (/ (((((mi ^ 6) - ((3 * (mj ^ 2)) *
  (mi ^ 4))) + ((3 * (mj ^ 4)) * (mi ^ 2))) - (mj ^ 6)) ^ 1))) * (cos (mi * zb))) * (sin (mj *
  zb)))) - (((((((6 * a_slope) * b_slope) * (mj ^ 2)) * mi) * (/ (((((mi ^ 6) - ((3 * (mj ^ 2)) *
  (mi ^ 4))) + ((3 * (mj ^ 4)) * (mi ^ 2))) - (mj ^ 6)) ^ 1))) * (cos (mi * zt))) * (sin (mj *
  zt)))) + ((((((((2 * a_slope) * b_slope) * (mj ^ 2)) * (mi ^ 3)) * (/ (((((mi ^ 6) - ((3 * (mj ^
  2)) * (mi ^ 4))) + ((3 * (mj ^ 4)) * (mi ^ 2))) - (mj ^ 6)) ^ 1))) * (cos (mi * zb))) * (sin (mj
  * zb))) * (zt ^ 2))) - (((((((((4 * a_slope) * b_slope) * (mj ^ 2)) * (mi ^ 3)) * (/ (((((mi ^
  6) - ((3 * (mj ^ 2)) * (mi ^ 4))) + ((3 * (mj ^ 4)) * (mi ^ 2))) - (mj ^ 6)) ^ 1))) * zb) * (cos
  (mi * zb))) * (sin (mj * zb))) * zt)) + ((((((((2 * a_slope) * b_slope) * (mj ^ 2)) * (mi ^ 3))
  * (/ (((((mi ^ 6) - ((3 * (mj ^ 2)) * (mi ^ 4))) + ((3 * (mj ^ 4)) * (mi ^ 2))) - (mj ^ 6)) ^
  1))) * (zb ^ 2)) * (cos (mi * zb))) * (sin (mj * zb)))) - ((((((2 * a_slope) * b_slope) * (mj ^
  3)) * (/ (((((mi ^ 6) - ((3 * (mj ^ 2)) * (mi ^ 4))) + ((3 * (mj ^ 4)) * (mi ^ 2))) - (mj ^ 6))
  ^ 1))) * (cos (mj * zb))) * (sin (mi * zb)))) + ((((((2 * a_slope) * b_slope) * (mj ^ 3)) * (/
  (((((mi ^ 6) - ((3 * (mj ^ 2)) * (mi ^ 4))) + ((3 * (mj ^ 4)) * (mi ^ 2))) - (mj ^ 6)) ^ 1))) *
  (cos (mj * zt))) * (sin (mi * zt)))) + ((((((((4 * a_slope) * b_slope) * (mj ^ 3)) * mi) * (/
  (((((mi ^ 6) - ((3 * (mj ^ 2)) * (mi ^ 4))) + ((3 * (mj ^ 4)) * (mi ^ 2))) - (mj ^ 6)) ^ 1))) *
  (cos (mi * zb))) * (cos (mj * zb))) * zt)) - ((((((((4 * a_slope) * b_slope) * (mj ^ 3)) * mi) *
  (/ (((((mi ^ 6) - ((3 * (mj ^ 2)) * (mi ^ 4))) + ((3 * (mj ^ 4)) * (mi ^ 2))) - (mj ^ 6)) ^ 1)))
  * zb) * (cos (mi * zb))) * (cos (mj * zb)))) - ((((((((2 * a_slope) * b_slope) * (mj ^ 3)) * (mi
  ^ 2)) * (/ (((((mi ^ 6) - ((3 * (mj ^ 2)) * (mi ^ 4))) + ((3 * (mj ^ 4)) * (mi ^ 2))) - (mj ^
  6)) ^ 1))) * (cos (mj * zb))) * (sin (mi * zb))) * (zt ^ 2))) + (((((((((4 * a_slope) * b_slope)
  * (mj ^ 3)) * (mi ^ 2)) * (/ (((((mi ^ 6) - ((3 * (mj ^ 2)) * (mi ^ 4))) + ((3 * (mj ^ 4)) * (mi
  ^ 2))) - (mj ^ 6)) ^ 1))) * zb) * (cos (mj * zb))) * (sin (mi * zb))) * zt)) - ((((((((2 *
  a_slope) * b_slope) * (mj ^ 3)) * (mi ^ 2)) * (/ (((((mi ^ 6) - ((3 * (mj ^ 2)) * (mi ^ 4))) +
  ((3 * (mj ^ 4)) * (mi ^ 2))) - (mj ^ 6)) ^ 1))) * (zb ^ 2)) * (cos (mj * zb))) * (sin (mi *
  zb)))) + (((((((2 * a_slope) * b_slope) * (mj ^ 4)) * (/ (((((mi ^ 6) - ((3 * (mj ^ 2)) * (mi ^
  4))) + ((3 * (mj ^ 4)) * (mi ^ 2))) - (mj ^ 6)) ^ 1))) * (sin (mi * zb))) * (sin (mj * zb))) *
  zt)) - (((((((2 * a_slope) * b_slope) * (mj ^ 4)) * (/ (((((mi ^ 6) - ((3 * (mj ^ 2)) * (mi ^
  4))) + ((3 * (mj ^ 4)) * (mi ^ 2))) - (mj ^ 6)) ^ 1))) * zb) * (sin (mi * zb))) * (sin (mj *
  zb)))) - (((((((a_slope * b_slope) * (mj ^ 4)) * mi) * (/ (((((mi ^ 6) - ((3 * (mj ^ 2)) * (mi ^
  4))) + ((3 * (mj ^ 4)) * (mi ^ 2))) - (mj ^ 6)) ^ 1))) * (cos (mi * zb))) * (sin (mj * zb))) *
  (zt ^ 2))) + (((((((((2 * a_slope) * b_slope) * (mj ^ 4)) * mi) * (/ (((((mi ^ 6) - ((3 * (mj ^
  2)) * (mi ^ 4))) + ((3 * (mj ^ 4)) * (mi ^ 2))) - (mj ^ 6)) ^ 1))) * zb) * (cos (mi * zb))) *
  (sin (mj * zb))) * zt)) - (((((((a_slope * b_slope) * (mj ^ 4)) * mi) * (/ (((((mi ^ 6) - ((3 *
  (mj ^ 2)) * (mi ^ 4))) + ((3 * (mj ^ 4)) * (mi ^ 2))) - (mj ^ 6)) ^ 1))) * (zb ^ 2)) * (cos (mi
  * zb))) * (sin (mj * zb)))) + ((((((a_slope * b_slope) * (mj ^ 5)) * (/ (((((mi ^ 6) - ((3 * (mj
  ^ 2)) * (mi ^ 4))) + ((3 * (mj ^ 4)) * (mi ^ 2))) - (mj ^ 6)) ^ 1))) * (cos (mj * zb))) * (sin
  (mi * zb))) * (zt ^ 2))) - ((((((((2 * a_slope) * b_slope) * (mj ^ 5)) * (/ (((((mi ^ 6) - ((3 *
  (mj ^ 2)) * (mi ^ 4))) + ((3 * (mj ^ 4)) * (mi ^ 2))) - (mj ^ 6)) ^ 1))) * zb) * (cos (mj *
  zb))) * (sin (mi * zb))) * zt)) + ((((((a_slope * b_slope) * (mj ^ 5)) * (/ (((((mi ^ 6) - ((3 *
  (mj ^ 2)) * (mi ^ 4))) + ((3 * (mj ^ 4)) * (mi ^ 2))) - (mj ^ 6)) ^ 1))) * (zb ^ 2)) * (cos (mj
  * zb))) * (sin (mi * zb)))) + (((((a_slope * (mi ^ 4)) * (/ (((((mi ^ 6) - ((3 * (mj ^ 2)) * (mi
  ^ 4))) + ((3 * (mj ^ 4)) * (mi ^ 2))) - (mj ^ 6)) ^ 1))) * (sin (mi * zb))) * (sin (mj * zb))) *
  bt)) - (((((a_slope * (mi ^ 4)) * (/ (((((mi ^ 6) - ((3 * (mj ^ 2)) * (mi ^ 4))) + ((3 * (mj ^
  4)) * (mi ^ 2))) - (mj ^ 6)) ^ 1))) * (sin (mi * zt))) * (sin (mj * zt))) * bt)) + ((((((a_slope
  * (mi ^ 5)) * (/ (((((mi ^ 6) - ((3 * (mj ^ 2)) * (mi ^ 4))) + ((3 * (mj ^ 4)) * (mi ^ 2))) -
  (mj ^ 6)) ^ 1))) * (cos (mi * zb))) * (sin (mj * zb))) * zt) * bt)) - ((((((a_slope * (mi ^ 5))
  * (/ (((((mi ^ 6) - ((3 * (mj ^ 2)) * (mi ^ 4))) + ((3 * (mj ^ 4)) * (mi ^ 2))) - (mj ^ 6)) ^
  1))) * zb) * (cos (mi * zb))) * (sin (mj * zb))) * bt)) + (((((((2 * a_slope) * mj) * (mi ^ 3))
  * (/ (((((mi ^ 6) - ((3 * (mj ^ 2)) * (mi ^ 4))) + ((3 * (mj ^ 4)) * (mi ^ 2))) - (mj ^ 6)) ^
  1))) * (cos (mi * zb))) * (cos (mj * zb))) * bt)) - (((((((2 * a_slope) * mj) * (mi ^ 3)) * (/
  (((((mi ^ 6) - ((3 * (mj ^ 2)) * (mi ^ 4))) + ((3 * (mj ^ 4)) * (mi ^ 2))) - (mj ^ 6)) ^ 1))) *
  (cos (mi * zt))) * (cos (mj * zt))) * bt)) - (((((((a_slope * mj) * (mi ^ 4)) * (/ (((((mi ^ 6)
  - ((3 * (mj ^ 2)) * (mi ^ 4))) + ((3 * (mj ^ 4)) * (mi ^ 2))) - (mj ^ 6)) ^ 1))) * (cos (mj *
  zb))) * (sin (mi * zb))) * zt) * bt)) + (((((((a_slope * mj) * (mi ^ 4)) * (/ (((((mi ^ 6) - ((3
  * (mj ^ 2)) * (mi ^ 4))) + ((3 * (mj ^ 4)) * (mi ^ 2))) - (mj ^ 6)) ^ 1))) * zb) * (cos (mj *
  zb))) * (sin (mi * zb))) * bt)) - ((((((((2 * a_slope) * (mj ^ 2)) * (mi ^ 3)) * (/ (((((mi ^ 6)
  - ((3 * (mj ^ 2)) * (mi ^ 4))) + ((3 * (mj ^ 4)) * (mi ^ 2))) - (mj ^ 6)) ^ 1))) * (cos (mi *
  zb))) * (sin (mj * zb))) * zt) * bt)) + ((((((((2 * a_slope) * (mj ^ 2)) * (mi ^ 3)) * (/
  (((((mi ^ 6) - ((3 * (mj ^ 2)) * (mi ^ 4))) + ((3 * (mj ^ 4)) * (mi ^ 2))) - (mj ^ 6)) ^ 1))) *
  zb) * (cos (mi * zb))) * (sin (mj * zb))) * bt)) - (((((((2 * a_slope) * (mj ^ 3)) * mi) * (/
  (((((mi ^ 6) - ((3 * (mj ^ 2)) * (mi ^ 4))) + ((3 * (mj ^ 4)) * (mi ^ 2))) - (mj ^ 6)) ^ 1))) *
  (cos (mi * zb))) * (cos (mj * zb))) * bt)) + (((((((2 * a_slope) * (mj ^ 3)) * mi) * (/ (((((mi
  ^ 6) - ((3 * (mj ^ 2)) * (mi ^ 4))) + ((3 * (mj ^ 4)) * (mi ^ 2))) - (mj ^ 6)) ^ 1))) * (cos (mi
  * zt))) * (cos (mj * zt))) * bt)) + ((((((((2 * a_slope) * (mj ^ 3)) * (mi ^ 2)) * (/ (((((mi ^
  6) - ((3 * (mj ^ 2)) * (mi ^ 4))) + ((3 * (mj ^ 4)) * (mi ^ 2))) - (mj ^ 6)) ^ 1))) * (cos (mj *
  zb))) * (sin (mi * zb))) * zt) * bt)) - ((((((((2 * a_slope) * (mj ^ 3)) * (mi ^ 2)) * (/
  (((((mi ^ 6) - ((3 * (mj ^ 2)) * (mi ^ 4))) + ((3 * (mj ^ 4)) * (mi ^ 2))) - (mj ^ 6)) ^ 1))) *
  zb) * (cos (mj * zb))) * (sin (mi * zb))) * bt)) - (((((a_slope * (mj ^ 4)) * (/ (((((mi ^ 6) -
  ((3 * (mj ^ 2)) * (mi ^ 4))) + ((3 * (mj ^ 4)) * (mi ^ 2))) - (mj ^ 6)) ^ 1))) * (sin (mi *
  zb))) * (sin (mj * zb))) * bt)) + (((((a_slope * (mj ^ 4)) * (/ (((((mi ^ 6) - ((3 * (mj ^ 2)) *
  (mi ^ 4))) + ((3 * (mj ^ 4)) * (mi ^ 2))) - (mj ^ 6)) ^ 1))) * (sin (mi * zt))) * (sin (mj *
  zt))) * bt)) + (((((((a_slope * (mj ^ 4)) * mi) * (/ (((((mi ^ 6) - ((3 * (mj ^ 2)) * (mi ^ 4)))
  + ((3 * (mj ^ 4)) * (mi ^ 2))) - (mj ^ 6)) ^ 1))) * (cos (mi * zb))) * (sin (mj * zb))) * zt) *
  bt)) - (((((((a_slope * (mj ^ 4)) * mi) * (/ (((((mi ^ 6) - ((3 * (mj ^ 2)) * (mi ^ 4))) + ((3 *
  (mj ^ 4)) * (mi ^ 2))) - (mj ^ 6)) ^ 1))) * zb) * (cos (mi * zb))) * (sin (mj * zb))) * bt)) -
  ((((((a_slope * (mj ^ 5)) * (/ (((((mi ^ 6) - ((3 * (mj ^ 2)) * (mi ^ 4))) + ((3 * (mj ^ 4)) *
  (mi ^ 2))) - (mj ^ 6)) ^ 1))) * (cos (mj * zb))) * (sin (mi * zb))) * zt) * bt)) + ((((((a_slope
  * (mj ^ 5)) * (/ (((((mi ^ 6) - ((3 * (mj ^ 2)) * (mi ^ 4))) + ((3 * (mj ^ 4)) * (mi ^ 2))) -
  (mj ^ 6)) ^ 1))) * zb) * (cos (mj * zb))) * (sin (mi * zb))) * bt)) + (((((b_slope * (mi ^ 4)) *
  (/ (((((mi ^ 6) - ((3 * (mj ^ 2)) * (mi ^ 4))) + ((3 * (mj ^ 4)) * (mi ^ 2))) - (mj ^ 6)) ^ 1)))
  * (sin (mi * zb))) * (sin (mj * zb))) * at_)) - (((((b_slope * (mi ^ 4)) * (/ (((((mi ^ 6) - ((3
  * (mj ^ 2)) * (mi ^ 4))) + ((3 * (mj ^ 4)) * (mi ^ 2))) - (mj ^ 6)) ^ 1))) * (sin (mi * zt))) *
  (sin (mj * zt))) * at_)) + ((((((b_slope * (mi ^ 5)) * (/ (((((mi ^ 6) - ((3 * (mj ^ 2)) * (mi ^
  4))) + ((3 * (mj ^ 4)) * (mi ^ 2))) - (mj ^ 6)) ^ 1))) * (cos (mi * zb))) * (sin (mj * zb))) *
  zt) * at_)) - ((((((b_slope * (mi ^ 5)) * (/ (((((mi ^ 6) - ((3 * (mj ^ 2)) * (mi ^ 4))) + ((3 *
  (mj ^ 4)) * (mi ^ 2))) - (mj ^ 6)) ^ 1))) * zb) * (cos (mi * zb))) * (sin (mj * zb))) * at_)) +
  (((((((2 * b_slope) * mj) * (mi ^ 3)) * (/ (((((mi ^ 6) - ((3 * (mj ^ 2)) * (mi ^ 4))) + ((3 *
  (mj ^ 4)) * (mi ^ 2))) - (mj ^ 6)) ^ 1))) * (cos (mi * zb))) * (cos (mj * zb))) * at_)) -
  (((((((2 * b_slope) * mj) * (mi ^ 3)) * (/ (((((mi ^ 6) - ((3 * (mj ^ 2)) * (mi ^ 4))) + ((3 *
  (mj ^ 4)) * (mi ^ 2))) - (mj ^ 6)) ^ 1))) * (cos (mi * zt))) * (cos (mj * zt))) * at_)) -
  (((((((b_slope * mj) * (mi ^ 4)) * (/ (((((mi ^ 6) - ((3 * (mj ^ 2)) * (mi ^ 4))) + ((3 * (mj ^
  4)) * (mi ^ 2))) - (mj ^ 6)) ^ 1))) * (cos (mj * zb))) * (sin (mi * zb))) * zt) * at_)) +
  (((((((b_slope * mj) * (mi ^ 4)) * (/ (((((mi ^ 6) - ((3 * (mj ^ 2)) * (mi ^ 4))) + ((3 * (mj ^
  4)) * (mi ^ 2))) - (mj ^ 6)) ^ 1))) * zb) * (cos (mj * zb))) * (sin (mi * zb))) * at_)) -
  ((((((((2 * b_slope) * (mj ^ 2)) * (mi ^ 3)) * (/ (((((mi ^ 6) - ((3 * (mj ^ 2)) * (mi ^ 4))) +
  ((3 * (mj ^ 4)) * (mi ^ 2))) - (mj ^ 6)) ^ 1))) * (cos (mi * zb))) * (sin (mj * zb))) * zt) *
  at_)) + ((((((((2 * b_slope) * (mj ^ 2)) * (mi ^ 3)) * (/ (((((mi ^ 6) - ((3 * (mj ^ 2)) * (mi ^
  4))) + ((3 * (mj ^ 4)) * (mi ^ 2))) - (mj ^ 6)) ^ 1))) * zb) * (cos (mi * zb))) * (sin (mj *
  zb))) * at_)) - (((((((2 * b_slope) * (mj ^ 3)) * mi) * (/ (((((mi ^ 6) - ((3 * (mj ^ 2)) * (mi
  ^ 4))) + ((3 * (mj ^ 4)) * (mi ^ 2))) - (mj ^ 6)) ^ 1))) * (cos (mi * zb))) * (cos (mj * zb))) *
  at_)) + (((((((2 * b_slope) * (mj ^ 3)) * mi) * (/ (((((mi ^ 6) - ((3 * (mj ^ 2)) * (mi ^ 4))) +
  ((3 * (mj ^ 4)) * (mi ^ 2))) - (mj ^ 6)) ^ 1))) * (cos (mi * zt))) * (cos (mj * zt))) * at_)) +
  ((((((((2 * b_slope) * (mj ^ 3)) * (mi ^ 2)) * (/ (((((mi ^ 6) - ((3 * (mj ^ 2)) * (mi ^ 4))) +
  ((3 * (mj ^ 4)) * (mi ^ 2))) - (mj ^ 6)) ^ 1))) * (cos (mj * zb))) * (sin (mi * zb))) * zt) *
  at_)) - ((((((((2 * b_slope) * (mj ^ 3)) * (mi ^ 2)) * (/ (((((mi ^ 6) - ((3 * (mj ^ 2)) * (mi ^
  4))) + ((3 * (mj ^ 4)) * (mi ^ 2))) - (mj ^ 6)) ^ 1))) * zb) * (cos (mj * zb))) * (sin (mi *
  zb))) * at_)) - (((((b_slope * (mj ^ 4)) * (/ (((((mi ^ 6) - ((3 * (mj ^ 2)) * (mi ^ 4))) + ((3
  * (mj ^ 4)) * (mi ^ 2))) - (mj ^ 6)) ^ 1))) * (sin (mi * zb))) * (sin (mj * zb))) * at_)) +
  (((((b_slope * (mj ^ 4)) * (/ (((((mi ^ 6) - ((3 * (mj ^ 2)) * (mi ^ 4))) + ((3 * (mj ^ 4)) *
  (mi ^ 2))) - (mj ^ 6)) ^ 1))) * (sin (mi * zt))) * (sin (mj * zt))) * at_)) + (((((((b_slope *
  (mj ^ 4)) * mi) * (/ (((((mi ^ 6) - ((3 * (mj ^ 2)) * (mi ^ 4))) + ((3 * (mj ^ 4)) * (mi ^ 2)))
  - (mj ^ 6)) ^ 1))) * (cos (mi * zb))) * (sin (mj * zb))) * zt) * at_)) - (((((((b_slope * (mj ^
  4)) * mi) * (/ (((((mi ^ 6) - ((3 * (mj ^ 2)) * (mi ^ 4))) + ((3 * (mj ^ 4)) * (mi ^ 2))) - (mj
  ^ 6)) ^ 1))) * zb) * (cos (mi * zb))) * (sin (mj * zb))) * at_)) - ((((((b_slope * (mj ^ 5)) *
  (/ (((((mi ^ 6) - ((3 * (mj ^ 2)) * (mi ^ 4))) + ((3 * (mj ^ 4)) * (mi ^ 2))) - (mj ^ 6)) ^ 1)))
  * (cos (mj * zb))) * (sin (mi * zb))) * zt) * at_)) + ((((((b_slope * (mj ^ 5)) * (/ (((((mi ^
  6) - ((3 * (mj ^ 2)) * (mi ^ 4))) + ((3 * (mj ^ 4)) * (mi ^ 2))) - (mj ^ 6)) ^ 1))) * zb) * (cos
  (mj * zb))) * (sin (mi * zb))) * at_)) - ((((((mi ^ 5) * (/ (((((mi ^ 6) - ((3 * (mj ^ 2)) * (mi
  ^ 4))) + ((3 * (mj ^ 4)) * (mi ^ 2))) - (mj ^ 6)) ^ 1))) * (cos (mi * zb))) * (sin (mj * zb))) *
  bt) * at_)) + ((((((mi ^ 5) * (/ (((((mi ^ 6) - ((3 * (mj ^ 2)) * (mi ^ 4))) + ((3 * (mj ^ 4)) *
  (mi ^ 2))) - (mj ^ 6)) ^ 1))) * (cos (mi * zt))) * (sin (mj * zt))) * bt) * at_)) + ((((((mj *
  (mi ^ 4)) * (/ (((((mi ^ 6) - ((3 * (mj ^ 2)) * (mi ^ 4))) + ((3 * (mj ^ 4)) * (mi ^ 2))) - (mj
  ^ 6)) ^ 1))) * (cos (mj * zb))) * (sin (mi * zb))) * bt) * at_)) - ((((((mj * (mi ^ 4)) * (/
  (((((mi ^ 6) - ((3 * (mj ^ 2)) * (mi ^ 4))) + ((3 * (mj ^ 4)) * (mi ^ 2))) - (mj ^ 6)) ^ 1))) *
  (cos (mj * zt))) * (sin (mi * zt))) * bt) * at_)) + (((((((2 * (mj ^ 2)) * (mi ^ 3)) * (/
  (((((mi ^ 6) - ((3 * (mj ^ 2)) * (mi ^ 4))) + ((3 * (mj ^ 4)) * (mi ^ 2))) - (mj ^ 6)) ^ 1))) *
  (cos (mi * zb))) * (sin (mj * zb))) * bt) * at_)) - (((((((2 * (mj ^ 2)) * (mi ^ 3)) * (/
  (((((mi ^ 6) - ((3 * (mj ^ 2)) * (mi ^ 4))) + ((3 * (mj ^ 4)) * (mi ^ 2))) - (mj ^ 6)) ^ 1))) *
  (cos (mi * zt))) * (sin (mj * zt))) * bt) * at_)) - (((((((2 * (mj ^ 3)) * (mi ^ 2)) * (/
  (((((mi ^ 6) - ((3 * (mj ^ 2)) * (mi ^ 4))) + ((3 * (mj ^ 4)) * (mi ^ 2))) - (mj ^ 6)) ^ 1))) *
  (cos (mj * zb))) * (sin (mi * zb))) * bt) * at_)) + (((((((2 * (mj ^ 3)) * (mi ^ 2)) * (/
  (((((mi ^ 6) - ((3 * (mj ^ 2)) * (mi ^ 4))) + ((3 * (mj ^ 4)) * (mi ^ 2))) - (mj ^ 6)) ^ 1))) *
  (cos (mj * zt))) * (sin (mi * zt))) * bt) * at_)) - (((((((mj ^ 4) * mi) * (/ (((((mi ^ 6) - ((3
  * (mj ^ 2)) * (mi ^ 4))) + ((3 * (mj ^ 4)) * (mi ^ 2))) - (mj ^ 6)) ^ 1))) * (cos (mi * zb))) *
  (sin (mj * zb))) * bt) * at_)) + (((((((mj ^ 4) * mi) * (/ (((((mi ^ 6) - ((3 * (mj ^ 2)) * (mi
  ^ 4))) + ((3 * (mj ^ 4)) * (mi ^ 2))) - (mj ^ 6)) ^ 1))) * (cos (mi * zt))) * (sin (mj * zt))) *
  bt) * at_)) + ((((((mj ^ 5) * (/ (((((mi ^ 6) - ((3 * (mj ^ 2)) * (mi ^ 4))) + ((3 * (mj ^ 4)) *
  (mi ^ 2))) - (mj ^ 6)) ^ 1))) * (cos (mj * zb))) * (sin (mi * zb))) * bt) * at_)) - ((((((mj ^
  5) * (/ (((((mi ^ 6) - ((3 * (mj ^ 2)) * (mi ^ 4))) + ((3 * (mj ^ 4)) * (mi ^ 2))) - (mj ^ 6)) ^
  1))) * (cos (mj * zt))) * (sin (mi * zt))) * bt) * at_)).

(** integrals.py:1791-1814 (dim1sin_abf_linear, vectorized, diagonal entry) *)
Definition abf_vectorized_diag (a_slope b_slope at_ bt zt zb mi : R) : R :=
  ((((((((((((((((((((((((((((((((((((((((((((((((a_slope * b_slope) * zb) * ((sin (mi * zb)) ^
  2)) * (zt ^ 2)) / 2) + (((((a_slope * b_slope) * zb) * ((cos (mi * zb)) ^ 2)) * (zt ^ 2)) / 2))
  - (((((a_slope * b_slope) * (zb ^ 2)) * ((sin (mi * zb)) ^ 2)) * zt) / 2)) - (((((a_slope *
  b_slope) * (zb ^ 2)) * ((cos (mi * zb)) ^ 2)) * zt) / 2)) + ((((a_slope * b_slope) * (zb ^ 3)) *
  ((sin (mi * zb)) ^ 2)) / 6)) + ((((a_slope * b_slope) * (zb ^ 3)) * ((cos (mi * zb)) ^ 2)) / 6))
  - ((((a_slope * b_slope) * (zt ^ 3)) * ((sin (mi * zt)) ^ 2)) / 6)) - ((((a_slope * b_slope) *
  (zt ^ 3)) * ((cos (mi * zt)) ^ 2)) / 6)) - (((((a_slope * b_slope) * (cos (mi * zb))) * (sin (mi
  * zb))) * (zt ^ 2)) / (2 * mi))) + ((((((a_slope * b_slope) * zb) * (cos (mi * zb))) * (sin (mi
  * zb))) * zt) / mi)) - (((((a_slope * b_slope) * (zb ^ 2)) * (cos (mi * zb))) * (sin (mi * zb)))
  / (2 * mi))) - ((((a_slope * b_slope) * ((sin (mi * zb)) ^ 2)) * zt) / (2 * (mi ^ 2)))) +
  ((((a_slope * b_slope) * zb) * ((sin (mi * zb)) ^ 2)) / (4 * (mi ^ 2)))) - ((((a_slope *
  b_slope) * zb) * ((cos (mi * zb)) ^ 2)) / (4 * (mi ^ 2)))) + ((((a_slope * b_slope) * zt) *
  ((sin (mi * zt)) ^ 2)) / (4 * (mi ^ 2)))) + ((((a_slope * b_slope) * zt) * ((cos (mi * zt)) ^
  2)) / (4 * (mi ^ 2)))) + ((((a_slope * b_slope) * (cos (mi * zb))) * (sin (mi * zb))) / (4 * (mi
  ^ 3)))) - ((((a_slope * b_slope) * (cos (mi * zt))) * (sin (mi * zt))) / (4 * (mi ^ 3)))) -
  (((((a_slope * zb) * ((sin (mi * zb)) ^ 2)) * zt) * bt) / 2)) - (((((a_slope * zb) * ((cos (mi *
  zb)) ^ 2)) * zt) * bt) / 2)) + ((((a_slope * (zb ^ 2)) * ((sin (mi * zb)) ^ 2)) * bt) / 4)) +
  ((((a_slope * (zb ^ 2)) * ((cos (mi * zb)) ^ 2)) * bt) / 4)) + ((((a_slope * (zt ^ 2)) * ((sin
  (mi * zt)) ^ 2)) * bt) / 4)) + ((((a_slope * (zt ^ 2)) * ((cos (mi * zt)) ^ 2)) * bt) / 4)) +
  (((((a_slope * (cos (mi * zb))) * (sin (mi * zb))) * zt) * bt) / (2 * mi))) - (((((a_slope * zb)
  * (cos (mi * zb))) * (sin (mi * zb))) * bt) / (2 * mi))) + (((a_slope * ((sin (mi * zb)) ^ 2)) *
  bt) / (4 * (mi ^ 2)))) - (((a_slope * ((sin (mi * zt)) ^ 2)) * bt) / (4 * (mi ^ 2)))) -
  (((((b_slope * zb) * ((sin (mi * zb)) ^ 2)) * zt) * at_) / 2)) - (((((b_slope * zb) * ((cos (mi
  * zb)) ^ 2)) * zt) * at_) / 2)) + ((((b_slope * (zb ^ 2)) * ((sin (mi * zb)) ^ 2)) * at_) / 4))
  + ((((b_slope * (zb ^ 2)) * ((cos (mi * zb)) ^ 2)) * at_) / 4)) + ((((b_slope * (zt ^ 2)) *
  ((sin (mi * zt)) ^ 2)) * at_) / 4)) + ((((b_slope * (zt ^ 2)) * ((cos (mi * zt)) ^ 2)) * at_) /
  4)) + (((((b_slope * (cos (mi * zb))) * (sin (mi * zb))) * zt) * at_) / (2 * mi))) -
  (((((b_slope * zb) * (cos (mi * zb))) * (sin (mi * zb))) * at_) / (2 * mi))) + (((b_slope *
  ((sin (mi * zb)) ^ 2)) * at_) / (4 * (mi ^ 2)))) - (((b_slope * ((sin (mi * zt)) ^ 2)) * at_) /
  (4 * (mi ^ 2)))) + ((((zb * ((sin (mi * zb)) ^ 2)) * bt) * at_) / 2)) + ((((zb * ((cos (mi *
  zb)) ^ 2)) * bt) * at_) / 2)) - ((((zt * ((sin (mi * zt)) ^ 2)) * bt) * at_) / 2)) - ((((zt *
  ((cos (mi * zt)) ^ 2)) * bt) * at_) / 2)) - (((((cos (mi * zb)) * (sin (mi * zb))) * bt) * at_)
  / (2 * mi))) + (((((cos (mi * zt)) * (sin (mi * zt))) * bt) * at_) / (2 * mi))).

(** integrals.py:1818-1931 (dim1sin_abf_linear, vectorized, entry i<j) *)
Definition abf_vectorized_off (a_slope b_slope at_ bt zt zb mi mj : R) : R :=
  ((((((((((((((((((((((((((((((((((((((((((((((((((((((((((((((((((((((((((((((((((((((((((((-
  a_slope) * b_slope) * (mi ^ 5)) * (cos (mi * zb))) * (sin (mj * zb))) * (zt ^ 2)) / ((((mi ^ 6)
  - ((3 * (mi ^ 4)) * (mj ^ 2))) + ((3 * (mi ^ 2)) * (mj ^ 4))) - (mj ^ 6))) + ((((((((2 *
  a_slope) * b_slope) * (mi ^ 5)) * zb) * (cos (mi * zb))) * (sin (mj * zb))) * zt) / ((((mi ^ 6)
  - ((3 * (mi ^ 4)) * (mj ^ 2))) + ((3 * (mi ^ 2)) * (mj ^ 4))) - (mj ^ 6)))) - ((((((a_slope *
  b_slope) * (mi ^ 5)) * (zb ^ 2)) * (cos (mi * zb))) * (sin (mj * zb))) / ((((mi ^ 6) - ((3 * (mi
  ^ 4)) * (mj ^ 2))) + ((3 * (mi ^ 2)) * (mj ^ 4))) - (mj ^ 6)))) + (((((((a_slope * b_slope) *
  (mi ^ 4)) * mj) * (cos (mj * zb))) * (sin (mi * zb))) * (zt ^ 2)) / ((((mi ^ 6) - ((3 * (mi ^
  4)) * (mj ^ 2))) + ((3 * (mi ^ 2)) * (mj ^ 4))) - (mj ^ 6)))) - (((((((((2 * a_slope) * b_slope)
  * (mi ^ 4)) * mj) * zb) * (cos (mj * zb))) * (sin (mi * zb))) * zt) / ((((mi ^ 6) - ((3 * (mi ^
  4)) * (mj ^ 2))) + ((3 * (mi ^ 2)) * (mj ^ 4))) - (mj ^ 6)))) + (((((((a_slope * b_slope) * (mi
  ^ 4)) * mj) * (zb ^ 2)) * (cos (mj * zb))) * (sin (mi * zb))) / ((((mi ^ 6) - ((3 * (mi ^ 4)) *
  (mj ^ 2))) + ((3 * (mi ^ 2)) * (mj ^ 4))) - (mj ^ 6)))) - (((((((2 * a_slope) * b_slope) * (mi ^
  4)) * (sin (mi * zb))) * (sin (mj * zb))) * zt) / ((((mi ^ 6) - ((3 * (mi ^ 4)) * (mj ^ 2))) +
  ((3 * (mi ^ 2)) * (mj ^ 4))) - (mj ^ 6)))) + (((((((2 * a_slope) * b_slope) * (mi ^ 4)) * zb) *
  (sin (mi * zb))) * (sin (mj * zb))) / ((((mi ^ 6) - ((3 * (mi ^ 4)) * (mj ^ 2))) + ((3 * (mi ^
  2)) * (mj ^ 4))) - (mj ^ 6)))) + ((((((((2 * a_slope) * b_slope) * (mi ^ 3)) * (mj ^ 2)) * (cos
  (mi * zb))) * (sin (mj * zb))) * (zt ^ 2)) / ((((mi ^ 6) - ((3 * (mi ^ 4)) * (mj ^ 2))) + ((3 *
  (mi ^ 2)) * (mj ^ 4))) - (mj ^ 6)))) - (((((((((4 * a_slope) * b_slope) * (mi ^ 3)) * (mj ^ 2))
  * zb) * (cos (mi * zb))) * (sin (mj * zb))) * zt) / ((((mi ^ 6) - ((3 * (mi ^ 4)) * (mj ^ 2))) +
  ((3 * (mi ^ 2)) * (mj ^ 4))) - (mj ^ 6)))) + ((((((((2 * a_slope) * b_slope) * (mi ^ 3)) * (mj ^
  2)) * (zb ^ 2)) * (cos (mi * zb))) * (sin (mj * zb))) / ((((mi ^ 6) - ((3 * (mi ^ 4)) * (mj ^
  2))) + ((3 * (mi ^ 2)) * (mj ^ 4))) - (mj ^ 6)))) - ((((((((4 * a_slope) * b_slope) * (mi ^ 3))
  * mj) * (cos (mi * zb))) * (cos (mj * zb))) * zt) / ((((mi ^ 6) - ((3 * (mi ^ 4)) * (mj ^ 2))) +
  ((3 * (mi ^ 2)) * (mj ^ 4))) - (mj ^ 6)))) + ((((((((4 * a_slope) * b_slope) * (mi ^ 3)) * mj) *
  zb) * (cos (mi * zb))) * (cos (mj * zb))) / ((((mi ^ 6) - ((3 * (mi ^ 4)) * (mj ^ 2))) + ((3 *
  (mi ^ 2)) * (mj ^ 4))) - (mj ^ 6)))) + ((((((2 * a_slope) * b_slope) * (mi ^ 3)) * (cos (mi *
  zb))) * (sin (mj * zb))) / ((((mi ^ 6) - ((3 * (mi ^ 4)) * (mj ^ 2))) + ((3 * (mi ^ 2)) * (mj ^
  4))) - (mj ^ 6)))) - ((((((2 * a_slope) * b_slope) * (mi ^ 3)) * (cos (mi * zt))) * (sin (mj *
  zt))) / ((((mi ^ 6) - ((3 * (mi ^ 4)) * (mj ^ 2))) + ((3 * (mi ^ 2)) * (mj ^ 4))) - (mj ^ 6))))
  - ((((((((2 * a_slope) * b_slope) * (mi ^ 2)) * (mj ^ 3)) * (cos (mj * zb))) * (sin (mi * zb)))
  * (zt ^ 2)) / ((((mi ^ 6) - ((3 * (mi ^ 4)) * (mj ^ 2))) + ((3 * (mi ^ 2)) * (mj ^ 4))) - (mj ^
  6)))) + (((((((((4 * a_slope) * b_slope) * (mi ^ 2)) * (mj ^ 3)) * zb) * (cos (mj * zb))) * (sin
  (mi * zb))) * zt) / ((((mi ^ 6) - ((3 * (mi ^ 4)) * (mj ^ 2))) + ((3 * (mi ^ 2)) * (mj ^ 4))) -
  (mj ^ 6)))) - ((((((((2 * a_slope) * b_slope) * (mi ^ 2)) * (mj ^ 3)) * (zb ^ 2)) * (cos (mj *
  zb))) * (sin (mi * zb))) / ((((mi ^ 6) - ((3 * (mi ^ 4)) * (mj ^ 2))) + ((3 * (mi ^ 2)) * (mj ^
  4))) - (mj ^ 6)))) - (((((((6 * a_slope) * b_slope) * (mi ^ 2)) * mj) * (cos (mj * zb))) * (sin
  (mi * zb))) / ((((mi ^ 6) - ((3 * (mi ^ 4)) * (mj ^ 2))) + ((3 * (mi ^ 2)) * (mj ^ 4))) - (mj ^
  6)))) + (((((((6 * a_slope) * b_slope) * (mi ^ 2)) * mj) * (cos (mj * zt))) * (sin (mi * zt))) /
  ((((mi ^ 6) - ((3 * (mi ^ 4)) * (mj ^ 2))) + ((3 * (mi ^ 2)) * (mj ^ 4))) - (mj ^ 6)))) -
  (((((((a_slope * b_slope) * mi) * (mj ^ 4)) * (cos (mi * zb))) * (sin (mj * zb))) * (zt ^ 2)) /
  ((((mi ^ 6) - ((3 * (mi ^ 4)) * (mj ^ 2))) + ((3 * (mi ^ 2)) * (mj ^ 4))) - (mj ^ 6)))) +
  (((((((((2 * a_slope) * b_slope) * mi) * (mj ^ 4)) * zb) * (cos (mi * zb))) * (sin (mj * zb))) *
  zt) / ((((mi ^ 6) - ((3 * (mi ^ 4)) * (mj ^ 2))) + ((3 * (mi ^ 2)) * (mj ^ 4))) - (mj ^ 6)))) -
  (((((((a_slope * b_slope) * mi) * (mj ^ 4)) * (zb ^ 2)) * (cos (mi * zb))) * (sin (mj * zb))) /
  ((((mi ^ 6) - ((3 * (mi ^ 4)) * (mj ^ 2))) + ((3 * (mi ^ 2)) * (mj ^ 4))) - (mj ^ 6)))) +
  ((((((((4 * a_slope) * b_slope) * mi) * (mj ^ 3)) * (cos (mi * zb))) * (cos (mj * zb))) * zt) /
  ((((mi ^ 6) - ((3 * (mi ^ 4)) * (mj ^ 2))) + ((3 * (mi ^ 2)) * (mj ^ 4))) - (mj ^ 6)))) -
  ((((((((4 * a_slope) * b_slope) * mi) * (mj ^ 3)) * zb) * (cos (mi * zb))) * (cos (mj * zb))) /
  ((((mi ^ 6) - ((3 * (mi ^ 4)) * (mj ^ 2))) + ((3 * (mi ^ 2)) * (mj ^ 4))) - (mj ^ 6)))) +
  (((((((6 * a_slope) * b_slope) * mi) * (mj ^ 2)) * (cos (mi * zb))) * (sin (mj * zb))) / ((((mi
  ^ 6) - ((3 * (mi ^ 4)) * (mj ^ 2))) + ((3 * (mi ^ 2)) * (mj ^ 4))) - (mj ^ 6)))) - (((((((6 *
  a_slope) * b_slope) * mi) * (mj ^ 2)) * (cos (mi * zt))) * (sin (mj * zt))) / ((((mi ^ 6) - ((3
  * (mi ^ 4)) * (mj ^ 2))) + ((3 * (mi ^ 2)) * (mj ^ 4))) - (mj ^ 6)))) + ((((((a_slope * b_slope)
  * (mj ^ 5)) * (cos (mj * zb))) * (sin (mi * zb))) * (zt ^ 2)) / ((((mi ^ 6) - ((3 * (mi ^ 4)) *
  (mj ^ 2))) + ((3 * (mi ^ 2)) * (mj ^ 4))) - (mj ^ 6)))) - ((((((((2 * a_slope) * b_slope) * (mj
  ^ 5)) * zb) * (cos (mj * zb))) * (sin (mi * zb))) * zt) / ((((mi ^ 6) - ((3 * (mi ^ 4)) * (mj ^
  2))) + ((3 * (mi ^ 2)) * (mj ^ 4))) - (mj ^ 6)))) + ((((((a_slope * b_slope) * (mj ^ 5)) * (zb ^
  2)) * (cos (mj * zb))) * (sin (mi * zb))) / ((((mi ^ 6) - ((3 * (mi ^ 4)) * (mj ^ 2))) + ((3 *
  (mi ^ 2)) * (mj ^ 4))) - (mj ^ 6)))) + (((((((2 * a_slope) * b_slope) * (mj ^ 4)) * (sin (mi *
  zb))) * (sin (mj * zb))) * zt) / ((((mi ^ 6) - ((3 * (mi ^ 4)) * (mj ^ 2))) + ((3 * (mi ^ 2)) *
  (mj ^ 4))) - (mj ^ 6)))) - (((((((2 * a_slope) * b_slope) * (mj ^ 4)) * zb) * (sin (mi * zb))) *
  (sin (mj * zb))) / ((((mi ^ 6) - ((3 * (mi ^ 4)) * (mj ^ 2))) + ((3 * (mi ^ 2)) * (mj ^ 4))) -
  (mj ^ 6)))) - ((((((2 * a_slope) * b_slope) * (mj ^ 3)) * (cos (mj * zb))) * (sin (mi * zb))) /
  ((((mi ^ 6) - ((3 * (mi ^ 4)) * (mj ^ 2))) + ((3 * (mi ^ 2)) * (mj ^ 4))) - (mj ^ 6)))) +
  ((((((2 * a_slope) * b_slope) * (mj ^ 3)) * (cos (mj * zt))) * (sin (mi * zt))) / ((((mi ^ 6) -
  ((3 * (mi ^ 4)) * (mj ^ 2))) + ((3 * (mi ^ 2)) * (mj ^ 4))) - (mj ^ 6)))) + ((((((a_slope * (mi
  ^ 5)) * (cos (mi * zb))) * (sin (mj * zb))) * zt) * bt) / ((((mi ^ 6) - ((3 * (mi ^ 4)) * (mj ^
  2))) + ((3 * (mi ^ 2)) * (mj ^ 4))) - (mj ^ 6)))) - ((((((a_slope * (mi ^ 5)) * zb) * (cos (mi *
  zb))) * (sin (mj * zb))) * bt) / ((((mi ^ 6) - ((3 * (mi ^ 4)) * (mj ^ 2))) + ((3 * (mi ^ 2)) *
  (mj ^ 4))) - (mj ^ 6)))) - (((((((a_slope * (mi ^ 4)) * mj) * (cos (mj * zb))) * (sin (mi *
  zb))) * zt) * bt) / ((((mi ^ 6) - ((3 * (mi ^ 4)) * (mj ^ 2))) + ((3 * (mi ^ 2)) * (mj ^ 4))) -
  (mj ^ 6)))) + (((((((a_slope * (mi ^ 4)) * mj) * zb) * (cos (mj * zb))) * (sin (mi * zb))) * bt)
  / ((((mi ^ 6) - ((3 * (mi ^ 4)) * (mj ^ 2))) + ((3 * (mi ^ 2)) * (mj ^ 4))) - (mj ^ 6)))) +
  (((((a_slope * (mi ^ 4)) * (sin (mi * zb))) * (sin (mj * zb))) * bt) / ((((mi ^ 6) - ((3 * (mi ^
  4)) * (mj ^ 2))) + ((3 * (mi ^ 2)) * (mj ^ 4))) - (mj ^ 6)))) - (((((a_slope * (mi ^ 4)) * (sin
  (mi * zt))) * (sin (mj * zt))) * bt) / ((((mi ^ 6) - ((3 * (mi ^ 4)) * (mj ^ 2))) + ((3 * (mi ^
  2)) * (mj ^ 4))) - (mj ^ 6)))) - ((((((((2 * a_slope) * (mi ^ 3)) * (mj ^ 2)) * (cos (mi * zb)))
  * (sin (mj * zb))) * zt) * bt) / ((((mi ^ 6) - ((3 * (mi ^ 4)) * (mj ^ 2))) + ((3 * (mi ^ 2)) *
  (mj ^ 4))) - (mj ^ 6)))) + ((((((((2 * a_slope) * (mi ^ 3)) * (mj ^ 2)) * zb) * (cos (mi * zb)))
  * (sin (mj * zb))) * bt) / ((((mi ^ 6) - ((3 * (mi ^ 4)) * (mj ^ 2))) + ((3 * (mi ^ 2)) * (mj ^
  4))) - (mj ^ 6)))) + (((((((2 * a_slope) * (mi ^ 3)) * mj) * (cos (mi * zb))) * (cos (mj * zb)))
  * bt) / ((((mi ^ 6) - ((3 * (mi ^ 4)) * (mj ^ 2))) + ((3 * (mi ^ 2)) * (mj ^ 4))) - (mj ^ 6))))
  - (((((((2 * a_slope) * (mi ^ 3)) * mj) * (cos (mi * zt))) * (cos (mj * zt))) * bt) / ((((mi ^
  6) - ((3 * (mi ^ 4)) * (mj ^ 2))) + ((3 * (mi ^ 2)) * (mj ^ 4))) - (mj ^ 6)))) + ((((((((2 *
  a_slope) * (mi ^ 2)) * (mj ^ 3)) * (cos (mj * zb))) * (sin (mi * zb))) * zt) * bt) / ((((mi ^ 6)
  - ((3 * (mi ^ 4)) * (mj ^ 2))) + ((3 * (mi ^ 2)) * (mj ^ 4))) - (mj ^ 6)))) - ((((((((2 *
  a_slope) * (mi ^ 2)) * (mj ^ 3)) * zb) * (cos (mj * zb))) * (sin (mi * zb))) * bt) / ((((mi ^ 6)
  - ((3 * (mi ^ 4)) * (mj ^ 2))) + ((3 * (mi ^ 2)) * (mj ^ 4))) - (mj ^ 6)))) + (((((((a_slope *
  mi) * (mj ^ 4)) * (cos (mi * zb))) * (sin (mj * zb))) * zt) * bt) / ((((mi ^ 6) - ((3 * (mi ^
  4)) * (mj ^ 2))) + ((3 * (mi ^ 2)) * (mj ^ 4))) - (mj ^ 6)))) - (((((((a_slope * mi) * (mj ^ 4))
  * zb) * (cos (mi * zb))) * (sin (mj * zb))) * bt) / ((((mi ^ 6) - ((3 * (mi ^ 4)) * (mj ^ 2))) +
  ((3 * (mi ^ 2)) * (mj ^ 4))) - (mj ^ 6)))) - (((((((2 * a_slope) * mi) * (mj ^ 3)) * (cos (mi *
  zb))) * (cos (mj * zb))) * bt) / ((((mi ^ 6) - ((3 * (mi ^ 4)) * (mj ^ 2))) + ((3 * (mi ^ 2)) *
  (mj ^ 4))) - (mj ^ 6)))) + (((((((2 * a_slope) * mi) * (mj ^ 3)) * (cos (mi * zt))) * (cos (mj *
  zt))) * bt) / ((((mi ^ 6) - ((3 * (mi ^ 4)) * (mj ^ 2))) + ((3 * (mi ^ 2)) * (mj ^ 4))) - (mj ^
  6)))) - ((((((a_slope * (mj ^ 5)) * (cos (mj * zb))) * (sin (mi * zb))) * zt) * bt) / ((((mi ^
  6) - ((3 * (mi ^ 4)) * (mj ^ 2))) + ((3 * (mi ^ 2)) * (mj ^ 4))) - (mj ^ 6)))) + ((((((a_slope *
  (mj ^ 5)) * zb) * (cos (mj * zb))) * (sin (mi * zb))) * bt) / ((((mi ^ 6) - ((3 * (mi ^ 4)) *
  (mj ^ 2))) + ((3 * (mi ^ 2)) * (mj ^ 4))) - (mj ^ 6)))) - (((((a_slope * (mj ^ 4)) * (sin (mi *
  zb))) * (sin (mj * zb))) * bt) / ((((mi ^ 6) - ((3 * (mi ^ 4)) * (mj ^ 2))) + ((3 * (mi ^ 2)) *
  (mj ^ 4))) - (mj ^ 6)))) + (((((a_slope * (mj ^ 4)) * (sin (mi * zt))) * (sin (mj * zt))) * bt)
  / ((((mi ^ 6) - ((3 * (mi ^ 4)) * (mj ^ 2))) + ((3 * (mi ^ 2)) * (mj ^ 4))) - (mj ^ 6)))) +
  ((((((b_slope * (mi ^ 5)) * (cos (mi * zb))) * (sin (mj * zb))) * zt) * at_) / ((((mi ^ 6) - ((3
  * (mi ^ 4)) * (mj ^ 2))) + ((3 * (mi ^ 2)) * (mj ^ 4))) - (mj ^ 6)))) - ((((((b_slope * (mi ^
  5)) * zb) * (cos (mi * zb))) * (sin (mj * zb))) * at_) / ((((mi ^ 6) - ((3 * (mi ^ 4)) * (mj ^
  2))) + ((3 * (mi ^ 2)) * (mj ^ 4))) - (mj ^ 6)))) - (((((((b_slope * (mi ^ 4)) * mj) * (cos (mj
  * zb))) * (sin (mi * zb))) * zt) * at_) / ((((mi ^ 6) - ((3 * (mi ^ 4)) * (mj ^ 2))) + ((3 * (mi
  ^ 2)) * (mj ^ 4))) - (mj ^ 6)))) + (((((((b_slope * (mi ^ 4)) * mj) * zb) * (cos (mj * zb))) *
  (sin (mi * zb))) * at_) / ((((mi ^ 6) - ((3 * (mi ^ 4)) * (mj ^ 2))) + ((3 * (mi ^ 2)) * (mj ^
  4))) - (mj ^ 6)))) + (((((b_slope * (mi ^ 4)) * (sin (mi * zb))) * (sin (mj * zb))) * at_) /
  ((((mi ^ 6) - ((3 * (mi ^ 4)) * (mj ^ 2))) + ((3 * (mi ^ 2)) * (mj ^ 4))) - (mj ^ 6)))) -
  (((((b_slope * (mi ^ 4)) * (sin (mi * zt))) * (sin (mj * zt))) * at_) / ((((mi ^ 6) - ((3 * (mi
  ^ 4)) * (mj ^ 2))) + ((3 * (mi ^ 2)) * (mj ^ 4))) - (mj ^ 6)))) - ((((((((2 * b_slope) * (mi ^
  3)) * (mj ^ 2)) * (cos (mi * zb))) * (sin (mj * zb))) * zt) * at_) / ((((mi ^ 6) - ((3 * (mi ^
  4)) * (mj ^ 2))) + ((3 * (mi ^ 2)) * (mj ^ 4))) - (mj ^ 6)))) + ((((((((2 * b_slope) * (mi ^ 3))
  * (mj ^ 2)) * zb) * (cos (mi * zb))) * (sin (mj * zb))) * at_) / ((((mi ^ 6) - ((3 * (mi ^ 4)) *
  (mj ^ 2))) + ((3 * (mi ^ 2)) * (mj ^ 4))) - (mj ^ 6)))) + (((((((2 * b_slope) * (mi ^ 3)) * mj)
  * (cos (mi * zb))) * (cos (mj * zb))) * at_) / ((((mi ^ 6) - ((3 * (mi ^ 4)) * (mj ^ 2))) + ((3
  * (mi ^ 2)) * (mj ^ 4))) - (mj ^ 6)))) - (((((((2 * b_slope) * (mi ^ 3)) * mj) * (cos (mi *
  zt))) * (cos (mj * zt))) * at_) / ((((mi ^ 6) - ((3 * (mi ^ 4)) * (mj ^ 2))) + ((3 * (mi ^ 2)) *
  (mj ^ 4))) - (mj ^ 6)))) + ((((((((2 * b_slope) * (mi ^ 2)) * (mj ^ 3)) * (cos (mj * zb))) *
  (sin (mi * zb))) * zt) * at_) / ((((mi ^ 6) - ((3 * (mi ^ 4)) * (mj ^ 2))) + ((3 * (mi ^ 2)) *
  (mj ^ 4))) - (mj ^ 6)))) - ((((((((2 * b_slope) * (mi ^ 2)) * (mj ^ 3)) * zb) * (cos (mj * zb)))
  * (sin (mi * zb))) * at_) / ((((mi ^ 6) - ((3 * (mi ^ 4)) * (mj ^ 2))) + ((3 * (mi ^ 2)) * (mj ^
  4))) - (mj ^ 6)))) + (((((((b_slope * mi) * (mj ^ 4)) * (cos (mi * zb))) * (sin (mj * zb))) *
  zt) * at_) / ((((mi ^ 6) - ((3 * (mi ^ 4)) * (mj ^ 2))) + ((3 * (mi ^ 2)) * (mj ^ 4))) - (mj ^
  6)))) - (((((((b_slope * mi) * (mj ^ 4)) * zb) * (cos (mi * zb))) * (sin (mj * zb))) * at_) /
  ((((mi ^ 6) - ((3 * (mi ^ 4)) * (mj ^ 2))) + ((3 * (mi ^ 2)) * (mj ^ 4))) - (mj ^ 6)))) -
  (((((((2 * b_slope) * mi) * (mj ^ 3)) * (cos (mi * zb))) * (cos (mj * zb))) * at_) / ((((mi ^ 6)
  - ((3 * (mi ^ 4)) * (mj ^ 2))) + ((3 * (mi ^ 2)) * (mj ^ 4))) - (mj ^ 6)))) + (((((((2 *
  b_slope) * mi) * (mj ^ 3)) * (cos (mi * zt))) * (cos (mj * zt))) * at_) / ((((mi ^ 6) - ((3 *
  (mi ^ 4)) * (mj ^ 2))) + ((3 * (mi ^ 2)) * (mj ^ 4))) - (mj ^ 6)))) - ((((((b_slope * (mj ^ 5))
  * (cos (mj * zb))) * (sin (mi * zb))) * zt) * at_) / ((((mi ^ 6) - ((3 * (mi ^ 4)) * (mj ^ 2)))
  + ((3 * (mi ^ 2)) * (mj ^ 4))) - (mj ^ 6)))) + ((((((b_slope * (mj ^ 5)) * zb) * (cos (mj *
  zb))) * (sin (mi * zb))) * at_) / ((((mi ^ 6) - ((3 * (mi ^ 4)) * (mj ^ 2))) + ((3 * (mi ^ 2)) *
  (mj ^ 4))) - (mj ^ 6)))) - (((((b_slope * (mj ^ 4)) * (sin (mi * zb))) * (sin (mj * zb))) * at_)
  / ((((mi ^ 6) - ((3 * (mi ^ 4)) * (mj ^ 2))) + ((3 * (mi ^ 2)) * (mj ^ 4))) - (mj ^ 6)))) +
  (((((b_slope * (mj ^ 4)) * (sin (mi * zt))) * (sin (mj * zt))) * at_) / ((((mi ^ 6) - ((3 * (mi
  ^ 4)) * (mj ^ 2))) + ((3 * (mi ^ 2)) * (mj ^ 4))) - (mj ^ 6)))) - ((((((mi ^ 5) * (cos (mi *
  zb))) * (sin (mj * zb))) * bt) * at_) / ((((mi ^ 6) - ((3 * (mi ^ 4)) * (mj ^ 2))) + ((3 * (mi ^
  2)) * (mj ^ 4))) - (mj ^ 6)))) + ((((((mi ^ 5) * (cos (mi * zt))) * (sin (mj * zt))) * bt) *
  at_) / ((((mi ^ 6) - ((3 * (mi ^ 4)) * (mj ^ 2))) + ((3 * (mi ^ 2)) * (mj ^ 4))) - (mj ^ 6)))) +
  (((((((mi ^ 4) * mj) * (cos (mj * zb))) * (sin (mi * zb))) * bt) * at_) / ((((mi ^ 6) - ((3 *
  (mi ^ 4)) * (mj ^ 2))) + ((3 * (mi ^ 2)) * (mj ^ 4))) - (mj ^ 6)))) - (((((((mi ^ 4) * mj) *
  (cos (mj * zt))) * (sin (mi * zt))) * bt) * at_) / ((((mi ^ 6) - ((3 * (mi ^ 4)) * (mj ^ 2))) +
  ((3 * (mi ^ 2)) * (mj ^ 4))) - (mj ^ 6)))) + (((((((2 * (mi ^ 3)) * (mj ^ 2)) * (cos (mi * zb)))
  * (sin (mj * zb))) * bt) * at_) / ((((mi ^ 6) - ((3 * (mi ^ 4)) * (mj ^ 2))) + ((3 * (mi ^ 2)) *
  (mj ^ 4))) - (mj ^ 6)))) - (((((((2 * (mi ^ 3)) * (mj ^ 2)) * (cos (mi * zt))) * (sin (mj *
  zt))) * bt) * at_) / ((((mi ^ 6) - ((3 * (mi ^ 4)) * (mj ^ 2))) + ((3 * (mi ^ 2)) * (mj ^ 4))) -
  (mj ^ 6)))) - (((((((2 * (mi ^ 2)) * (mj ^ 3)) * (cos (mj * zb))) * (sin (mi * zb))) * bt) *
  at_) / ((((mi ^ 6) - ((3 * (mi ^ 4)) * (mj ^ 2))) + ((3 * (mi ^ 2)) * (mj ^ 4))) - (mj ^ 6)))) +
  (((((((2 * (mi ^ 2)) * (mj ^ 3)) * (cos (mj * zt))) * (sin (mi * zt))) * bt) * at_) / ((((mi ^
  6) - ((3 * (mi ^ 4)) * (mj ^ 2))) + ((3 * (mi ^ 2)) * (mj ^ 4))) - (mj ^ 6)))) - ((((((mi * (mj
  ^ 4)) * (cos (mi * zb))) * (sin (mj * zb))) * bt) * at_) / ((((mi ^ 6) - ((3 * (mi ^ 4)) * (mj ^
  2))) + ((3 * (mi ^ 2)) * (mj ^ 4))) - (mj ^ 6)))) + ((((((mi * (mj ^ 4)) * (cos (mi * zt))) *
  (sin (mj * zt))) * bt) * at_) / ((((mi ^ 6) - ((3 * (mi ^ 4)) * (mj ^ 2))) + ((3 * (mi ^ 2)) *
  (mj ^ 4))) - (mj ^ 6)))) + ((((((mj ^ 5) * (cos (mj * zb))) * (sin (mi * zb))) * bt) * at_) /
  ((((mi ^ 6) - ((3 * (mi ^ 4)) * (mj ^ 2))) + ((3 * (mi ^ 2)) * (mj ^ 4))) - (mj ^ 6)))) -
  ((((((mj ^ 5) * (cos (mj * zt))) * (sin (mi * zt))) * bt) * at_) / ((((mi ^ 6) - ((3 * (mi ^ 4))
  * (mj ^ 2))) + ((3 * (mi ^ 2)) * (mj ^ 4))) - (mj ^ 6)))).

(** integrals.py:6868-6911 (dim1sin_DD_abDDf_linear, scalar, diagonal entry) *)
Definition DDabDDf_scalar_diag (a_slope b_slope at_ bt zt zb mi : R) : R :=
  (((- (mi ^ 4)) * ((((((((((((((((((a_slope * b_slope) * (/ (mi ^ 3))) * (cos (zt * mi))) * (sin
  (zt * mi))) / 4) + (((((a_slope * b_slope) * zt) * (/ (mi ^ 2))) * ((sin (zt * mi)) ^ 2)) / 4))
  + (((((a_slope * b_slope) * zt) * (/ (mi ^ 2))) * ((cos (zt * mi)) ^ 2)) / 4)) + ((((a_slope *
  b_slope) * (zt ^ 3)) * ((sin (zt * mi)) ^ 2)) / 6)) + ((((a_slope * b_slope) * (zt ^ 3)) * ((cos
  (zt * mi)) ^ 2)) / 6)) - ((((a_slope * bt) * (/ (mi ^ 2))) * ((cos (zt * mi)) ^ 2)) / 4)) -
  ((((a_slope * (zt ^ 2)) * bt) * ((sin (zt * mi)) ^ 2)) / 4)) - ((((a_slope * (zt ^ 2)) * bt) *
  ((cos (zt * mi)) ^ 2)) / 4)) - ((((b_slope * at_) * (/ (mi ^ 2))) * ((cos (zt * mi)) ^ 2)) / 4))
  - ((((b_slope * (zt ^ 2)) * at_) * ((sin (zt * mi)) ^ 2)) / 4)) - ((((b_slope * (zt ^ 2)) * at_)
  * ((cos (zt * mi)) ^ 2)) / 4)) - (((((bt * at_) * (/ (mi ^ 1))) * (cos (zt * mi))) * (sin (zt *
  mi))) / 2)) + ((((zt * bt) * at_) * ((sin (zt * mi)) ^ 2)) / 2)) + ((((zt * bt) * at_) * ((cos
  (zt * mi)) ^ 2)) / 2))) + ((mi ^ 4) * ((((((((((((((((((((((((((((((((((a_slope * b_slope) * (/
  (mi ^ 3))) * (cos (zb * mi))) * (sin (zb * mi))) / 4) + (((((a_slope * b_slope) * zb) * (/ (mi ^
  2))) * ((sin (zb * mi)) ^ 2)) / 4)) - (((((a_slope * b_slope) * zb) * (/ (mi ^ 2))) * ((cos (zb
  * mi)) ^ 2)) / 4)) + ((((((a_slope * b_slope) * zb) * zt) * (/ (mi ^ 1))) * (cos (zb * mi))) *
  (sin (zb * mi)))) + (((((a_slope * b_slope) * zb) * (zt ^ 2)) * ((sin (zb * mi)) ^ 2)) / 2)) +
  (((((a_slope * b_slope) * zb) * (zt ^ 2)) * ((cos (zb * mi)) ^ 2)) / 2)) - ((((((a_slope *
  b_slope) * (zb ^ 2)) * (/ (mi ^ 1))) * (cos (zb * mi))) * (sin (zb * mi))) / 2)) - (((((a_slope
  * b_slope) * (zb ^ 2)) * zt) * ((sin (zb * mi)) ^ 2)) / 2)) - (((((a_slope * b_slope) * (zb ^
  2)) * zt) * ((cos (zb * mi)) ^ 2)) / 2)) + ((((a_slope * b_slope) * (zb ^ 3)) * ((sin (zb * mi))
  ^ 2)) / 6)) + ((((a_slope * b_slope) * (zb ^ 3)) * ((cos (zb * mi)) ^ 2)) / 6)) + (((((a_slope *
  b_slope) * zt) * (/ (mi ^ 2))) * ((cos (zb * mi)) ^ 2)) / 2)) - ((((((a_slope * b_slope) * (zt ^
  2)) * (/ (mi ^ 1))) * (cos (zb * mi))) * (sin (zb * mi))) / 2)) - ((((a_slope * bt) * (/ (mi ^
  2))) * ((cos (zb * mi)) ^ 2)) / 4)) - ((((((a_slope * zb) * bt) * (/ (mi ^ 1))) * (cos (zb *
  mi))) * (sin (zb * mi))) / 2)) - (((((a_slope * zb) * zt) * bt) * ((sin (zb * mi)) ^ 2)) / 2)) -
  (((((a_slope * zb) * zt) * bt) * ((cos (zb * mi)) ^ 2)) / 2)) + ((((a_slope * (zb ^ 2)) * bt) *
  ((sin (zb * mi)) ^ 2)) / 4)) + ((((a_slope * (zb ^ 2)) * bt) * ((cos (zb * mi)) ^ 2)) / 4)) +
  ((((((a_slope * zt) * bt) * (/ (mi ^ 1))) * (cos (zb * mi))) * (sin (zb * mi))) / 2)) -
  ((((b_slope * at_) * (/ (mi ^ 2))) * ((cos (zb * mi)) ^ 2)) / 4)) - ((((((b_slope * zb) * at_) *
  (/ (mi ^ 1))) * (cos (zb * mi))) * (sin (zb * mi))) / 2)) - (((((b_slope * zb) * zt) * at_) *
  ((sin (zb * mi)) ^ 2)) / 2)) - (((((b_slope * zb) * zt) * at_) * ((cos (zb * mi)) ^ 2)) / 2)) +
  ((((b_slope * (zb ^ 2)) * at_) * ((sin (zb * mi)) ^ 2)) / 4)) + ((((b_slope * (zb ^ 2)) * at_) *
  ((cos (zb * mi)) ^ 2)) / 4)) + ((((((b_slope * zt) * at_) * (/ (mi ^ 1))) * (cos (zb * mi))) *
  (sin (zb * mi))) / 2)) - (((((bt * at_) * (/ (mi ^ 1))) * (cos (zb * mi))) * (sin (zb * mi))) /
  2)) + ((((zb * bt) * at_) * ((sin (zb * mi)) ^ 2)) / 2)) + ((((zb * bt) * at_) * ((cos (zb *
  mi)) ^ 2)) / 2)))).

(** integrals.py:6914-7090 (dim1sin_DD_abDDf_linear, scalar, entry i<j) *)
Definition DDabDDf_scalar_off (a_slope b_slope at_ bt zt zb mi mj : R) : R :=
  ((((- (mj ^ 2)) * (mi ^ 2)) * (((((((((((((((((((((((2 * a_slope) * b_slope) * (sin (zt * mj)))
  * (mi ^ 3)) * (/ (((((mi ^ 6) - ((3 * (mj ^ 2)) * (mi ^ 4))) + ((3 * (mj ^ 4)) * (mi ^ 2))) -
  (mj ^ 6)) ^ 1))) * (cos (zt * mi))) - (((((((6 * a_slope) * b_slope) * mj) * (cos (zt * mj))) *
  (mi ^ 2)) * (/ (((((mi ^ 6) - ((3 * (mj ^ 2)) * (mi ^ 4))) + ((3 * (mj ^ 4)) * (mi ^ 2))) - (mj
  ^ 6)) ^ 1))) * (sin (zt * mi)))) + (((((((6 * a_slope) * b_slope) * (mj ^ 2)) * (sin (zt * mj)))
  * mi) * (/ (((((mi ^ 6) - ((3 * (mj ^ 2)) * (mi ^ 4))) + ((3 * (mj ^ 4)) * (mi ^ 2))) - (mj ^
  6)) ^ 1))) * (cos (zt * mi)))) - ((((((2 * a_slope) * b_slope) * (mj ^ 3)) * (cos (zt * mj))) *
  (/ (((((mi ^ 6) - ((3 * (mj ^ 2)) * (mi ^ 4))) + ((3 * (mj ^ 4)) * (mi ^ 2))) - (mj ^ 6)) ^ 1)))
  * (sin (zt * mi)))) + (((((a_slope * bt) * (sin (zt * mj))) * (mi ^ 4)) * (/ (((((mi ^ 6) - ((3
  * (mj ^ 2)) * (mi ^ 4))) + ((3 * (mj ^ 4)) * (mi ^ 2))) - (mj ^ 6)) ^ 1))) * (sin (zt * mi)))) +
  (((((((2 * a_slope) * bt) * mj) * (cos (zt * mj))) * (mi ^ 3)) * (/ (((((mi ^ 6) - ((3 * (mj ^
  2)) * (mi ^ 4))) + ((3 * (mj ^ 4)) * (mi ^ 2))) - (mj ^ 6)) ^ 1))) * (cos (zt * mi)))) -
  (((((((2 * a_slope) * bt) * (mj ^ 3)) * (cos (zt * mj))) * mi) * (/ (((((mi ^ 6) - ((3 * (mj ^
  2)) * (mi ^ 4))) + ((3 * (mj ^ 4)) * (mi ^ 2))) - (mj ^ 6)) ^ 1))) * (cos (zt * mi)))) -
  (((((a_slope * bt) * (mj ^ 4)) * (sin (zt * mj))) * (/ (((((mi ^ 6) - ((3 * (mj ^ 2)) * (mi ^
  4))) + ((3 * (mj ^ 4)) * (mi ^ 2))) - (mj ^ 6)) ^ 1))) * (sin (zt * mi)))) + (((((b_slope * at_)
  * (sin (zt * mj))) * (mi ^ 4)) * (/ (((((mi ^ 6) - ((3 * (mj ^ 2)) * (mi ^ 4))) + ((3 * (mj ^
  4)) * (mi ^ 2))) - (mj ^ 6)) ^ 1))) * (sin (zt * mi)))) + (((((((2 * b_slope) * at_) * mj) *
  (cos (zt * mj))) * (mi ^ 3)) * (/ (((((mi ^ 6) - ((3 * (mj ^ 2)) * (mi ^ 4))) + ((3 * (mj ^ 4))
  * (mi ^ 2))) - (mj ^ 6)) ^ 1))) * (cos (zt * mi)))) - (((((((2 * b_slope) * at_) * (mj ^ 3)) *
  (cos (zt * mj))) * mi) * (/ (((((mi ^ 6) - ((3 * (mj ^ 2)) * (mi ^ 4))) + ((3 * (mj ^ 4)) * (mi
  ^ 2))) - (mj ^ 6)) ^ 1))) * (cos (zt * mi)))) - (((((b_slope * at_) * (mj ^ 4)) * (sin (zt *
  mj))) * (/ (((((mi ^ 6) - ((3 * (mj ^ 2)) * (mi ^ 4))) + ((3 * (mj ^ 4)) * (mi ^ 2))) - (mj ^
  6)) ^ 1))) * (sin (zt * mi)))) - (((((bt * at_) * (sin (zt * mj))) * (mi ^ 5)) * (/ (((((mi ^ 6)
  - ((3 * (mj ^ 2)) * (mi ^ 4))) + ((3 * (mj ^ 4)) * (mi ^ 2))) - (mj ^ 6)) ^ 1))) * (cos (zt *
  mi)))) + ((((((bt * at_) * mj) * (cos (zt * mj))) * (mi ^ 4)) * (/ (((((mi ^ 6) - ((3 * (mj ^
  2)) * (mi ^ 4))) + ((3 * (mj ^ 4)) * (mi ^ 2))) - (mj ^ 6)) ^ 1))) * (sin (zt * mi)))) +
  (((((((2 * bt) * at_) * (mj ^ 2)) * (sin (zt * mj))) * (mi ^ 3)) * (/ (((((mi ^ 6) - ((3 * (mj ^
  2)) * (mi ^ 4))) + ((3 * (mj ^ 4)) * (mi ^ 2))) - (mj ^ 6)) ^ 1))) * (cos (zt * mi)))) -
  (((((((2 * bt) * at_) * (mj ^ 3)) * (cos (zt * mj))) * (mi ^ 2)) * (/ (((((mi ^ 6) - ((3 * (mj ^
  2)) * (mi ^ 4))) + ((3 * (mj ^ 4)) * (mi ^ 2))) - (mj ^ 6)) ^ 1))) * (sin (zt * mi)))) -
  ((((((bt * at_) * (mj ^ 4)) * (sin (zt * mj))) * mi) * (/ (((((mi ^ 6) - ((3 * (mj ^ 2)) * (mi ^
  4))) + ((3 * (mj ^ 4)) * (mi ^ 2))) - (mj ^ 6)) ^ 1))) * (cos (zt * mi)))) + (((((bt * at_) *
  (mj ^ 5)) * (cos (zt * mj))) * (/ (((((mi ^ 6) - ((3 * (mj ^ 2)) * (mi ^ 4))) + ((3 * (mj ^ 4))
  * (mi ^ 2))) - (mj ^ 6)) ^ 1))) * (sin (zt * mi))))) + (((mj ^ 2) * (mi ^ 2)) *
  (((((((((((((((((((((((((((((((((((((((((((((((((((((((((((((((((((((((((2 * a_slope) * b_slope)
  * (sin (zb * mj))) * (mi ^ 3)) * (/ (((((mi ^ 6) - ((3 * (mj ^ 2)) * (mi ^ 4))) + ((3 * (mj ^
  4)) * (mi ^ 2))) - (mj ^ 6)) ^ 1))) * (cos (zb * mi))) - (((((((6 * a_slope) * b_slope) * mj) *
  (cos (zb * mj))) * (mi ^ 2)) * (/ (((((mi ^ 6) - ((3 * (mj ^ 2)) * (mi ^ 4))) + ((3 * (mj ^ 4))
  * (mi ^ 2))) - (mj ^ 6)) ^ 1))) * (sin (zb * mi)))) + (((((((6 * a_slope) * b_slope) * (mj ^ 2))
  * (sin (zb * mj))) * mi) * (/ (((((mi ^ 6) - ((3 * (mj ^ 2)) * (mi ^ 4))) + ((3 * (mj ^ 4)) *
  (mi ^ 2))) - (mj ^ 6)) ^ 1))) * (cos (zb * mi)))) - ((((((2 * a_slope) * b_slope) * (mj ^ 3)) *
  (cos (zb * mj))) * (/ (((((mi ^ 6) - ((3 * (mj ^ 2)) * (mi ^ 4))) + ((3 * (mj ^ 4)) * (mi ^ 2)))
  - (mj ^ 6)) ^ 1))) * (sin (zb * mi)))) + (((((((2 * a_slope) * b_slope) * zb) * (sin (zb * mj)))
  * (mi ^ 4)) * (/ (((((mi ^ 6) - ((3 * (mj ^ 2)) * (mi ^ 4))) + ((3 * (mj ^ 4)) * (mi ^ 2))) -
  (mj ^ 6)) ^ 1))) * (sin (zb * mi)))) + ((((((((4 * a_slope) * b_slope) * zb) * mj) * (cos (zb *
  mj))) * (mi ^ 3)) * (/ (((((mi ^ 6) - ((3 * (mj ^ 2)) * (mi ^ 4))) + ((3 * (mj ^ 4)) * (mi ^
  2))) - (mj ^ 6)) ^ 1))) * (cos (zb * mi)))) - ((((((((4 * a_slope) * b_slope) * zb) * (mj ^ 3))
  * (cos (zb * mj))) * mi) * (/ (((((mi ^ 6) - ((3 * (mj ^ 2)) * (mi ^ 4))) + ((3 * (mj ^ 4)) *
  (mi ^ 2))) - (mj ^ 6)) ^ 1))) * (cos (zb * mi)))) - (((((((2 * a_slope) * b_slope) * zb) * (mj ^
  4)) * (sin (zb * mj))) * (/ (((((mi ^ 6) - ((3 * (mj ^ 2)) * (mi ^ 4))) + ((3 * (mj ^ 4)) * (mi
  ^ 2))) - (mj ^ 6)) ^ 1))) * (sin (zb * mi)))) + ((((((((2 * a_slope) * b_slope) * zb) * zt) *
  (sin (zb * mj))) * (mi ^ 5)) * (/ (((((mi ^ 6) - ((3 * (mj ^ 2)) * (mi ^ 4))) + ((3 * (mj ^ 4))
  * (mi ^ 2))) - (mj ^ 6)) ^ 1))) * (cos (zb * mi)))) - (((((((((2 * a_slope) * b_slope) * zb) *
  zt) * mj) * (cos (zb * mj))) * (mi ^ 4)) * (/ (((((mi ^ 6) - ((3 * (mj ^ 2)) * (mi ^ 4))) + ((3
  * (mj ^ 4)) * (mi ^ 2))) - (mj ^ 6)) ^ 1))) * (sin (zb * mi)))) - (((((((((4 * a_slope) *
  b_slope) * zb) * zt) * (mj ^ 2)) * (sin (zb * mj))) * (mi ^ 3)) * (/ (((((mi ^ 6) - ((3 * (mj ^
  2)) * (mi ^ 4))) + ((3 * (mj ^ 4)) * (mi ^ 2))) - (mj ^ 6)) ^ 1))) * (cos (zb * mi)))) +
  (((((((((4 * a_slope) * b_slope) * zb) * zt) * (mj ^ 3)) * (cos (zb * mj))) * (mi ^ 2)) * (/
  (((((mi ^ 6) - ((3 * (mj ^ 2)) * (mi ^ 4))) + ((3 * (mj ^ 4)) * (mi ^ 2))) - (mj ^ 6)) ^ 1))) *
  (sin (zb * mi)))) + (((((((((2 * a_slope) * b_slope) * zb) * zt) * (mj ^ 4)) * (sin (zb * mj)))
  * mi) * (/ (((((mi ^ 6) - ((3 * (mj ^ 2)) * (mi ^ 4))) + ((3 * (mj ^ 4)) * (mi ^ 2))) - (mj ^
  6)) ^ 1))) * (cos (zb * mi)))) - ((((((((2 * a_slope) * b_slope) * zb) * zt) * (mj ^ 5)) * (cos
  (zb * mj))) * (/ (((((mi ^ 6) - ((3 * (mj ^ 2)) * (mi ^ 4))) + ((3 * (mj ^ 4)) * (mi ^ 2))) -
  (mj ^ 6)) ^ 1))) * (sin (zb * mi)))) - ((((((a_slope * b_slope) * (zb ^ 2)) * (sin (zb * mj))) *
  (mi ^ 5)) * (/ (((((mi ^ 6) - ((3 * (mj ^ 2)) * (mi ^ 4))) + ((3 * (mj ^ 4)) * (mi ^ 2))) - (mj
  ^ 6)) ^ 1))) * (cos (zb * mi)))) + (((((((a_slope * b_slope) * (zb ^ 2)) * mj) * (cos (zb *
  mj))) * (mi ^ 4)) * (/ (((((mi ^ 6) - ((3 * (mj ^ 2)) * (mi ^ 4))) + ((3 * (mj ^ 4)) * (mi ^
  2))) - (mj ^ 6)) ^ 1))) * (sin (zb * mi)))) + ((((((((2 * a_slope) * b_slope) * (zb ^ 2)) * (mj
  ^ 2)) * (sin (zb * mj))) * (mi ^ 3)) * (/ (((((mi ^ 6) - ((3 * (mj ^ 2)) * (mi ^ 4))) + ((3 *
  (mj ^ 4)) * (mi ^ 2))) - (mj ^ 6)) ^ 1))) * (cos (zb * mi)))) - ((((((((2 * a_slope) * b_slope)
  * (zb ^ 2)) * (mj ^ 3)) * (cos (zb * mj))) * (mi ^ 2)) * (/ (((((mi ^ 6) - ((3 * (mj ^ 2)) * (mi
  ^ 4))) + ((3 * (mj ^ 4)) * (mi ^ 2))) - (mj ^ 6)) ^ 1))) * (sin (zb * mi)))) - (((((((a_slope *
  b_slope) * (zb ^ 2)) * (mj ^ 4)) * (sin (zb * mj))) * mi) * (/ (((((mi ^ 6) - ((3 * (mj ^ 2)) *
  (mi ^ 4))) + ((3 * (mj ^ 4)) * (mi ^ 2))) - (mj ^ 6)) ^ 1))) * (cos (zb * mi)))) + ((((((a_slope
  * b_slope) * (zb ^ 2)) * (mj ^ 5)) * (cos (zb * mj))) * (/ (((((mi ^ 6) - ((3 * (mj ^ 2)) * (mi
  ^ 4))) + ((3 * (mj ^ 4)) * (mi ^ 2))) - (mj ^ 6)) ^ 1))) * (sin (zb * mi)))) - (((((((2 *
  a_slope) * b_slope) * zt) * (sin (zb * mj))) * (mi ^ 4)) * (/ (((((mi ^ 6) - ((3 * (mj ^ 2)) *
  (mi ^ 4))) + ((3 * (mj ^ 4)) * (mi ^ 2))) - (mj ^ 6)) ^ 1))) * (sin (zb * mi)))) - ((((((((4 *
  a_slope) * b_slope) * zt) * mj) * (cos (zb * mj))) * (mi ^ 3)) * (/ (((((mi ^ 6) - ((3 * (mj ^
  2)) * (mi ^ 4))) + ((3 * (mj ^ 4)) * (mi ^ 2))) - (mj ^ 6)) ^ 1))) * (cos (zb * mi)))) +
  ((((((((4 * a_slope) * b_slope) * zt) * (mj ^ 3)) * (cos (zb * mj))) * mi) * (/ (((((mi ^ 6) -
  ((3 * (mj ^ 2)) * (mi ^ 4))) + ((3 * (mj ^ 4)) * (mi ^ 2))) - (mj ^ 6)) ^ 1))) * (cos (zb *
  mi)))) + (((((((2 * a_slope) * b_slope) * zt) * (mj ^ 4)) * (sin (zb * mj))) * (/ (((((mi ^ 6) -
  ((3 * (mj ^ 2)) * (mi ^ 4))) + ((3 * (mj ^ 4)) * (mi ^ 2))) - (mj ^ 6)) ^ 1))) * (sin (zb *
  mi)))) - ((((((a_slope * b_slope) * (zt ^ 2)) * (sin (zb * mj))) * (mi ^ 5)) * (/ (((((mi ^ 6) -
  ((3 * (mj ^ 2)) * (mi ^ 4))) + ((3 * (mj ^ 4)) * (mi ^ 2))) - (mj ^ 6)) ^ 1))) * (cos (zb *
  mi)))) + (((((((a_slope * b_slope) * (zt ^ 2)) * mj) * (cos (zb * mj))) * (mi ^ 4)) * (/ (((((mi
  ^ 6) - ((3 * (mj ^ 2)) * (mi ^ 4))) + ((3 * (mj ^ 4)) * (mi ^ 2))) - (mj ^ 6)) ^ 1))) * (sin (zb
  * mi)))) + ((((((((2 * a_slope) * b_slope) * (zt ^ 2)) * (mj ^ 2)) * (sin (zb * mj))) * (mi ^
  3)) * (/ (((((mi ^ 6) - ((3 * (mj ^ 2)) * (mi ^ 4))) + ((3 * (mj ^ 4)) * (mi ^ 2))) - (mj ^ 6))
  ^ 1))) * (cos (zb * mi)))) - ((((((((2 * a_slope) * b_slope) * (zt ^ 2)) * (mj ^ 3)) * (cos (zb
  * mj))) * (mi ^ 2)) * (/ (((((mi ^ 6) - ((3 * (mj ^ 2)) * (mi ^ 4))) + ((3 * (mj ^ 4)) * (mi ^
  2))) - (mj ^ 6)) ^ 1))) * (sin (zb * mi)))) - (((((((a_slope * b_slope) * (zt ^ 2)) * (mj ^ 4))
  * (sin (zb * mj))) * mi) * (/ (((((mi ^ 6) - ((3 * (mj ^ 2)) * (mi ^ 4))) + ((3 * (mj ^ 4)) *
  (mi ^ 2))) - (mj ^ 6)) ^ 1))) * (cos (zb * mi)))) + ((((((a_slope * b_slope) * (zt ^ 2)) * (mj ^
  5)) * (cos (zb * mj))) * (/ (((((mi ^ 6) - ((3 * (mj ^ 2)) * (mi ^ 4))) + ((3 * (mj ^ 4)) * (mi
  ^ 2))) - (mj ^ 6)) ^ 1))) * (sin (zb * mi)))) + (((((a_slope * bt) * (sin (zb * mj))) * (mi ^
  4)) * (/ (((((mi ^ 6) - ((3 * (mj ^ 2)) * (mi ^ 4))) + ((3 * (mj ^ 4)) * (mi ^ 2))) - (mj ^ 6))
  ^ 1))) * (sin (zb * mi)))) + (((((((2 * a_slope) * bt) * mj) * (cos (zb * mj))) * (mi ^ 3)) * (/
  (((((mi ^ 6) - ((3 * (mj ^ 2)) * (mi ^ 4))) + ((3 * (mj ^ 4)) * (mi ^ 2))) - (mj ^ 6)) ^ 1))) *
  (cos (zb * mi)))) - (((((((2 * a_slope) * bt) * (mj ^ 3)) * (cos (zb * mj))) * mi) * (/ (((((mi
  ^ 6) - ((3 * (mj ^ 2)) * (mi ^ 4))) + ((3 * (mj ^ 4)) * (mi ^ 2))) - (mj ^ 6)) ^ 1))) * (cos (zb
  * mi)))) - (((((a_slope * bt) * (mj ^ 4)) * (sin (zb * mj))) * (/ (((((mi ^ 6) - ((3 * (mj ^ 2))
  * (mi ^ 4))) + ((3 * (mj ^ 4)) * (mi ^ 2))) - (mj ^ 6)) ^ 1))) * (sin (zb * mi)))) -
  ((((((a_slope * zb) * bt) * (sin (zb * mj))) * (mi ^ 5)) * (/ (((((mi ^ 6) - ((3 * (mj ^ 2)) *
  (mi ^ 4))) + ((3 * (mj ^ 4)) * (mi ^ 2))) - (mj ^ 6)) ^ 1))) * (cos (zb * mi)))) +
  (((((((a_slope * zb) * bt) * mj) * (cos (zb * mj))) * (mi ^ 4)) * (/ (((((mi ^ 6) - ((3 * (mj ^
  2)) * (mi ^ 4))) + ((3 * (mj ^ 4)) * (mi ^ 2))) - (mj ^ 6)) ^ 1))) * (sin (zb * mi)))) +
  ((((((((2 * a_slope) * zb) * bt) * (mj ^ 2)) * (sin (zb * mj))) * (mi ^ 3)) * (/ (((((mi ^ 6) -
  ((3 * (mj ^ 2)) * (mi ^ 4))) + ((3 * (mj ^ 4)) * (mi ^ 2))) - (mj ^ 6)) ^ 1))) * (cos (zb *
  mi)))) - ((((((((2 * a_slope) * zb) * bt) * (mj ^ 3)) * (cos (zb * mj))) * (mi ^ 2)) * (/
  (((((mi ^ 6) - ((3 * (mj ^ 2)) * (mi ^ 4))) + ((3 * (mj ^ 4)) * (mi ^ 2))) - (mj ^ 6)) ^ 1))) *
  (sin (zb * mi)))) - (((((((a_slope * zb) * bt) * (mj ^ 4)) * (sin (zb * mj))) * mi) * (/ (((((mi
  ^ 6) - ((3 * (mj ^ 2)) * (mi ^ 4))) + ((3 * (mj ^ 4)) * (mi ^ 2))) - (mj ^ 6)) ^ 1))) * (cos (zb
  * mi)))) + ((((((a_slope * zb) * bt) * (mj ^ 5)) * (cos (zb * mj))) * (/ (((((mi ^ 6) - ((3 *
  (mj ^ 2)) * (mi ^ 4))) + ((3 * (mj ^ 4)) * (mi ^ 2))) - (mj ^ 6)) ^ 1))) * (sin (zb * mi)))) +
  ((((((a_slope * zt) * bt) * (sin (zb * mj))) * (mi ^ 5)) * (/ (((((mi ^ 6) - ((3 * (mj ^ 2)) *
  (mi ^ 4))) + ((3 * (mj ^ 4)) * (mi ^ 2))) - (mj ^ 6)) ^ 1))) * (cos (zb * mi)))) -
  (((((((a_slope * zt) * bt) * mj) * (cos (zb * mj))) * (mi ^ 4)) * (/ (((((mi ^ 6) - ((3 * (mj ^
  2)) * (mi ^ 4))) + ((3 * (mj ^ 4)) * (mi ^ 2))) - (mj ^ 6)) ^ 1))) * (sin (zb * mi)))) -
  ((((((((2 * a_slope) * zt) * bt) * (mj ^ 2)) * (sin (zb * mj))) * (mi ^ 3)) * (/ (((((mi ^ 6) -
  ((3 * (mj ^ 2)) * (mi ^ 4))) + ((3 * (mj ^ 4)) * (mi ^ 2))) - (mj ^ 6)) ^ 1))) * (cos (zb *
  mi)))) + ((((((((2 * a_slope) * zt) * bt) * (mj ^ 3)) * (cos (zb * mj))) * (mi ^ 2)) * (/
  (((((mi ^ 6) - ((3 * (mj ^ 2)) * (mi ^ 4))) + ((3 * (mj ^ 4)) * (mi ^ 2))) - (mj ^ 6)) ^ 1))) *
  (sin (zb * mi)))) + (((((((a_slope * zt) * bt) * (mj ^ 4)) * (sin (zb * mj))) * mi) * (/ (((((mi
  ^ 6) - ((3 * (mj ^ 2)) * (mi ^ 4))) + ((3 * (mj ^ 4)) * (mi ^ 2))) - (mj ^ 6)) ^ 1))) * (cos (zb
  * mi)))) - ((((((a_slope * zt) * bt) * (mj ^ 5)) * (cos (zb * mj))) * (/ (((((mi ^ 6) - ((3 *
  (mj ^ 2)) * (mi ^ 4))) + ((3 * (mj ^ 4)) * (mi ^ 2))) - (mj ^ 6)) ^ 1))) * (sin (zb * mi)))) +
  (((((b_slope * at_) * (sin (zb * mj))) * (mi ^ 4)) * (/ (((((mi ^ 6) - ((3 * (mj ^ 2)) * (mi ^
  4))) + ((3 * (mj ^ 4)) * (mi ^ 2))) - (mj ^ 6)) ^ 1))) * (sin (zb * mi)))) + (((((((2 * b_slope)
  * at_) * mj) * (cos (zb * mj))) * (mi ^ 3)) * (/ (((((mi ^ 6) - ((3 * (mj ^ 2)) * (mi ^ 4))) +
  ((3 * (mj ^ 4)) * (mi ^ 2))) - (mj ^ 6)) ^ 1))) * (cos (zb * mi)))) - (((((((2 * b_slope) * at_)
  * (mj ^ 3)) * (cos (zb * mj))) * mi) * (/ (((((mi ^ 6) - ((3 * (mj ^ 2)) * (mi ^ 4))) + ((3 *
  (mj ^ 4)) * (mi ^ 2))) - (mj ^ 6)) ^ 1))) * (cos (zb * mi)))) - (((((b_slope * at_) * (mj ^ 4))
  * (sin (zb * mj))) * (/ (((((mi ^ 6) - ((3 * (mj ^ 2)) * (mi ^ 4))) + ((3 * (mj ^ 4)) * (mi ^
  2))) - (mj ^ 6)) ^ 1))) * (sin (zb * mi)))) - ((((((b_slope * zb) * at_) * (sin (zb * mj))) *
  (mi ^ 5)) * (/ (((((mi ^ 6) - ((3 * (mj ^ 2)) * (mi ^ 4))) + ((3 * (mj ^ 4)) * (mi ^ 2))) - (mj
  ^ 6)) ^ 1))) * (cos (zb * mi)))) + (((((((b_slope * zb) * at_) * mj) * (cos (zb * mj))) * (mi ^
  4)) * (/ (((((mi ^ 6) - ((3 * (mj ^ 2)) * (mi ^ 4))) + ((3 * (mj ^ 4)) * (mi ^ 2))) - (mj ^ 6))
  ^ 1))) * (sin (zb * mi)))) + ((((((((2 * b_slope) * zb) * at_) * (mj ^ 2)) * (sin (zb * mj))) *
  (mi ^ 3)) * (/ (((((mi ^ 6) - ((3 * (mj ^ 2)) * (mi ^ 4))) + ((3 * (mj ^ 4)) * (mi ^ 2))) - (mj
  ^ 6)) ^ 1))) * (cos (zb * mi)))) - ((((((((2 * b_slope) * zb) * at_) * (mj ^ 3)) * (cos (zb *
  mj))) * (mi ^ 2)) * (/ (((((mi ^ 6) - ((3 * (mj ^ 2)) * (mi ^ 4))) + ((3 * (mj ^ 4)) * (mi ^
  2))) - (mj ^ 6)) ^ 1))) * (sin (zb * mi)))) - (((((((b_slope * zb) * at_) * (mj ^ 4)) * (sin (zb
  * mj))) * mi) * (/ (((((mi ^ 6) - ((3 * (mj ^ 2)) * (mi ^ 4))) + ((3 * (mj ^ 4)) * (mi ^ 2))) -
  (mj ^ 6)) ^ 1))) * (cos (zb * mi)))) + ((((((b_slope * zb) * at_) * (mj ^ 5)) * (cos (zb * mj)))
  * (/ (((((mi ^ 6) - ((3 * (mj ^ 2)) * (mi ^ 4))) + ((3 * (mj ^ 4)) * (mi ^ 2))) - (mj ^ 6)) ^
  1))) * (sin (zb * mi)))) + ((((((b_slope * zt) * at_) * (sin (zb * mj))) * (mi ^ 5)) * (/
  (((((mi ^ 6) - ((3 * (mj ^ 2)) * (mi ^ 4))) + ((3 * (mj ^ 4)) * (mi ^ 2))) - (mj ^ 6)) ^ 1))) *
  (cos (zb * mi)))) - (((((((b_slope * zt) * at_) * mj) * (cos (zb * mj))) * (mi ^ 4)) * (/
  (((((mi ^ 6) - ((3 * (mj ^ 2)) * (mi ^ 4))) + ((3 * (mj ^ 4)) * (mi ^ 2))) - (mj ^ 6)) ^ 1))) *
  (sin (zb * mi)))) - ((((((((2 * b_slope) * zt) * at_) * (mj ^ 2)) * (sin (zb * mj))) * (mi ^ 3))
  * (/ (((((mi ^ 6) - ((3 * (mj ^ 2)) * (mi ^ 4))) + ((3 * (mj ^ 4)) * (mi ^ 2))) - (mj ^ 6)) ^
  1))) * (cos (zb * mi)))) + ((((((((2 * b_slope) * zt) * at_) * (mj ^ 3)) * (cos (zb * mj))) *
  (mi ^ 2)) * (/ (((((mi ^ 6) - ((3 * (mj ^ 2)) * (mi ^ 4))) + ((3 * (mj ^ 4)) * (mi ^ 2))) - (mj
  ^ 6)) ^ 1))) * (sin (zb * mi)))) + (((((((b_slope * zt) * at_) * (mj ^ 4)) * (sin (zb * mj))) *
  mi) * (/ (((((mi ^ 6) - ((3 * (mj ^ 2)) * (mi ^ 4))) + ((3 * (mj ^ 4)) * (mi ^ 2))) - (mj ^ 6))
  ^ 1))) * (cos (zb * mi)))) - ((((((b_slope * zt) * at_) * (mj ^ 5)) * (cos (zb * mj))) * (/
  (((((mi ^ 6) - ((3 * (mj ^ 2)) * (mi ^ 4))) + ((3 * (mj ^ 4)) * (mi ^ 2))) - (mj ^ 6)) ^ 1))) *
  (sin (zb * mi)))) - (((((bt * at_) * (sin (zb * mj))) * (mi ^ 5)) * (/ (((((mi ^ 6) - ((3 * (mj
  ^ 2)) * (mi ^ 4))) + ((3 * (mj ^ 4)) * (mi ^ 2))) - (mj ^ 6)) ^ 1))) * (cos (zb * mi)))) +
  ((((((bt * at_) * mj) * (cos (zb * mj))) * (mi ^ 4)) * (/ (((((mi ^ 6) - ((3 * (mj ^ 2)) * (mi ^
  4))) + ((3 * (mj ^ 4)) * (mi ^ 2))) - (mj ^ 6)) ^ 1))) * (sin (zb * mi)))) + (((((((2 * bt) *
  at_) * (mj ^ 2)) * (sin (zb * mj))) * (mi ^ 3)) * (/ (((((mi ^ 6) - ((3 * (mj ^ 2)) * (mi ^ 4)))
  + ((3 * (mj ^ 4)) * (mi ^ 2))) - (mj ^ 6)) ^ 1))) * (cos (zb * mi)))) - (((((((2 * bt) * at_) *
  (mj ^ 3)) * (cos (zb * mj))) * (mi ^ 2)) * (/ (((((mi ^ 6) - ((3 * (mj ^ 2)) * (mi ^ 4))) + ((3
  * (mj ^ 4)) * (mi ^ 2))) - (mj ^ 6)) ^ 1))) * (sin (zb * mi)))) - ((((((bt * at_) * (mj ^ 4)) *
  (sin (zb * mj))) * mi) * (/ (((((mi ^ 6) - ((3 * (mj ^ 2)) * (mi ^ 4))) + ((3 * (mj ^ 4)) * (mi
  ^ 2))) - (mj ^ 6)) ^ 1))) * (cos (zb * mi)))) + (((((bt * at_) * (mj ^ 5)) * (cos (zb * mj))) *
  (/ (((((mi ^ 6) - ((3 * (mj ^ 2)) * (mi ^ 4))) + ((3 * (mj ^ 4)) * (mi ^ 2))) - (mj ^ 6)) ^ 1)))
  * (sin (zb * mi)))))).

(** integrals.py:7121-7144 (dim1sin_DD_abDDf_linear, vectorized, diagonal entry) *)
Definition DDabDDf_vectorized_diag (a_slope b_slope at_ bt zt zb mi : R) : R :=
  (((- (mi ^ 4)) * (((((((((((((((((a_slope * b_slope) * (zt ^ 3)) * ((sin (mi * zt)) ^ 2)) / 6) +
  ((((a_slope * b_slope) * (zt ^ 3)) * ((cos (mi * zt)) ^ 2)) / 6)) + ((((a_slope * b_slope) * zt)
  * ((sin (mi * zt)) ^ 2)) / (4 * (mi ^ 2)))) + ((((a_slope * b_slope) * zt) * ((cos (mi * zt)) ^
  2)) / (4 * (mi ^ 2)))) + ((((a_slope * b_slope) * (cos (mi * zt))) * (sin (mi * zt))) / (4 * (mi
  ^ 3)))) - ((((a_slope * (zt ^ 2)) * ((sin (mi * zt)) ^ 2)) * bt) / 4)) - ((((a_slope * (zt ^ 2))
  * ((cos (mi * zt)) ^ 2)) * bt) / 4)) - (((a_slope * ((cos (mi * zt)) ^ 2)) * bt) / (4 * (mi ^
  2)))) - ((((b_slope * (zt ^ 2)) * ((sin (mi * zt)) ^ 2)) * at_) / 4)) - ((((b_slope * (zt ^ 2))
  * ((cos (mi * zt)) ^ 2)) * at_) / 4)) - (((b_slope * ((cos (mi * zt)) ^ 2)) * at_) / (4 * (mi ^
  2)))) + ((((zt * ((sin (mi * zt)) ^ 2)) * bt) * at_) / 2)) + ((((zt * ((cos (mi * zt)) ^ 2)) *
  bt) * at_) / 2)) - (((((cos (mi * zt)) * (sin (mi * zt))) * bt) * at_) / (2 * mi)))) + ((mi ^ 4)
  * ((((((((((((((((((((((((((((((((((a_slope * b_slope) * zb) * ((sin (mi * zb)) ^ 2)) * (zt ^
  2)) / 2) + (((((a_slope * b_slope) * zb) * ((cos (mi * zb)) ^ 2)) * (zt ^ 2)) / 2)) -
  (((((a_slope * b_slope) * (zb ^ 2)) * ((sin (mi * zb)) ^ 2)) * zt) / 2)) - (((((a_slope *
  b_slope) * (zb ^ 2)) * ((cos (mi * zb)) ^ 2)) * zt) / 2)) + ((((a_slope * b_slope) * (zb ^ 3)) *
  ((sin (mi * zb)) ^ 2)) / 6)) + ((((a_slope * b_slope) * (zb ^ 3)) * ((cos (mi * zb)) ^ 2)) / 6))
  - (((((a_slope * b_slope) * (cos (mi * zb))) * (sin (mi * zb))) * (zt ^ 2)) / (2 * mi))) +
  ((((((a_slope * b_slope) * zb) * (cos (mi * zb))) * (sin (mi * zb))) * zt) / mi)) - (((((a_slope
  * b_slope) * (zb ^ 2)) * (cos (mi * zb))) * (sin (mi * zb))) / (2 * mi))) + ((((a_slope *
  b_slope) * ((cos (mi * zb)) ^ 2)) * zt) / (2 * (mi ^ 2)))) + ((((a_slope * b_slope) * zb) *
  ((sin (mi * zb)) ^ 2)) / (4 * (mi ^ 2)))) - ((((a_slope * b_slope) * zb) * ((cos (mi * zb)) ^
  2)) / (4 * (mi ^ 2)))) + ((((a_slope * b_slope) * (cos (mi * zb))) * (sin (mi * zb))) / (4 * (mi
  ^ 3)))) - (((((a_slope * zb) * ((sin (mi * zb)) ^ 2)) * zt) * bt) / 2)) - (((((a_slope * zb) *
  ((cos (mi * zb)) ^ 2)) * zt) * bt) / 2)) + ((((a_slope * (zb ^ 2)) * ((sin (mi * zb)) ^ 2)) *
  bt) / 4)) + ((((a_slope * (zb ^ 2)) * ((cos (mi * zb)) ^ 2)) * bt) / 4)) + (((((a_slope * (cos
  (mi * zb))) * (sin (mi * zb))) * zt) * bt) / (2 * mi))) - (((((a_slope * zb) * (cos (mi * zb)))
  * (sin (mi * zb))) * bt) / (2 * mi))) - (((a_slope * ((cos (mi * zb)) ^ 2)) * bt) / (4 * (mi ^
  2)))) - (((((b_slope * zb) * ((sin (mi * zb)) ^ 2)) * zt) * at_) / 2)) - (((((b_slope * zb) *
  ((cos (mi * zb)) ^ 2)) * zt) * at_) / 2)) + ((((b_slope * (zb ^ 2)) * ((sin (mi * zb)) ^ 2)) *
  at_) / 4)) + ((((b_slope * (zb ^ 2)) * ((cos (mi * zb)) ^ 2)) * at_) / 4)) + (((((b_slope * (cos
  (mi * zb))) * (sin (mi * zb))) * zt) * at_) / (2 * mi))) - (((((b_slope * zb) * (cos (mi * zb)))
  * (sin (mi * zb))) * at_) / (2 * mi))) - (((b_slope * ((cos (mi * zb)) ^ 2)) * at_) / (4 * (mi ^
  2)))) + ((((zb * ((sin (mi * zb)) ^ 2)) * bt) * at_) / 2)) + ((((zb * ((cos (mi * zb)) ^ 2)) *
  bt) * at_) / 2)) - (((((cos (mi * zb)) * (sin (mi * zb))) * bt) * at_) / (2 * mi))))).

(** integrals.py:7148-7262 (dim1sin_DD_abDDf_linear, vectorized, entry i<j) *)
Definition DDabDDf_vectorized_off (a_slope b_slope at_ bt zt zb mi mj : R) : R :=
  ((((- (mi ^ 2)) * (mj ^ 2)) * (((((((((((((((((((((((2 * a_slope) * b_slope) * (mi ^ 3)) * (cos
  (mi * zt))) * (sin (mj * zt))) / ((((mi ^ 6) - ((3 * (mi ^ 4)) * (mj ^ 2))) + ((3 * (mi ^ 2)) *
  (mj ^ 4))) - (mj ^ 6))) - (((((((6 * a_slope) * b_slope) * (mi ^ 2)) * mj) * (cos (mj * zt))) *
  (sin (mi * zt))) / ((((mi ^ 6) - ((3 * (mi ^ 4)) * (mj ^ 2))) + ((3 * (mi ^ 2)) * (mj ^ 4))) -
  (mj ^ 6)))) + (((((((6 * a_slope) * b_slope) * mi) * (mj ^ 2)) * (cos (mi * zt))) * (sin (mj *
  zt))) / ((((mi ^ 6) - ((3 * (mi ^ 4)) * (mj ^ 2))) + ((3 * (mi ^ 2)) * (mj ^ 4))) - (mj ^ 6))))
  - ((((((2 * a_slope) * b_slope) * (mj ^ 3)) * (cos (mj * zt))) * (sin (mi * zt))) / ((((mi ^ 6)
  - ((3 * (mi ^ 4)) * (mj ^ 2))) + ((3 * (mi ^ 2)) * (mj ^ 4))) - (mj ^ 6)))) + (((((a_slope * (mi
  ^ 4)) * (sin (mi * zt))) * (sin (mj * zt))) * bt) / ((((mi ^ 6) - ((3 * (mi ^ 4)) * (mj ^ 2))) +
  ((3 * (mi ^ 2)) * (mj ^ 4))) - (mj ^ 6)))) + (((((((2 * a_slope) * (mi ^ 3)) * mj) * (cos (mi *
  zt))) * (cos (mj * zt))) * bt) / ((((mi ^ 6) - ((3 * (mi ^ 4)) * (mj ^ 2))) + ((3 * (mi ^ 2)) *
  (mj ^ 4))) - (mj ^ 6)))) - (((((((2 * a_slope) * mi) * (mj ^ 3)) * (cos (mi * zt))) * (cos (mj *
  zt))) * bt) / ((((mi ^ 6) - ((3 * (mi ^ 4)) * (mj ^ 2))) + ((3 * (mi ^ 2)) * (mj ^ 4))) - (mj ^
  6)))) - (((((a_slope * (mj ^ 4)) * (sin (mi * zt))) * (sin (mj * zt))) * bt) / ((((mi ^ 6) - ((3
  * (mi ^ 4)) * (mj ^ 2))) + ((3 * (mi ^ 2)) * (mj ^ 4))) - (mj ^ 6)))) + (((((b_slope * (mi ^ 4))
  * (sin (mi * zt))) * (sin (mj * zt))) * at_) / ((((mi ^ 6) - ((3 * (mi ^ 4)) * (mj ^ 2))) + ((3
  * (mi ^ 2)) * (mj ^ 4))) - (mj ^ 6)))) + (((((((2 * b_slope) * (mi ^ 3)) * mj) * (cos (mi *
  zt))) * (cos (mj * zt))) * at_) / ((((mi ^ 6) - ((3 * (mi ^ 4)) * (mj ^ 2))) + ((3 * (mi ^ 2)) *
  (mj ^ 4))) - (mj ^ 6)))) - (((((((2 * b_slope) * mi) * (mj ^ 3)) * (cos (mi * zt))) * (cos (mj *
  zt))) * at_) / ((((mi ^ 6) - ((3 * (mi ^ 4)) * (mj ^ 2))) + ((3 * (mi ^ 2)) * (mj ^ 4))) - (mj ^
  6)))) - (((((b_slope * (mj ^ 4)) * (sin (mi * zt))) * (sin (mj * zt))) * at_) / ((((mi ^ 6) -
  ((3 * (mi ^ 4)) * (mj ^ 2))) + ((3 * (mi ^ 2)) * (mj ^ 4))) - (mj ^ 6)))) - ((((((mi ^ 5) * (cos
  (mi * zt))) * (sin (mj * zt))) * bt) * at_) / ((((mi ^ 6) - ((3 * (mi ^ 4)) * (mj ^ 2))) + ((3 *
  (mi ^ 2)) * (mj ^ 4))) - (mj ^ 6)))) + (((((((mi ^ 4) * mj) * (cos (mj * zt))) * (sin (mi *
  zt))) * bt) * at_) / ((((mi ^ 6) - ((3 * (mi ^ 4)) * (mj ^ 2))) + ((3 * (mi ^ 2)) * (mj ^ 4))) -
  (mj ^ 6)))) + (((((((2 * (mi ^ 3)) * (mj ^ 2)) * (cos (mi * zt))) * (sin (mj * zt))) * bt) *
  at_) / ((((mi ^ 6) - ((3 * (mi ^ 4)) * (mj ^ 2))) + ((3 * (mi ^ 2)) * (mj ^ 4))) - (mj ^ 6)))) -
  (((((((2 * (mi ^ 2)) * (mj ^ 3)) * (cos (mj * zt))) * (sin (mi * zt))) * bt) * at_) / ((((mi ^
  6) - ((3 * (mi ^ 4)) * (mj ^ 2))) + ((3 * (mi ^ 2)) * (mj ^ 4))) - (mj ^ 6)))) - ((((((mi * (mj
  ^ 4)) * (cos (mi * zt))) * (sin (mj * zt))) * bt) * at_) / ((((mi ^ 6) - ((3 * (mi ^ 4)) * (mj ^
  2))) + ((3 * (mi ^ 2)) * (mj ^ 4))) - (mj ^ 6)))) + ((((((mj ^ 5) * (cos (mj * zt))) * (sin (mi
  * zt))) * bt) * at_) / ((((mi ^ 6) - ((3 * (mi ^ 4)) * (mj ^ 2))) + ((3 * (mi ^ 2)) * (mj ^ 4)))
  - (mj ^ 6))))) + (((mi ^ 2) * (mj ^ 2)) *
  ((((((((((((((((((((((((((((((((((((((((((((((((((((((((((((((((((((((((((- a_slope) * b_slope)
  * (mi ^ 5)) * (cos (mi * zb))) * (sin (mj * zb))) * (zt ^ 2)) / ((((mi ^ 6) - ((3 * (mi ^ 4)) *
  (mj ^ 2))) + ((3 * (mi ^ 2)) * (mj ^ 4))) - (mj ^ 6))) + ((((((((2 * a_slope) * b_slope) * (mi ^
  5)) * zb) * (cos (mi * zb))) * (sin (mj * zb))) * zt) / ((((mi ^ 6) - ((3 * (mi ^ 4)) * (mj ^
  2))) + ((3 * (mi ^ 2)) * (mj ^ 4))) - (mj ^ 6)))) - ((((((a_slope * b_slope) * (mi ^ 5)) * (zb ^
  2)) * (cos (mi * zb))) * (sin (mj * zb))) / ((((mi ^ 6) - ((3 * (mi ^ 4)) * (mj ^ 2))) + ((3 *
  (mi ^ 2)) * (mj ^ 4))) - (mj ^ 6)))) + (((((((a_slope * b_slope) * (mi ^ 4)) * mj) * (cos (mj *
  zb))) * (sin (mi * zb))) * (zt ^ 2)) / ((((mi ^ 6) - ((3 * (mi ^ 4)) * (mj ^ 2))) + ((3 * (mi ^
  2)) * (mj ^ 4))) - (mj ^ 6)))) - (((((((((2 * a_slope) * b_slope) * (mi ^ 4)) * mj) * zb) * (cos
  (mj * zb))) * (sin (mi * zb))) * zt) / ((((mi ^ 6) - ((3 * (mi ^ 4)) * (mj ^ 2))) + ((3 * (mi ^
  2)) * (mj ^ 4))) - (mj ^ 6)))) + (((((((a_slope * b_slope) * (mi ^ 4)) * mj) * (zb ^ 2)) * (cos
  (mj * zb))) * (sin (mi * zb))) / ((((mi ^ 6) - ((3 * (mi ^ 4)) * (mj ^ 2))) + ((3 * (mi ^ 2)) *
  (mj ^ 4))) - (mj ^ 6)))) - (((((((2 * a_slope) * b_slope) * (mi ^ 4)) * (sin (mi * zb))) * (sin
  (mj * zb))) * zt) / ((((mi ^ 6) - ((3 * (mi ^ 4)) * (mj ^ 2))) + ((3 * (mi ^ 2)) * (mj ^ 4))) -
  (mj ^ 6)))) + (((((((2 * a_slope) * b_slope) * (mi ^ 4)) * zb) * (sin (mi * zb))) * (sin (mj *
  zb))) / ((((mi ^ 6) - ((3 * (mi ^ 4)) * (mj ^ 2))) + ((3 * (mi ^ 2)) * (mj ^ 4))) - (mj ^ 6))))
  + ((((((((2 * a_slope) * b_slope) * (mi ^ 3)) * (mj ^ 2)) * (cos (mi * zb))) * (sin (mj * zb)))
  * (zt ^ 2)) / ((((mi ^ 6) - ((3 * (mi ^ 4)) * (mj ^ 2))) + ((3 * (mi ^ 2)) * (mj ^ 4))) - (mj ^
  6)))) - (((((((((4 * a_slope) * b_slope) * (mi ^ 3)) * (mj ^ 2)) * zb) * (cos (mi * zb))) * (sin
  (mj * zb))) * zt) / ((((mi ^ 6) - ((3 * (mi ^ 4)) * (mj ^ 2))) + ((3 * (mi ^ 2)) * (mj ^ 4))) -
  (mj ^ 6)))) + ((((((((2 * a_slope) * b_slope) * (mi ^ 3)) * (mj ^ 2)) * (zb ^ 2)) * (cos (mi *
  zb))) * (sin (mj * zb))) / ((((mi ^ 6) - ((3 * (mi ^ 4)) * (mj ^ 2))) + ((3 * (mi ^ 2)) * (mj ^
  4))) - (mj ^ 6)))) - ((((((((4 * a_slope) * b_slope) * (mi ^ 3)) * mj) * (cos (mi * zb))) * (cos
  (mj * zb))) * zt) / ((((mi ^ 6) - ((3 * (mi ^ 4)) * (mj ^ 2))) + ((3 * (mi ^ 2)) * (mj ^ 4))) -
  (mj ^ 6)))) + ((((((((4 * a_slope) * b_slope) * (mi ^ 3)) * mj) * zb) * (cos (mi * zb))) * (cos
  (mj * zb))) / ((((mi ^ 6) - ((3 * (mi ^ 4)) * (mj ^ 2))) + ((3 * (mi ^ 2)) * (mj ^ 4))) - (mj ^
  6)))) + ((((((2 * a_slope) * b_slope) * (mi ^ 3)) * (cos (mi * zb))) * (sin (mj * zb))) / ((((mi
  ^ 6) - ((3 * (mi ^ 4)) * (mj ^ 2))) + ((3 * (mi ^ 2)) * (mj ^ 4))) - (mj ^ 6)))) - ((((((((2 *
  a_slope) * b_slope) * (mi ^ 2)) * (mj ^ 3)) * (cos (mj * zb))) * (sin (mi * zb))) * (zt ^ 2)) /
  ((((mi ^ 6) - ((3 * (mi ^ 4)) * (mj ^ 2))) + ((3 * (mi ^ 2)) * (mj ^ 4))) - (mj ^ 6)))) +
  (((((((((4 * a_slope) * b_slope) * (mi ^ 2)) * (mj ^ 3)) * zb) * (cos (mj * zb))) * (sin (mi *
  zb))) * zt) / ((((mi ^ 6) - ((3 * (mi ^ 4)) * (mj ^ 2))) + ((3 * (mi ^ 2)) * (mj ^ 4))) - (mj ^
  6)))) - ((((((((2 * a_slope) * b_slope) * (mi ^ 2)) * (mj ^ 3)) * (zb ^ 2)) * (cos (mj * zb))) *
  (sin (mi * zb))) / ((((mi ^ 6) - ((3 * (mi ^ 4)) * (mj ^ 2))) + ((3 * (mi ^ 2)) * (mj ^ 4))) -
  (mj ^ 6)))) - (((((((6 * a_slope) * b_slope) * (mi ^ 2)) * mj) * (cos (mj * zb))) * (sin (mi *
  zb))) / ((((mi ^ 6) - ((3 * (mi ^ 4)) * (mj ^ 2))) + ((3 * (mi ^ 2)) * (mj ^ 4))) - (mj ^ 6))))
  - (((((((a_slope * b_slope) * mi) * (mj ^ 4)) * (cos (mi * zb))) * (sin (mj * zb))) * (zt ^ 2))
  / ((((mi ^ 6) - ((3 * (mi ^ 4)) * (mj ^ 2))) + ((3 * (mi ^ 2)) * (mj ^ 4))) - (mj ^ 6)))) +
  (((((((((2 * a_slope) * b_slope) * mi) * (mj ^ 4)) * zb) * (cos (mi * zb))) * (sin (mj * zb))) *
  zt) / ((((mi ^ 6) - ((3 * (mi ^ 4)) * (mj ^ 2))) + ((3 * (mi ^ 2)) * (mj ^ 4))) - (mj ^ 6)))) -
  (((((((a_slope * b_slope) * mi) * (mj ^ 4)) * (zb ^ 2)) * (cos (mi * zb))) * (sin (mj * zb))) /
  ((((mi ^ 6) - ((3 * (mi ^ 4)) * (mj ^ 2))) + ((3 * (mi ^ 2)) * (mj ^ 4))) - (mj ^ 6)))) +
  ((((((((4 * a_slope) * b_slope) * mi) * (mj ^ 3)) * (cos (mi * zb))) * (cos (mj * zb))) * zt) /
  ((((mi ^ 6) - ((3 * (mi ^ 4)) * (mj ^ 2))) + ((3 * (mi ^ 2)) * (mj ^ 4))) - (mj ^ 6)))) -
  ((((((((4 * a_slope) * b_slope) * mi) * (mj ^ 3)) * zb) * (cos (mi * zb))) * (cos (mj * zb))) /
  ((((mi ^ 6) - ((3 * (mi ^ 4)) * (mj ^ 2))) + ((3 * (mi ^ 2)) * (mj ^ 4))) - (mj ^ 6)))) +
  (((((((6 * a_slope) * b_slope) * mi) * (mj ^ 2)) * (cos (mi * zb))) * (sin (mj * zb))) / ((((mi
  ^ 6) - ((3 * (mi ^ 4)) * (mj ^ 2))) + ((3 * (mi ^ 2)) * (mj ^ 4))) - (mj ^ 6)))) + ((((((a_slope
  * b_slope) * (mj ^ 5)) * (cos (mj * zb))) * (sin (mi * zb))) * (zt ^ 2)) / ((((mi ^ 6) - ((3 *
  (mi ^ 4)) * (mj ^ 2))) + ((3 * (mi ^ 2)) * (mj ^ 4))) - (mj ^ 6)))) - ((((((((2 * a_slope) *
  b_slope) * (mj ^ 5)) * zb) * (cos (mj * zb))) * (sin (mi * zb))) * zt) / ((((mi ^ 6) - ((3 * (mi
  ^ 4)) * (mj ^ 2))) + ((3 * (mi ^ 2)) * (mj ^ 4))) - (mj ^ 6)))) + ((((((a_slope * b_slope) * (mj
  ^ 5)) * (zb ^ 2)) * (cos (mj * zb))) * (sin (mi * zb))) / ((((mi ^ 6) - ((3 * (mi ^ 4)) * (mj ^
  2))) + ((3 * (mi ^ 2)) * (mj ^ 4))) - (mj ^ 6)))) + (((((((2 * a_slope) * b_slope) * (mj ^ 4)) *
  (sin (mi * zb))) * (sin (mj * zb))) * zt) / ((((mi ^ 6) - ((3 * (mi ^ 4)) * (mj ^ 2))) + ((3 *
  (mi ^ 2)) * (mj ^ 4))) - (mj ^ 6)))) - (((((((2 * a_slope) * b_slope) * (mj ^ 4)) * zb) * (sin
  (mi * zb))) * (sin (mj * zb))) / ((((mi ^ 6) - ((3 * (mi ^ 4)) * (mj ^ 2))) + ((3 * (mi ^ 2)) *
  (mj ^ 4))) - (mj ^ 6)))) - ((((((2 * a_slope) * b_slope) * (mj ^ 3)) * (cos (mj * zb))) * (sin
  (mi * zb))) / ((((mi ^ 6) - ((3 * (mi ^ 4)) * (mj ^ 2))) + ((3 * (mi ^ 2)) * (mj ^ 4))) - (mj ^
  6)))) + ((((((a_slope * (mi ^ 5)) * (cos (mi * zb))) * (sin (mj * zb))) * zt) * bt) / ((((mi ^
  6) - ((3 * (mi ^ 4)) * (mj ^ 2))) + ((3 * (mi ^ 2)) * (mj ^ 4))) - (mj ^ 6)))) - ((((((a_slope *
  (mi ^ 5)) * zb) * (cos (mi * zb))) * (sin (mj * zb))) * bt) / ((((mi ^ 6) - ((3 * (mi ^ 4)) *
  (mj ^ 2))) + ((3 * (mi ^ 2)) * (mj ^ 4))) - (mj ^ 6)))) - (((((((a_slope * (mi ^ 4)) * mj) *
  (cos (mj * zb))) * (sin (mi * zb))) * zt) * bt) / ((((mi ^ 6) - ((3 * (mi ^ 4)) * (mj ^ 2))) +
  ((3 * (mi ^ 2)) * (mj ^ 4))) - (mj ^ 6)))) + (((((((a_slope * (mi ^ 4)) * mj) * zb) * (cos (mj *
  zb))) * (sin (mi * zb))) * bt) / ((((mi ^ 6) - ((3 * (mi ^ 4)) * (mj ^ 2))) + ((3 * (mi ^ 2)) *
  (mj ^ 4))) - (mj ^ 6)))) + (((((a_slope * (mi ^ 4)) * (sin (mi * zb))) * (sin (mj * zb))) * bt)
  / ((((mi ^ 6) - ((3 * (mi ^ 4)) * (mj ^ 2))) + ((3 * (mi ^ 2)) * (mj ^ 4))) - (mj ^ 6)))) -
  ((((((((2 * a_slope) * (mi ^ 3)) * (mj ^ 2)) * (cos (mi * zb))) * (sin (mj * zb))) * zt) * bt) /
  ((((mi ^ 6) - ((3 * (mi ^ 4)) * (mj ^ 2))) + ((3 * (mi ^ 2)) * (mj ^ 4))) - (mj ^ 6)))) +
  ((((((((2 * a_slope) * (mi ^ 3)) * (mj ^ 2)) * zb) * (cos (mi * zb))) * (sin (mj * zb))) * bt) /
  ((((mi ^ 6) - ((3 * (mi ^ 4)) * (mj ^ 2))) + ((3 * (mi ^ 2)) * (mj ^ 4))) - (mj ^ 6)))) +
  (((((((2 * a_slope) * (mi ^ 3)) * mj) * (cos (mi * zb))) * (cos (mj * zb))) * bt) / ((((mi ^ 6)
  - ((3 * (mi ^ 4)) * (mj ^ 2))) + ((3 * (mi ^ 2)) * (mj ^ 4))) - (mj ^ 6)))) + ((((((((2 *
  a_slope) * (mi ^ 2)) * (mj ^ 3)) * (cos (mj * zb))) * (sin (mi * zb))) * zt) * bt) / ((((mi ^ 6)
  - ((3 * (mi ^ 4)) * (mj ^ 2))) + ((3 * (mi ^ 2)) * (mj ^ 4))) - (mj ^ 6)))) - ((((((((2 *
  a_slope) * (mi ^ 2)) * (mj ^ 3)) * zb) * (cos (mj * zb))) * (sin (mi * zb))) * bt) / ((((mi ^ 6)
  - ((3 * (mi ^ 4)) * (mj ^ 2))) + ((3 * (mi ^ 2)) * (mj ^ 4))) - (mj ^ 6)))) + (((((((a_slope *
  mi) * (mj ^ 4)) * (cos (mi * zb))) * (sin (mj * zb))) * zt) * bt) / ((((mi ^ 6) - ((3 * (mi ^
  4)) * (mj ^ 2))) + ((3 * (mi ^ 2)) * (mj ^ 4))) - (mj ^ 6)))) - (((((((a_slope * mi) * (mj ^ 4))
  * zb) * (cos (mi * zb))) * (sin (mj * zb))) * bt) / ((((mi ^ 6) - ((3 * (mi ^ 4)) * (mj ^ 2))) +
  ((3 * (mi ^ 2)) * (mj ^ 4))) - (mj ^ 6)))) - (((((((2 * a_slope) * mi) * (mj ^ 3)) * (cos (mi *
  zb))) * (cos (mj * zb))) * bt) / ((((mi ^ 6) - ((3 * (mi ^ 4)) * (mj ^ 2))) + ((3 * (mi ^ 2)) *
  (mj ^ 4))) - (mj ^ 6)))) - ((((((a_slope * (mj ^ 5)) * (cos (mj * zb))) * (sin (mi * zb))) * zt)
  * bt) / ((((mi ^ 6) - ((3 * (mi ^ 4)) * (mj ^ 2))) + ((3 * (mi ^ 2)) * (mj ^ 4))) - (mj ^ 6))))
  + ((((((a_slope * (mj ^ 5)) * zb) * (cos (mj * zb))) * (sin (mi * zb))) * bt) / ((((mi ^ 6) -
  ((3 * (mi ^ 4)) * (mj ^ 2))) + ((3 * (mi ^ 2)) * (mj ^ 4))) - (mj ^ 6)))) - (((((a_slope * (mj ^
  4)) * (sin (mi * zb))) * (sin (mj * zb))) * bt) / ((((mi ^ 6) - ((3 * (mi ^ 4)) * (mj ^ 2))) +
  ((3 * (mi ^ 2)) * (mj ^ 4))) - (mj ^ 6)))) + ((((((b_slope * (mi ^ 5)) * (cos (mi * zb))) * (sin
  (mj * zb))) * zt) * at_) / ((((mi ^ 6) - ((3 * (mi ^ 4)) * (mj ^ 2))) + ((3 * (mi ^ 2)) * (mj ^
  4))) - (mj ^ 6)))) - ((((((b_slope * (mi ^ 5)) * zb) * (cos (mi * zb))) * (sin (mj * zb))) *
  at_) / ((((mi ^ 6) - ((3 * (mi ^ 4)) * (mj ^ 2))) + ((3 * (mi ^ 2)) * (mj ^ 4))) - (mj ^ 6)))) -
  (((((((b_slope * (mi ^ 4)) * mj) * (cos (mj * zb))) * (sin (mi * zb))) * zt) * at_) / ((((mi ^
  6) - ((3 * (mi ^ 4)) * (mj ^ 2))) + ((3 * (mi ^ 2)) * (mj ^ 4))) - (mj ^ 6)))) + (((((((b_slope
  * (mi ^ 4)) * mj) * zb) * (cos (mj * zb))) * (sin (mi * zb))) * at_) / ((((mi ^ 6) - ((3 * (mi ^
  4)) * (mj ^ 2))) + ((3 * (mi ^ 2)) * (mj ^ 4))) - (mj ^ 6)))) + (((((b_slope * (mi ^ 4)) * (sin
  (mi * zb))) * (sin (mj * zb))) * at_) / ((((mi ^ 6) - ((3 * (mi ^ 4)) * (mj ^ 2))) + ((3 * (mi ^
  2)) * (mj ^ 4))) - (mj ^ 6)))) - ((((((((2 * b_slope) * (mi ^ 3)) * (mj ^ 2)) * (cos (mi * zb)))
  * (sin (mj * zb))) * zt) * at_) / ((((mi ^ 6) - ((3 * (mi ^ 4)) * (mj ^ 2))) + ((3 * (mi ^ 2)) *
  (mj ^ 4))) - (mj ^ 6)))) + ((((((((2 * b_slope) * (mi ^ 3)) * (mj ^ 2)) * zb) * (cos (mi * zb)))
  * (sin (mj * zb))) * at_) / ((((mi ^ 6) - ((3 * (mi ^ 4)) * (mj ^ 2))) + ((3 * (mi ^ 2)) * (mj ^
  4))) - (mj ^ 6)))) + (((((((2 * b_slope) * (mi ^ 3)) * mj) * (cos (mi * zb))) * (cos (mj * zb)))
  * at_) / ((((mi ^ 6) - ((3 * (mi ^ 4)) * (mj ^ 2))) + ((3 * (mi ^ 2)) * (mj ^ 4))) - (mj ^ 6))))
  + ((((((((2 * b_slope) * (mi ^ 2)) * (mj ^ 3)) * (cos (mj * zb))) * (sin (mi * zb))) * zt) *
  at_) / ((((mi ^ 6) - ((3 * (mi ^ 4)) * (mj ^ 2))) + ((3 * (mi ^ 2)) * (mj ^ 4))) - (mj ^ 6)))) -
  ((((((((2 * b_slope) * (mi ^ 2)) * (mj ^ 3)) * zb) * (cos (mj * zb))) * (sin (mi * zb))) * at_)
  / ((((mi ^ 6) - ((3 * (mi ^ 4)) * (mj ^ 2))) + ((3 * (mi ^ 2)) * (mj ^ 4))) - (mj ^ 6)))) +
  (((((((b_slope * mi) * (mj ^ 4)) * (cos (mi * zb))) * (sin (mj * zb))) * zt) * at_) / ((((mi ^
  6) - ((3 * (mi ^ 4)) * (mj ^ 2))) + ((3 * (mi ^ 2)) * (mj ^ 4))) - (mj ^ 6)))) - (((((((b_slope
  * mi) * (mj ^ 4)) * zb) * (cos (mi * zb))) * (sin (mj * zb))) * at_) / ((((mi ^ 6) - ((3 * (mi ^
  4)) * (mj ^ 2))) + ((3 * (mi ^ 2)) * (mj ^ 4))) - (mj ^ 6)))) - (((((((2 * b_slope) * mi) * (mj
  ^ 3)) * (cos (mi * zb))) * (cos (mj * zb))) * at_) / ((((mi ^ 6) - ((3 * (mi ^ 4)) * (mj ^ 2)))
  + ((3 * (mi ^ 2)) * (mj ^ 4))) - (mj ^ 6)))) - ((((((b_slope * (mj ^ 5)) * (cos (mj * zb))) *
  (sin (mi * zb))) * zt) * at_) / ((((mi ^ 6) - ((3 * (mi ^ 4)) * (mj ^ 2))) + ((3 * (mi ^ 2)) *
  (mj ^ 4))) - (mj ^ 6)))) + ((((((b_slope * (mj ^ 5)) * zb) * (cos (mj * zb))) * (sin (mi * zb)))
  * at_) / ((((mi ^ 6) - ((3 * (mi ^ 4)) * (mj ^ 2))) + ((3 * (mi ^ 2)) * (mj ^ 4))) - (mj ^ 6))))
  - (((((b_slope * (mj ^ 4)) * (sin (mi * zb))) * (sin (mj * zb))) * at_) / ((((mi ^ 6) - ((3 *
  (mi ^ 4)) * (mj ^ 2))) + ((3 * (mi ^ 2)) * (mj ^ 4))) - (mj ^ 6)))) - ((((((mi ^ 5) * (cos (mi *
  zb))) * (sin (mj * zb))) * bt) * at_) / ((((mi ^ 6) - ((3 * (mi ^ 4)) * (mj ^ 2))) + ((3 * (mi ^
  2)) * (mj ^ 4))) - (mj ^ 6)))) + (((((((mi ^ 4) * mj) * (cos (mj * zb))) * (sin (mi * zb))) *
  bt) * at_) / ((((mi ^ 6) - ((3 * (mi ^ 4)) * (mj ^ 2))) + ((3 * (mi ^ 2)) * (mj ^ 4))) - (mj ^
  6)))) + (((((((2 * (mi ^ 3)) * (mj ^ 2)) * (cos (mi * zb))) * (sin (mj * zb))) * bt) * at_) /
  ((((mi ^ 6) - ((3 * (mi ^ 4)) * (mj ^ 2))) + ((3 * (mi ^ 2)) * (mj ^ 4))) - (mj ^ 6)))) -
  (((((((2 * (mi ^ 2)) * (mj ^ 3)) * (cos (mj * zb))) * (sin (mi * zb))) * bt) * at_) / ((((mi ^
  6) - ((3 * (mi ^ 4)) * (mj ^ 2))) + ((3 * (mi ^ 2)) * (mj ^ 4))) - (mj ^ 6)))) - ((((((mi * (mj
  ^ 4)) * (cos (mi * zb))) * (sin (mj * zb))) * bt) * at_) / ((((mi ^ 6) - ((3 * (mi ^ 4)) * (mj ^
  2))) + ((3 * (mi ^ 2)) * (mj ^ 4))) - (mj ^ 6)))) + ((((((mj ^ 5) * (cos (mj * zb))) * (sin (mi
  * zb))) * bt) * at_) / ((((mi ^ 6) - ((3 * (mi ^ 4)) * (mj ^ 2))) + ((3 * (mi ^ 2)) * (mj ^ 4)))
  - (mj ^ 6)))))).

(** integrals.py:2254-2269 (dim1sin_ab_linear, scalar) *)
Definition ab_scalar (a_slope b_slope at_ bt zt zb mi : R) : R :=
  ((((((((((((((((((((2 * a_slope) * b_slope) * (/ (mi ^ 3))) * (cos (mi * zb))) - ((((2 *
  a_slope) * b_slope) * (/ (mi ^ 3))) * (cos (mi * zt)))) - (((((2 * a_slope) * b_slope) * (/ (mi
  ^ 2))) * (sin (mi * zb))) * zt)) + (((((2 * a_slope) * b_slope) * (/ (mi ^ 2))) * zb) * (sin (mi
  * zb)))) - ((((a_slope * b_slope) * (/ (mi ^ 1))) * (cos (mi * zb))) * (zt ^ 2))) + ((((((2 *
  a_slope) * b_slope) * (/ (mi ^ 1))) * zb) * (cos (mi * zb))) * zt)) - ((((a_slope * b_slope) *
  (/ (mi ^ 1))) * (zb ^ 2)) * (cos (mi * zb)))) + (((a_slope * (/ (mi ^ 2))) * (sin (mi * zb))) *
  bt)) - (((a_slope * (/ (mi ^ 2))) * (sin (mi * zt))) * bt)) + ((((a_slope * (/ (mi ^ 1))) * (cos
  (mi * zb))) * zt) * bt)) - ((((a_slope * (/ (mi ^ 1))) * zb) * (cos (mi * zb))) * bt)) +
  (((b_slope * (/ (mi ^ 2))) * (sin (mi * zb))) * at_)) - (((b_slope * (/ (mi ^ 2))) * (sin (mi *
  zt))) * at_)) + ((((b_slope * (/ (mi ^ 1))) * (cos (mi * zb))) * zt) * at_)) - ((((b_slope * (/
  (mi ^ 1))) * zb) * (cos (mi * zb))) * at_)) - ((((/ (mi ^ 1)) * (cos (mi * zb))) * bt) * at_)) +
  ((((/ (mi ^ 1)) * (cos (mi * zt))) * bt) * at_)).

(** integrals.py:2290-2297 (dim1sin_ab_linear, vectorized) *)
Definition ab_vectorized (a_slope b_slope at_ bt zt zb mi : R) : R :=
  (((((((((((((((((((((- a_slope) * b_slope) * (cos (mi * zb))) * (zt ^ 2)) / mi) + ((((((2 *
  a_slope) * b_slope) * zb) * (cos (mi * zb))) * zt) / mi)) - ((((a_slope * b_slope) * (zb ^ 2)) *
  (cos (mi * zb))) / mi)) - (((((2 * a_slope) * b_slope) * (sin (mi * zb))) * zt) / (mi ^ 2))) +
  (((((2 * a_slope) * b_slope) * zb) * (sin (mi * zb))) / (mi ^ 2))) + ((((2 * a_slope) * b_slope)
  * (cos (mi * zb))) / (mi ^ 3))) - ((((2 * a_slope) * b_slope) * (cos (mi * zt))) / (mi ^ 3))) +
  ((((a_slope * (cos (mi * zb))) * zt) * bt) / mi)) - ((((a_slope * zb) * (cos (mi * zb))) * bt) /
  mi)) + (((a_slope * (sin (mi * zb))) * bt) / (mi ^ 2))) - (((a_slope * (sin (mi * zt))) * bt) /
  (mi ^ 2))) + ((((b_slope * (cos (mi * zb))) * zt) * at_) / mi)) - ((((b_slope * zb) * (cos (mi *
  zb))) * at_) / mi)) + (((b_slope * (sin (mi * zb))) * at_) / (mi ^ 2))) - (((b_slope * (sin (mi
  * zt))) * at_) / (mi ^ 2))) - ((((cos (mi * zb)) * bt) * at_) / mi)) + ((((cos (mi * zt)) * bt)
  * at_) / mi)).

(** integrals.py:2403-2449 (dim1sin_abc_linear, scalar) *)
Definition abc_scalar (a_slope b_slope c_slope at_ bt ct zt zb mi : R) : R :=
  (((((((((((((((((((((((((((((((((((((((((((((((((((- 6) * a_slope) * b_slope) * c_slope) * (/
  (mi ^ 4))) * (sin (mi * zb))) + (((((6 * a_slope) * b_slope) * c_slope) * (/ (mi ^ 4))) * (sin
  (mi * zt)))) - ((((((6 * a_slope) * b_slope) * c_slope) * (/ (mi ^ 3))) * (cos (mi * zb))) *
  zt)) + ((((((6 * a_slope) * b_slope) * c_slope) * (/ (mi ^ 3))) * zb) * (cos (mi * zb)))) +
  ((((((3 * a_slope) * b_slope) * c_slope) * (/ (mi ^ 2))) * (sin (mi * zb))) * (zt ^ 2))) -
  (((((((6 * a_slope) * b_slope) * c_slope) * (/ (mi ^ 2))) * zb) * (sin (mi * zb))) * zt)) +
  ((((((3 * a_slope) * b_slope) * c_slope) * (/ (mi ^ 2))) * (zb ^ 2)) * (sin (mi * zb)))) +
  (((((a_slope * b_slope) * c_slope) * (/ (mi ^ 1))) * (cos (mi * zb))) * (zt ^ 3))) - (((((((3 *
  a_slope) * b_slope) * c_slope) * (/ (mi ^ 1))) * zb) * (cos (mi * zb))) * (zt ^ 2))) + (((((((3
  * a_slope) * b_slope) * c_slope) * (/ (mi ^ 1))) * (zb ^ 2)) * (cos (mi * zb))) * zt)) -
  (((((a_slope * b_slope) * c_slope) * (/ (mi ^ 1))) * (zb ^ 3)) * (cos (mi * zb)))) + (((((2 *
  a_slope) * b_slope) * (/ (mi ^ 3))) * (cos (mi * zb))) * ct)) - (((((2 * a_slope) * b_slope) *
  (/ (mi ^ 3))) * (cos (mi * zt))) * ct)) - ((((((2 * a_slope) * b_slope) * (/ (mi ^ 2))) * (sin
  (mi * zb))) * zt) * ct)) + ((((((2 * a_slope) * b_slope) * (/ (mi ^ 2))) * zb) * (sin (mi *
  zb))) * ct)) - (((((a_slope * b_slope) * (/ (mi ^ 1))) * (cos (mi * zb))) * (zt ^ 2)) * ct)) +
  (((((((2 * a_slope) * b_slope) * (/ (mi ^ 1))) * zb) * (cos (mi * zb))) * zt) * ct)) -
  (((((a_slope * b_slope) * (/ (mi ^ 1))) * (zb ^ 2)) * (cos (mi * zb))) * ct)) + (((((2 *
  a_slope) * c_slope) * (/ (mi ^ 3))) * (cos (mi * zb))) * bt)) - (((((2 * a_slope) * c_slope) *
  (/ (mi ^ 3))) * (cos (mi * zt))) * bt)) - ((((((2 * a_slope) * c_slope) * (/ (mi ^ 2))) * (sin
  (mi * zb))) * zt) * bt)) + ((((((2 * a_slope) * c_slope) * (/ (mi ^ 2))) * zb) * (sin (mi *
  zb))) * bt)) - (((((a_slope * c_slope) * (/ (mi ^ 1))) * (cos (mi * zb))) * (zt ^ 2)) * bt)) +
  (((((((2 * a_slope) * c_slope) * (/ (mi ^ 1))) * zb) * (cos (mi * zb))) * zt) * bt)) -
  (((((a_slope * c_slope) * (/ (mi ^ 1))) * (zb ^ 2)) * (cos (mi * zb))) * bt)) + ((((a_slope * (/
  (mi ^ 2))) * (sin (mi * zb))) * ct) * bt)) - ((((a_slope * (/ (mi ^ 2))) * (sin (mi * zt))) *
  ct) * bt)) + (((((a_slope * (/ (mi ^ 1))) * (cos (mi * zb))) * zt) * ct) * bt)) - (((((a_slope *
  (/ (mi ^ 1))) * zb) * (cos (mi * zb))) * ct) * bt)) + (((((2 * b_slope) * c_slope) * (/ (mi ^
  3))) * (cos (mi * zb))) * at_)) - (((((2 * b_slope) * c_slope) * (/ (mi ^ 3))) * (cos (mi *
  zt))) * at_)) - ((((((2 * b_slope) * c_slope) * (/ (mi ^ 2))) * (sin (mi * zb))) * zt) * at_)) +
  ((((((2 * b_slope) * c_slope) * (/ (mi ^ 2))) * zb) * (sin (mi * zb))) * at_)) - (((((b_slope *
  c_slope) * (/ (mi ^ 1))) * (cos (mi * zb))) * (zt ^ 2)) * at_)) + (((((((2 * b_slope) * c_slope)
  * (/ (mi ^ 1))) * zb) * (cos (mi * zb))) * zt) * at_)) - (((((b_slope * c_slope) * (/ (mi ^ 1)))
  * (zb ^ 2)) * (cos (mi * zb))) * at_)) + ((((b_slope * (/ (mi ^ 2))) * (sin (mi * zb))) * ct) *
  at_)) - ((((b_slope * (/ (mi ^ 2))) * (sin (mi * zt))) * ct) * at_)) + (((((b_slope * (/ (mi ^
  1))) * (cos (mi * zb))) * zt) * ct) * at_)) - (((((b_slope * (/ (mi ^ 1))) * zb) * (cos (mi *
  zb))) * ct) * at_)) + ((((c_slope * (/ (mi ^ 2))) * (sin (mi * zb))) * bt) * at_)) - ((((c_slope
  * (/ (mi ^ 2))) * (sin (mi * zt))) * bt) * at_)) + (((((c_slope * (/ (mi ^ 1))) * (cos (mi *
  zb))) * zt) * bt) * at_)) - (((((c_slope * (/ (mi ^ 1))) * zb) * (cos (mi * zb))) * bt) * at_))
  - (((((/ (mi ^ 1)) * (cos (mi * zb))) * ct) * bt) * at_)) + (((((/ (mi ^ 1)) * (cos (mi * zt)))
  * ct) * bt) * at_)).

(** integrals.py:2473-2498 (dim1sin_abc_linear, vectorized) *)
Definition abc_vectorized (a_slope b_slope c_slope at_ bt ct zt zb mi : R) : R :=
  ((((((((((((((((((((((((((((((((((((((((((((((((((a_slope * b_slope) * c_slope) * (cos (mi *
  zb))) * (zt ^ 3)) / mi) - (((((((3 * a_slope) * b_slope) * c_slope) * zb) * (cos (mi * zb))) *
  (zt ^ 2)) / mi)) + (((((((3 * a_slope) * b_slope) * c_slope) * (zb ^ 2)) * (cos (mi * zb))) *
  zt) / mi)) - (((((a_slope * b_slope) * c_slope) * (zb ^ 3)) * (cos (mi * zb))) / mi)) + ((((((3
  * a_slope) * b_slope) * c_slope) * (sin (mi * zb))) * (zt ^ 2)) / (mi ^ 2))) - (((((((6 *
  a_slope) * b_slope) * c_slope) * zb) * (sin (mi * zb))) * zt) / (mi ^ 2))) + ((((((3 * a_slope)
  * b_slope) * c_slope) * (zb ^ 2)) * (sin (mi * zb))) / (mi ^ 2))) - ((((((6 * a_slope) *
  b_slope) * c_slope) * (cos (mi * zb))) * zt) / (mi ^ 3))) + ((((((6 * a_slope) * b_slope) *
  c_slope) * zb) * (cos (mi * zb))) / (mi ^ 3))) - (((((6 * a_slope) * b_slope) * c_slope) * (sin
  (mi * zb))) / (mi ^ 4))) + (((((6 * a_slope) * b_slope) * c_slope) * (sin (mi * zt))) / (mi ^
  4))) - (((((a_slope * b_slope) * (cos (mi * zb))) * (zt ^ 2)) * ct) / mi)) + (((((((2 * a_slope)
  * b_slope) * zb) * (cos (mi * zb))) * zt) * ct) / mi)) - (((((a_slope * b_slope) * (zb ^ 2)) *
  (cos (mi * zb))) * ct) / mi)) - ((((((2 * a_slope) * b_slope) * (sin (mi * zb))) * zt) * ct) /
  (mi ^ 2))) + ((((((2 * a_slope) * b_slope) * zb) * (sin (mi * zb))) * ct) / (mi ^ 2))) + (((((2
  * a_slope) * b_slope) * (cos (mi * zb))) * ct) / (mi ^ 3))) - (((((2 * a_slope) * b_slope) *
  (cos (mi * zt))) * ct) / (mi ^ 3))) - (((((a_slope * c_slope) * (cos (mi * zb))) * (zt ^ 2)) *
  bt) / mi)) + (((((((2 * a_slope) * c_slope) * zb) * (cos (mi * zb))) * zt) * bt) / mi)) -
  (((((a_slope * c_slope) * (zb ^ 2)) * (cos (mi * zb))) * bt) / mi)) - ((((((2 * a_slope) *
  c_slope) * (sin (mi * zb))) * zt) * bt) / (mi ^ 2))) + ((((((2 * a_slope) * c_slope) * zb) *
  (sin (mi * zb))) * bt) / (mi ^ 2))) + (((((2 * a_slope) * c_slope) * (cos (mi * zb))) * bt) /
  (mi ^ 3))) - (((((2 * a_slope) * c_slope) * (cos (mi * zt))) * bt) / (mi ^ 3))) + (((((a_slope *
  (cos (mi * zb))) * zt) * ct) * bt) / mi)) - (((((a_slope * zb) * (cos (mi * zb))) * ct) * bt) /
  mi)) + ((((a_slope * (sin (mi * zb))) * ct) * bt) / (mi ^ 2))) - ((((a_slope * (sin (mi * zt)))
  * ct) * bt) / (mi ^ 2))) - (((((b_slope * c_slope) * (cos (mi * zb))) * (zt ^ 2)) * at_) / mi))
  + (((((((2 * b_slope) * c_slope) * zb) * (cos (mi * zb))) * zt) * at_) / mi)) - (((((b_slope *
  c_slope) * (zb ^ 2)) * (cos (mi * zb))) * at_) / mi)) - ((((((2 * b_slope) * c_slope) * (sin (mi
  * zb))) * zt) * at_) / (mi ^ 2))) + ((((((2 * b_slope) * c_slope) * zb) * (sin (mi * zb))) *
  at_) / (mi ^ 2))) + (((((2 * b_slope) * c_slope) * (cos (mi * zb))) * at_) / (mi ^ 3))) - (((((2
  * b_slope) * c_slope) * (cos (mi * zt))) * at_) / (mi ^ 3))) + (((((b_slope * (cos (mi * zb))) *
  zt) * ct) * at_) / mi)) - (((((b_slope * zb) * (cos (mi * zb))) * ct) * at_) / mi)) +
  ((((b_slope * (sin (mi * zb))) * ct) * at_) / (mi ^ 2))) - ((((b_slope * (sin (mi * zt))) * ct)
  * at_) / (mi ^ 2))) + (((((c_slope * (cos (mi * zb))) * zt) * bt) * at_) / mi)) - (((((c_slope *
  zb) * (cos (mi * zb))) * bt) * at_) / mi)) + ((((c_slope * (sin (mi * zb))) * bt) * at_) / (mi ^
  2))) - ((((c_slope * (sin (mi * zt))) * bt) * at_) / (mi ^ 2))) - (((((cos (mi * zb)) * ct) *
  bt) * at_) / mi)) + (((((cos (mi * zt)) * ct) * bt) * at_) / mi)).

(** integrals.py:2629-2633 (dim1sin_D_aDb_linear, scalar) *)
Definition DaDb_scalar (a_slope b_slope at_ zt zb mi : R) : R :=
  (((b_slope * mi) * (((a_slope * (/ (mi ^ 2))) * (cos (zt * mi))) + ((at_ * (/ (mi ^ 1))) * (sin
  (zt * mi))))) - ((b_slope * mi) * (((((a_slope * (/ (mi ^ 2))) * (cos (zb * mi))) + (((a_slope *
  zb) * (/ (mi ^ 1))) * (sin (zb * mi)))) - (((a_slope * zt) * (/ (mi ^ 1))) * (sin (zb * mi)))) +
  ((at_ * (/ (mi ^ 1))) * (sin (zb * mi)))))).

(** integrals.py:2658-2659 (dim1sin_D_aDb_linear, vectorized) *)
Definition DaDb_vectorized (a_slope b_slope at_ zt zb mi : R) : R :=
  (((b_slope * mi) * (((a_slope * (cos (mi * zt))) / (mi ^ 2)) + (((sin (mi * zt)) * at_) / mi)))
  - ((b_slope * mi) * (((((((- a_slope) * (sin (mi * zb))) * zt) / mi) + (((a_slope * zb) * (sin
  (mi * zb))) / mi)) + ((a_slope * (cos (mi * zb))) / (mi ^ 2))) + (((sin (mi * zb)) * at_) /
  mi)))).

(** integrals.py:1191-1196 (dim1sin_a_linear_between, both) *)
Definition a_between_both (a_slope at_ zt z1 z2 mi : R) : R :=
  ((((((((((- a_slope) * (/ (mi ^ 2))) * (sin (mi * z1))) + ((a_slope * (/ (mi ^ 2))) * (sin (mi *
  z2)))) + (((a_slope * (/ (mi ^ 1))) * z1) * (cos (mi * z1)))) - (((a_slope * (/ (mi ^ 1))) * z2)
  * (cos (mi * z2)))) - (((a_slope * zt) * (/ (mi ^ 1))) * (cos (mi * z1)))) + (((a_slope * zt) *
  (/ (mi ^ 1))) * (cos (mi * z2)))) + ((at_ * (/ (mi ^ 1))) * (cos (mi * z1)))) - ((at_ * (/ (mi ^
  1))) * (cos (mi * z2)))).

(** integrals.py:1200-1205 (dim1sin_a_linear_between, z1_only) *)
Definition a_between_z1_only (a_slope at_ zt zb z1 mi : R) : R :=
  ((((((((((- a_slope) * (/ (mi ^ 2))) * (sin (mi * z1))) + ((a_slope * (/ (mi ^ 2))) * (sin (zb *
  mi)))) + (((a_slope * (/ (mi ^ 1))) * z1) * (cos (mi * z1)))) - (((a_slope * zb) * (/ (mi ^ 1)))
  * (cos (zb * mi)))) - (((a_slope * zt) * (/ (mi ^ 1))) * (cos (mi * z1)))) + (((a_slope * zt) *
  (/ (mi ^ 1))) * (cos (zb * mi)))) + ((at_ * (/ (mi ^ 1))) * (cos (mi * z1)))) - ((at_ * (/ (mi ^
  1))) * (cos (zb * mi)))).

(** integrals.py:1209-1213 (dim1sin_a_linear_between, between) *)
Definition a_between_between (a_slope at_ zt zb mi : R) : R :=
  (((((((a_slope * (/ (mi ^ 2))) * (sin (zb * mi))) - ((a_slope * (/ (mi ^ 2))) * (sin (zt *
  mi)))) - (((a_slope * zb) * (/ (mi ^ 1))) * (cos (zb * mi)))) + (((a_slope * zt) * (/ (mi ^ 1)))
  * (cos (zb * mi)))) - ((at_ * (/ (mi ^ 1))) * (cos (zb * mi)))) + ((at_ * (/ (mi ^ 1))) * (cos
  (zt * mi)))).

(** integrals.py:1217-1220 (dim1sin_a_linear_between, z2_only) *)
Definition a_between_z2_only (a_slope at_ zt z2 mi : R) : R :=
  (((((((a_slope * (/ (mi ^ 2))) * (sin (mi * z2))) - ((a_slope * (/ (mi ^ 2))) * (sin (zt *
  mi)))) - (((a_slope * (/ (mi ^ 1))) * z2) * (cos (mi * z2)))) + (((a_slope * zt) * (/ (mi ^ 1)))
  * (cos (mi * z2)))) - ((at_ * (/ (mi ^ 1))) * (cos (mi * z2)))) + ((at_ * (/ (mi ^ 1))) * (cos
  (zt * mi)))).
