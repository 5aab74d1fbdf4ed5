(** * Model of the spectral integral functions of /repo/geotecha/speccon/integrals.py
    (exact real arithmetic; the closed forms themselves are in IntegralsGen.v). *)
From Coq Require Import Reals List ZArith Arith.
From Verif Require Import Base PiecewiseModel IntegralsGen.
Import ListNotations.
Open Scope R_scope.

(** One layer of the parallel arrays zt, zb, at, ab, bt, bb, ct, cb. *)
Record slab := mkSlab { zt : R; zb : R; at_ : R; ab : R; bt : R; bb : R; ct : R; cb : R }.

(** integrals.py:1306 and 1394; 1520-1521 and 1787-1788; 2399-2401 and 2468-2470. *)
Definition a_slope (s : slab) : R := (ab s - at_ s) / (zb s - zt s).
Definition b_slope (s : slab) : R := (bb s - bt s) / (zb s - zt s).
Definition c_slope (s : slab) : R := (cb s - ct s) / (zb s - zt s).

(** The [implementation] argument.  'fortran' when the extension module cannot be imported
    (integrals.py:1375-1383 etc.) is the vectorized code; the Fortran extension itself is
    not modelled. *)
Inductive impl := scalar | vectorized | fortran_not_built.

(** integrals.py:968-998 dim1sin. *)
Definition dim1sin (m z : list R) : list (list R) :=
  map (fun zz => map (fun mm => sin (zz * mm)) m) z.

(** integrals.py:34-64 m_from_sin_mx (i a natural number, boundary an integer). *)
Definition m_from_sin_mx (i : nat) (boundary : Z) : result R :=
  if orb (Z.eqb boundary 0) (Z.eqb boundary 1)
  then Ok (PI * (INR i + 1 - IZR boundary / 2)) else Err ValueError.

(** The loops: A[i,i] and A[i,j], i<j, are sums over layers (integrals.py:1305-1368; np.sum
    over axis 1 in the vectorized branch 1397-1428); then A[j,i] = A[i,j] (1371-1373, 1430). *)
Definition sym_matrix (n : nat) (diag : nat -> R) (off : nat -> nat -> R) : list (list R) :=
  map (fun i => map (fun j => if Nat.eqb i j then diag i
                              else if Nat.ltb i j then off i j else off j i) (seq 0 n)) (seq 0 n).
Definition matrix_of (m : list R) (slabs : list slab)
  (diag : slab -> R -> R) (off : slab -> R -> R -> R) : list (list R) :=
  sym_matrix (length m)
    (fun i => sumn (map (fun s => diag s (nth i m 0)) slabs))
    (fun i j => sumn (map (fun s => off s (nth i m 0) (nth j m 0)) slabs)).
Definition vector_of (m : list R) (slabs : list slab) (f : slab -> R -> R) : list R :=
  map (fun mi => sumn (map (fun s => f s mi) slabs)) m.

(** integrals.py:1224-1432 *)
Definition dim1sin_af_linear (im : impl) (m : list R) (slabs : list slab) : list (list R) :=
  match im with
  | scalar => matrix_of m slabs
      (fun s mi => af_scalar_diag (a_slope s) (at_ s) (zt s) (zb s) mi)
      (fun s mi mj => af_scalar_off (a_slope s) (at_ s) (zt s) (zb s) mi mj)
  | _ => matrix_of m slabs
      (fun s mi => af_vectorized_diag (a_slope s) (at_ s) (zt s) (zb s) mi)
      (fun s mi mj => af_vectorized_off (a_slope s) (at_ s) (zt s) (zb s) mi mj)
  end.
(** integrals.py:1938-2157 *)
Definition dim1sin_D_aDf_linear (im : impl) (m : list R) (slabs : list slab) : list (list R) :=
  match im with
  | scalar => matrix_of m slabs
      (fun s mi => DaDf_scalar_diag (a_slope s) (at_ s) (zt s) (zb s) mi)
      (fun s mi mj => DaDf_scalar_off (a_slope s) (at_ s) (zt s) (zb s) mi mj)
  | _ => matrix_of m slabs
      (fun s mi => DaDf_vectorized_diag (a_slope s) (at_ s) (zt s) (zb s) mi)
      (fun s mi mj => DaDf_vectorized_off (a_slope s) (at_ s) (zt s) (zb s) mi mj)
  end.
(** integrals.py:1435-1935 *)
Definition dim1sin_abf_linear (im : impl) (m : list R) (slabs : list slab) : list (list R) :=
  match im with
  | scalar => matrix_of m slabs
      (fun s mi => abf_scalar_diag (a_slope s) (b_slope s) (at_ s) (bt s) (zt s) (zb s) mi)
      (fun s mi mj => abf_scalar_off (a_slope s) (b_slope s) (at_ s) (bt s) (zt s) (zb s) mi mj)
  | _ => matrix_of m slabs
      (fun s mi => abf_vectorized_diag (a_slope s) (b_slope s) (at_ s) (bt s) (zt s) (zb s) mi)
      (fun s mi mj => abf_vectorized_off (a_slope s) (b_slope s) (at_ s) (bt s) (zt s) (zb s) mi mj)
  end.
(** integrals.py:6767-7266 *)
Definition dim1sin_DD_abDDf_linear (im : impl) (m : list R) (slabs : list slab) : list (list R) :=
  match im with
  | scalar => matrix_of m slabs
      (fun s mi => DDabDDf_scalar_diag (a_slope s) (b_slope s) (at_ s) (bt s) (zt s) (zb s) mi)
      (fun s mi mj => DDabDDf_scalar_off (a_slope s) (b_slope s) (at_ s) (bt s) (zt s) (zb s) mi mj)
  | _ => matrix_of m slabs
      (fun s mi => DDabDDf_vectorized_diag (a_slope s) (b_slope s) (at_ s) (bt s) (zt s) (zb s) mi)
      (fun s mi mj => DDabDDf_vectorized_off (a_slope s) (b_slope s) (at_ s) (bt s) (zt s) (zb s) mi mj)
  end.
(** integrals.py:2160-2300 *)
Definition dim1sin_ab_linear (im : impl) (m : list R) (slabs : list slab) : list R :=
  match im with
  | scalar => vector_of m slabs (fun s mi => ab_scalar (a_slope s) (b_slope s) (at_ s) (bt s) (zt s) (zb s) mi)
  | _ => vector_of m slabs (fun s mi => ab_vectorized (a_slope s) (b_slope s) (at_ s) (bt s) (zt s) (zb s) mi)
  end.
(** integrals.py:2303-2501 *)
Definition dim1sin_abc_linear (im : impl) (m : list R) (slabs : list slab) : list R :=
  match im with
  | scalar => vector_of m slabs (fun s mi =>
      abc_scalar (a_slope s) (b_slope s) (c_slope s) (at_ s) (bt s) (ct s) (zt s) (zb s) mi)
  | _ => vector_of m slabs (fun s mi =>
      abc_vectorized (a_slope s) (b_slope s) (c_slope s) (at_ s) (bt s) (ct s) (zt s) (zb s) mi)
  end.
(** integrals.py:2635-2638 and 2660-2662: the boundary terms, from the first and last layer
    (IndexError when there is no layer). *)
Definition DaDb_boundary (f l : slab) (mi : R) : R :=
  - / (zb f - zt f) * (bb f - bt f) * at_ f * sin (zt f * mi)
  + / (zb l - zt l) * (bb l - bt l) * ab l * sin (zb l * mi).
(** integrals.py:2504-2663 *)
Definition dim1sin_D_aDb_linear (im : impl) (m : list R) (slabs : list slab) : result (list R) :=
  f <- get slabs 0 ;; l <- get_last slabs ;;
  let v := match im with
           | scalar => vector_of m slabs (fun s mi => DaDb_scalar (a_slope s) (b_slope s) (at_ s) (zt s) (zb s) mi)
           | _ => vector_of m slabs (fun s mi => DaDb_vectorized (a_slope s) (b_slope s) (at_ s) (zt s) (zb s) mi)
           end in
  Ok (map (fun p => fst p + DaDb_boundary f l (snd p)) (combine v m)).

(** integrals.py:1001-1040 dim1sin_avg_between: rows z (pairs), columns m.  Division by
    m = 0 or by an empty interval gives nan/inf in numpy; the theorems exclude both. *)
Definition dim1sin_avg_between (m : list R) (z : list (R * R)) : list (list R) :=
  map (fun p => map (fun mi => (cos (fst p * mi) - cos (snd p * mi)) / mi / (snd p - fst p)) m) z.

(** integrals.py:1096-1221 dim1sin_a_linear_between. *)
Definition dim1sin_a_linear_between1 (m : list R) (slabs : list slab) (z1 z2 : R) : result (list R) :=
  lastl <- get_last slabs ;;
  sb <- segments_between1 (map zt slabs ++ [zb lastl]) z1 z2 ;;
  let '(both, ionly, jonly, between) := sb in
  mapM (fun mi =>
    a1 <- mapM (fun k => s <- get slabs k ;; Ok (a_between_both (a_slope s) (at_ s) (zt s) z1 z2 mi)) both ;;
    a2 <- mapM (fun k => s <- get slabs k ;; Ok (a_between_z1_only (a_slope s) (at_ s) (zt s) (zb s) z1 mi)) ionly ;;
    a3 <- mapM (fun k => s <- get slabs k ;; Ok (a_between_between (a_slope s) (at_ s) (zt s) (zb s) mi)) between ;;
    a4 <- mapM (fun k => s <- get slabs k ;; Ok (a_between_z2_only (a_slope s) (at_ s) (zt s) z2 mi)) jonly ;;
    Ok (sumn (a1 ++ a2 ++ a3 ++ a4))) m.
Definition dim1sin_a_linear_between (m : list R) (slabs : list slab) (z : list (R * R)) : result (list (list R)) :=
  mapM (fun p => dim1sin_a_linear_between1 m slabs (fst p) (snd p)) z.
