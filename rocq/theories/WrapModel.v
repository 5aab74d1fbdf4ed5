(** * Model of the PolyLine versions of the spectral integrals, /repo/geotecha/speccon/integrals.py
    (a PolyLine is its points; its layers x1, x2, y1, y2 are computed from them, see PolyLineModel). *)
From Coq Require Import Reals List Arith ZArith Bool.
From Verif Require Import Base PiecewiseModel LayersModel PolyLineModel SpectralModel.
Import ListNotations.
Open Scope R_scope.

(** a.x1, a.x2, a.y1, a.y2 *)
Definition layers (a : points) : list (layer R) := convert_x_y_to_x1_x2_y1_y2 a.
(** The arrays handed to the dim1sin_* functions: layers of one, two, three lines side by side.
    Arrays of different length do not broadcast: ValueError (a single layer, which numpy
    would broadcast, is refused too: it cannot occur after polyline_make_x_common). *)
Definition slabs1 (a : points) : list slab :=
  map (fun l => mkSlab (lx1 l) (lx2 l) (ly1 l) (ly2 l) 0 0 0 0) (layers a).
Definition slabs2 (a b : points) : result (list slab) :=
  if negb (Nat.eqb (length (layers a)) (length (layers b))) then Err ValueError else
  Ok (map (fun p => let '(l, k) := p in mkSlab (lx1 l) (lx2 l) (ly1 l) (ly2 l) (ly1 k) (ly2 k) 0 0)
          (combine (layers a) (layers b))).
Definition slabs3 (a b c : points) : result (list slab) :=
  if negb (Nat.eqb (length (layers a)) (length (layers b))) || negb (Nat.eqb (length (layers a)) (length (layers c)))
  then Err ValueError else
  Ok (map (fun p => let '(l, k, h) := p in mkSlab (lx1 l) (lx2 l) (ly1 l) (ly2 l) (ly1 k) (ly2 k) (ly1 h) (ly2 h))
          (combine (combine (layers a) (layers b)) (layers c))).
(** a, b = polyline_make_x_common(a, b);  a, b, c = ... *)
Definition common2 (a b : points) : result (points * points) :=
  r <- polyline_make_x_common [a; b] ;; match r with [a; b] => Ok (a, b) | _ => Err ValueError end.
Definition common3 (a b c : points) : result (points * points * points) :=
  r <- polyline_make_x_common [a; b; c] ;; match r with [a; b; c] => Ok (a, b, c) | _ => Err ValueError end.

(** integrals.py:66-124 *)
Definition pdim1sin_af_linear (im : impl) (m : list R) (a : points) : list (list R) :=
  dim1sin_af_linear im m (slabs1 a).
(** integrals.py:127-181 *)
Definition pdim1sin_abf_linear (im : impl) (m : list R) (a b : points) : result (list (list R)) :=
  ab <- common2 a b ;; s <- slabs2 (fst ab) (snd ab) ;; Ok (dim1sin_abf_linear im m s).
(** integrals.py:184-249 *)
Definition pdim1sin_D_aDf_linear (im : impl) (m : list R) (a : points) : list (list R) :=
  dim1sin_D_aDf_linear im m (slabs1 a).
(** integrals.py:252-308 *)
Definition pdim1sin_ab_linear (im : impl) (m : list R) (a b : points) : result (list R) :=
  ab <- common2 a b ;; s <- slabs2 (fst ab) (snd ab) ;; Ok (dim1sin_ab_linear im m s).
(** integrals.py:311-369 *)
Definition pdim1sin_abc_linear (im : impl) (m : list R) (a b c : points) : result (list R) :=
  abc <- common3 a b c ;; let '(a, b, c) := abc in s <- slabs3 a b c ;; Ok (dim1sin_abc_linear im m s).
(** integrals.py:372-461 *)
Definition pdim1sin_D_aDb_linear (im : impl) (m : list R) (a b : points) : result (list R) :=
  ab <- common2 a b ;; s <- slabs2 (fst ab) (snd ab) ;; dim1sin_D_aDb_linear im m s.
(** integrals.py:1043-1093 *)
Definition pdim1sin_a_linear_between (m : list R) (a : points) (z : list (R * R)) : result (list (list R)) :=
  dim1sin_a_linear_between m (slabs1 a) z.
(** integrals.py:6697-6764 *)
Definition pdim1sin_DD_abDDf_linear (im : impl) (m : list R) (a b : points) : result (list (list R)) :=
  ab <- common2 a b ;; s <- slabs2 (fst ab) (snd ab) ;; Ok (dim1sin_DD_abDDf_linear im m s).
