(** * Model of the layered (x1,x2,y1,y2) integration functions of
    /repo/geotecha/piecewise/piecewise_linear_1d.py *)
From Coq Require Import List ZArith Bool.
From Verif Require Import Base PiecewiseModel.
Import ListNotations.

Section Layers.
Context {A : Type} `{Num A}.
Local Notation "a + b" := (nadd a b).
Local Notation "a - b" := (nsub a b).
Local Notation "a * b" := (nmul a b).
Local Notation "a / b" := (ndiv a b).
Local Notation "- a" := (nopp a).
Local Notation two := (nofZ 2).
Local Notation three := (nofZ 3).
Definition sq (a : A) : A := a * a.
Definition cube (a : A) : A := a * a * a.

(** piecewise_linear_1d.py:1534-1562 avg_x1_x2_y1_y2_between_xi_xj, one pair; the 0/0 or
    1/0 of xi = xj (numpy warning, nan/inf) is ZeroDivisionError here. *)
Definition avg_layers1 (l : list (layer A)) (vi vj : A) : result A :=
  i <- integrate_layers1 l vi vj ;;
  if neqb (vj - vi) n0 then Err ZeroDivisionError else Ok (i / (vj - vi)).

(** piecewise_linear_1d.py:1765-1766 slopes of one layer. *)
Definition slope (a : layer A) : A := (ly2 a - ly1 a) / (lx2 a - lx1 a).

(** piecewise_linear_1d.py:1767-1772 (segment containing both xi and xj). *)
Definition prod_both (a b : layer A) (xi xj : A) : A :=
  let a_slope := slope a in let b_slope := slope b in
  let x1a := lx1 a in let y1a := ly1 a in let y1b := ly1 b in
  (- a_slope * b_slope * cube xi / three + a_slope * b_slope * cube xj / three
   - (- a_slope * b_slope * x1a + a_slope * y1b / two + b_slope * y1a / two) * sq xi
   + (- a_slope * b_slope * x1a + a_slope * y1b / two + b_slope * y1a / two) * sq xj
   - (a_slope * b_slope * sq x1a - a_slope * x1a * y1b - b_slope * x1a * y1a + y1b * y1a) * xi
   + (a_slope * b_slope * sq x1a - a_slope * x1a * y1b - b_slope * x1a * y1a + y1b * y1a) * xj).
(** piecewise_linear_1d.py:1776-1781 (segment containing xi only). *)
Definition prod_xi_only (a b : layer A) (xi : A) : A :=
  let a_slope := slope a in let b_slope := slope b in
  let x1a := lx1 a in let x2a := lx2 a in let y1a := ly1 a in let y1b := ly1 b in
  (a_slope * b_slope * cube x2a / three - a_slope * b_slope * cube xi / three
   - (- a_slope * b_slope * x1a + a_slope * y1b / two + b_slope * y1a / two) * sq xi
   - (a_slope * b_slope * sq x1a - a_slope * x1a * y1b - b_slope * x1a * y1a + y1b * y1a) * xi
   + x2a * (a_slope * b_slope * sq x1a - a_slope * x1a * y1b - b_slope * x1a * y1a + y1b * y1a)
   + sq x2a * (- a_slope * b_slope * x1a + a_slope * y1b / two + b_slope * y1a / two)).
(** piecewise_linear_1d.py:1785-1791 (segment strictly between). *)
Definition prod_between (a b : layer A) : A :=
  let a_slope := slope a in let b_slope := slope b in
  let x1a := lx1 a in let x2a := lx2 a in let y1a := ly1 a in let y1b := ly1 b in
  (- a_slope * b_slope * cube x1a / three + a_slope * b_slope * cube x2a / three
   - x1a * (a_slope * b_slope * sq x1a - a_slope * x1a * y1b - b_slope * x1a * y1a + y1b * y1a)
   - sq x1a * (- a_slope * b_slope * x1a + a_slope * y1b / two + b_slope * y1a / two)
   + x2a * (a_slope * b_slope * sq x1a - a_slope * x1a * y1b - b_slope * x1a * y1a + y1b * y1a)
   + sq x2a * (- a_slope * b_slope * x1a + a_slope * y1b / two + b_slope * y1a / two)).
(** piecewise_linear_1d.py:1795-1800 (segment containing xj only). *)
Definition prod_xj_only (a b : layer A) (xj : A) : A :=
  let a_slope := slope a in let b_slope := slope b in
  let x1a := lx1 a in let y1a := ly1 a in let y1b := ly1 b in
  (- a_slope * b_slope * cube x1a / three + a_slope * b_slope * cube xj / three
   + (- a_slope * b_slope * x1a + a_slope * y1b / two + b_slope * y1a / two) * sq xj
   + (a_slope * b_slope * sq x1a - a_slope * x1a * y1b - b_slope * x1a * y1a + y1b * y1a) * xj
   - x1a * (a_slope * b_slope * sq x1a - a_slope * x1a * y1b - b_slope * x1a * y1a + y1b * y1a)
   - sq x1a * (- a_slope * b_slope * x1a + a_slope * y1b / two + b_slope * y1a / two)).

(** piecewise_linear_1d.py:1696-1802
    integrate_x1a_x2a_y1a_y2a_multiply_x1b_x2b_y1b_y2b_between, one pair (xi, xj).
    Simplification: arrays of different length are refused (numpy would raise ValueError
    from allclose, or broadcast a single layer). *)
Definition integrate_product1 (la lb : list (layer A)) (vi vj : A) : result A :=
  if negb (Nat.eqb (length la) (length lb)) then Err ValueError else
  if orb (negb (allclose rtol_default atol_default (map lx1 la) (map lx1 lb)))
         (negb (allclose rtol_default atol_default (map lx2 la) (map lx2 lb)))
  then Err ValueError else
  lastl <- get_last la ;;
  let xs := map lx1 la ++ [lx2 lastl] in
  sb <- segments_between1 xs vi vj ;;
  let '(both, ionly, jonly, between) := sb in
  a1 <- mapM (fun k => a <- get la k ;; b <- get lb k ;; Ok (prod_both a b vi vj)) both ;;
  a2 <- mapM (fun k => a <- get la k ;; b <- get lb k ;; Ok (prod_xi_only a b vi)) ionly ;;
  a3 <- mapM (fun k => a <- get la k ;; b <- get lb k ;; Ok (prod_between a b)) between ;;
  a4 <- mapM (fun k => a <- get la k ;; b <- get lb k ;; Ok (prod_xj_only a b vj)) jonly ;;
  Ok (sumn (a1 ++ a2 ++ a3 ++ a4)).
Definition integrate_product (la lb : list (layer A)) (xi xj : list A) : result (list A) :=
  mapM (fun p => integrate_product1 la lb (fst p) (snd p)) (combine xi xj).
Definition integrate_x1_x2_y1_y2_between_xi_xj (l : list (layer A)) (xi xj : list A) : result (list A) :=
  mapM (fun p => integrate_layers1 l (fst p) (snd p)) (combine xi xj).
Definition avg_x1_x2_y1_y2_between_xi_xj (l : list (layer A)) (xi xj : list A) : result (list A) :=
  mapM (fun p => avg_layers1 l (fst p) (snd p)) (combine xi xj).
Definition interp_x1_x2_y1_y2 (l : list (layer A)) (xi : list A) (choose_max : bool) : result (list A) :=
  mapM (interp_layers1 l choose_max) xi.

End Layers.
