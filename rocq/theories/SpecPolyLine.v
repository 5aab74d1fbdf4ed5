(** * Vocabulary for the PolyLine properties (no model code beyond the data type of points) *)
From Coq Require Import Reals List Arith Sorted.
From Verif Require Import Base PiecewiseModel SpecPiecewise SpecPiecewiseApi PolyLineModel.
Import ListNotations.
Open Scope R_scope.

(** A line going left to right, at least two points, not everything at one abscissa. *)
Definition rightward (p : points) : Prop :=
  nondecr (px p) /\ (2 <= length p)%nat /\ at_ (px p) 0 < at_ (px p) (length p - 1).
(** The same line drawn left to right: as given, or reversed when it strictly starts leftward. *)
Definition drawn_rightward (p q : points) : Prop :=
  rightward q /\ (q = p \/ (q = rev p /\ at_ (px p) 1 < at_ (px p) 0)).
(** f is what interpolating the line gives (for either choice at steps). *)
Definition value_of (p : points) (f : R -> R) : Prop :=
  exists choose_max, forall t, interp_x_y (px p) (py p) [t] choose_max = Ok [f t].
(** "Close" as the code means it. *)
Definition distinct_enough (u w : R) : Prop := u = w \/ / 100000 + / 100000000 * Rabs u <= Rabs (w - u).
(** Abscissas of all the lines coincide or are not close. *)
Definition well_separated (ls : list points) : Prop :=
  forall u w, In u (concat (map px ls)) -> In w (concat (map px ls)) -> distinct_enough u w.
(** Steps are either none at all or noticeable. *)
Definition noticeable_steps (p : points) : Prop :=
  forall i j, (i < j < length p)%nat -> at_ (px p) i = at_ (px p) j ->
    at_ (py p) i = at_ (py p) j \/ / 100000 + / 100000000 * Rabs (at_ (py p) j) < Rabs (at_ (py p) i - at_ (py p) j).
(** G lists the abscissas of all lines, each once, in order. *)
Definition grid_of (ls : list points) (G : list R) : Prop :=
  StronglySorted Rlt G /\ forall x, In x G <-> In x (concat (map px ls)).

(** The points of p at abscissa x; the y with which the line arrives at x and the y with which
    it leaves x (both the interpolated value when no point is there). *)
Definition at_x (x : R) (p : points) : points := filter (fun q => Reqb (fst q) x) p.
Definition vleft (p : points) (x : R) : R :=
  match at_x x p with q :: _ => snd q | [] => match interp1 (px p) (py p) false x with Ok v => v | Err _ => 0 end end.
Definition vright (p : points) (x : R) : R :=
  match at_x x p with q :: t => snd (last t q) | [] => match interp1 (px p) (py p) false x with Ok v => v | Err _ => 0 end end.
(** A combination of two lines has no tiny steps. *)
Definition noticeable_steps2 (op : R -> R -> R) (p q : points) : Prop := forall x,
  op (vleft p x) (vleft q x) = op (vright p x) (vright q x) \/
  / 100000 + / 100000000 * Rabs (op (vright p x) (vright q x)) <
    Rabs (op (vleft p x) (vleft q x) - op (vright p x) (vright q x)).

(** Point k of p is within atol of the straight line through points a and b (distance from a
    point to a line), or a and b are the same point to within 1e-8. *)
Definition on_chord (atol : R) (p : points) (a b k : nat) : Prop :=
  let X i := fst (nth i p (0, 0)) in let Y i := snd (nth i p (0, 0)) in
  let dx := X b - X a in let dy := Y b - Y a in let d := sqrt (dx ^ 2 + dy ^ 2) in
  d <= / 100000000 \/ (0 < d /\ Rabs (dx * (Y a - Y k) - dy * (X a - X k)) / d <= atol).

(** a < b, both within the range of the abscissas of the lines. *)
Definition between (ls : list points) (a b : R) : Prop :=
  a < b /\ exists u w, In u (concat (map px ls)) /\ In w (concat (map px ls)) /\ u <= a /\ b <= w.

(** Operations that do not add or subtract a number. *)
Definition not_shift (o : op) : Prop := match o with AddC _ _ | SubC _ _ | RsubC _ _ => False | _ => True end.
(** Layer data given to PolyLine(x1,x2,y1,y2) is proper. *)
Definition proper_layers (o : op) : Prop :=
  match o with New4 l => contiguous l /\ thick l /\ l <> [] | _ => True end.
