(** * Vocabulary that mentions the modelled functions' data types *)
From Coq Require Import Reals List Arith.
From Verif Require Import Base PiecewiseModel SpecPiecewise.
Import ListNotations.
Open Scope R_scope.

(** Layers follow each other without gap / have positive thickness. *)
Definition contiguous (l : list (layer R)) : Prop :=
  forall i d, (S i < length l)%nat -> lx2 (nth i l d) = lx1 (nth (S i) l d).
Definition thick (l : list (layer R)) : Prop := forall a, In a l -> lx1 a <> lx2 a.

(** "f is the interpolant": f agrees with interp_x_y at every point of [a,b]. *)
Definition interpolant (x y : list R) (cm : bool) (a b : R) (f : R -> R) : Prop :=
  forall t, a <= t <= b -> interp_x_y x y [t] cm = Ok [f t].

(** Layers each strictly below the previous: x1 < x2 in every layer. *)
Definition downward (l : list (layer R)) : Prop := forall a, In a l -> lx1 a < lx2 a.
(** The straight line of one layer. *)
Definition layer_line (a : layer R) (t : R) : R :=
  ly1 a + (t - lx1 a) * (ly2 a - ly1 a) / (lx2 a - lx1 a).
(** f is the function described by the layers (its values at layer boundaries, where
    the description may be double-valued, do not matter). *)
Definition described_by (l : list (layer R)) (f : R -> R) : Prop :=
  forall a t, In a l -> lx1 a < t < lx2 a -> f t = layer_line a t.
(** The interval covered by the layers. *)
Definition covers (l : list (layer R)) (a b : R) : Prop :=
  exists f s, hd_error l = Some f /\ hd_error (rev l) = Some s /\ lx1 f <= a /\ b <= lx2 s.
(** Two layered functions share their breakpoints. *)
Definition same_x (la lb : list (layer R)) : Prop :=
  map lx1 la = map lx1 lb /\ map lx2 la = map lx2 lb.
