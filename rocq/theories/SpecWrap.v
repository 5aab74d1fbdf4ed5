(** * Vocabulary for properties of depth profiles given as PolyLines *)
From Coq Require Import Reals List Arith.
From Verif Require Import Base PiecewiseModel SpecPiecewise SpecPiecewiseApi PolyLineModel SpecPolyLine.
Import ListNotations.
Open Scope R_scope.

(** p is a profile drawn left to right from z0 to z1, its steps noticeable, and f is the function it
    describes (the values of f at the break points themselves do not matter). *)
Definition depth_profile (z0 z1 : R) (p : points) (f : R -> R) : Prop :=
  rightward p /\ noticeable_steps p /\
  at_ (px p) 0 = z0 /\ at_ (px p) (length p - 1) = z1 /\
  described_by (convert_x_y_to_x1_x2_y1_y2 p) f.
