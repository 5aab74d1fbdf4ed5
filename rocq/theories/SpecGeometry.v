(** * Vocabulary for the geometry properties *)
From Coq Require Import Reals List Permutation.
From Coquelicot Require Import Coquelicot.
From Verif Require Import GeometryModel.
Import ListNotations.
Open Scope R_scope.

Definition vadd (a b : V3) : V3 := mkV (vx a + vx b) (vy a + vy b) (vz a + vz b).
Definition vsub (a b : V3) : V3 := mkV (vx a - vx b) (vy a - vy b) (vz a - vz b).
Definition vscal (k : R) (a : V3) : V3 := mkV (k * vx a) (k * vy a) (k * vz a).
Definition dot (a b : V3) : R := vx a * vx b + vy a * vy b + vz a * vz b.
Definition cross (a b : V3) : V3 :=
  mkV (vy a * vz b - vz a * vy b) (vz a * vx b - vx a * vz b) (vx a * vy b - vy a * vx b).
Definition norm (a : V3) : R := sqrt (dot a a).
Definition vzero : V3 := mkV 0 0 0.
Definition det3 (a b c : V3) : R := dot a (cross b c).

(** The directed edges of a closed polygon: each vertex with the next, the last with the first. *)
Fixpoint chain (p : V3) (l : list V3) (last : V3) : list (V3 * V3) :=
  match l with [] => [(p, last)] | q :: r => (p, q) :: chain q r last end.
Definition edges (pts : list V3) : list (V3 * V3) :=
  match pts with [] => [] | p :: r => chain p r p end.
Definition rsum {A} (f : A -> R) (l : list A) : R := fold_right Rplus 0 (map f l).

(** The area vector: half the sum of the cross products of consecutive vertices.  For a plane polygon it
    is normal to the plane (on the side from which the vertices run anti-clockwise), its length is the area. *)
Definition area_vector (pts : list V3) : V3 :=
  mkV (rsum (fun e => vx (cross (fst e) (snd e)) / 2) (edges pts))
      (rsum (fun e => vy (cross (fst e) (snd e)) / 2) (edges pts))
      (rsum (fun e => vz (cross (fst e) (snd e)) / 2) (edges pts)).

(** All vertices lie in the plane through a with unit normal n. *)
Definition in_plane (n a : V3) (pts : list V3) : Prop :=
  norm n = 1 /\ forall p, In p pts -> dot n (vsub p a) = 0.

(** The integral of f over the triangle a, p, q, with respect to s and t in
    a + s (p - a) + t (q - a), s, t >= 0, s + t <= 1 (half of the average of f). *)
Definition point_of (a p q : V3) (s t : R) : V3 := vadd a (vadd (vscal s (vsub p a)) (vscal t (vsub q a))).
Definition over_triangle (f : V3 -> R) (a p q : V3) (I : R) : Prop :=
  exists g : R -> R, (forall s, 0 <= s <= 1 -> is_RInt (fun t => f (point_of a p q s t)) 0 (1 - s) (g s)) /\
    is_RInt g 0 1 I.
(** I is the surface integral of f over the polygon in the plane with unit normal n: the sum over the
    edges p -> q of the integrals over the triangles a, p, q, counted positively if they turn
    anti-clockwise seen from n.  (a: any point of the plane.) *)
Inductive over_fan (n a : V3) (f : V3 -> R) : list (V3 * V3) -> R -> Prop :=
| fan_nil : over_fan n a f [] 0
| fan_cons : forall p q l T I, over_triangle f a p q T -> over_fan n a f l I ->
    over_fan n a f ((p, q) :: l) (dot n (cross (vsub p a) (vsub q a)) * T + I).
Definition over_polygon (n : V3) (f : V3 -> R) (pts : list V3) (I : R) : Prop :=
  forall a, dot n (vsub a (nth 0 pts vzero)) = 0 -> over_fan n a f (edges pts) I.

(** Component k of a vector (0, 1, 2 = x, y, z). *)
Definition comp (k : nat) (v : V3) : R := match k with 0%nat => vx v | 1%nat => vy v | _ => vz v end.
(** k is the direction of the (first) largest component. *)
Definition largest (v : V3) (k : nat) : Prop :=
  (k < 3)%nat /\ (forall j, (j < 3)%nat -> comp j v <= comp k v) /\ (forall j, (j < k)%nat -> comp j v < comp k v).

(** A closed polyhedron: every directed edge occurs as often as its reverse. *)
Definition closed_surface (faces : list (list V3)) : Prop :=
  let E := flat_map edges faces in Permutation E (map (fun e => (snd e, fst e)) E).
(** The face is plane and has area. *)
Definition proper_face (pts : list V3) : Prop := (exists n a, in_plane n a pts) /\ area_vector pts <> vzero.
(** Signed volume of the tetrahedron o, a, p, q. *)
Definition tetra (o a p q : V3) : R := det3 (vsub a o) (vsub p o) (vsub q o) / 6.
(** The pyramid with apex o over a face. *)
Definition pyramid (o : V3) (pts : list V3) : R :=
  rsum (fun e => tetra o (nth 0 pts vzero) (fst e) (snd e)) (edges pts).

(** n is the unit normal and A the area of the plane polygon. *)
Definition normal_area (pts : list V3) (n : V3) (A : R) : Prop :=
  norm n = 1 /\ 0 < A /\ area_vector pts = vscal A n /\ (forall p q, In p pts -> In q pts -> dot n (vsub p q) = 0).
(** The signed shoelace area of a polygon in the x-y plane. *)
Definition shoelace (pts : list V3) : R :=
  rsum (fun e => (vx (fst e) * vy (snd e) - vx (snd e) * vy (fst e)) / 2) (edges pts).
(** A coordinate, and "constant on the polygon with normal n". *)
Definition a_coordinate (X : V3 -> R) : Prop := X = vx \/ X = vy \/ X = vz.
Definition others_zero (X : V3 -> R) (n : V3) : Prop :=
  (X = vx -> vy n = 0 /\ vz n = 0) /\ (X = vy -> vx n = 0 /\ vz n = 0) /\ (X = vz -> vx n = 0 /\ vy n = 0).
