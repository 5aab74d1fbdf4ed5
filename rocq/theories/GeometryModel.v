(** * Model of /repo/geotecha/mathematics/geometry.py, over the reals.

    A point is a triple; a 2-d point is the triple with z = 0 (xyz_from_pts fills z with zeros, lines
    52, 70).  x[:-1], x[1:] of a closed polygon are the first and second components of the
    consecutive pairs of vertices.  nan and inf are not values of the model: a division by zero is
    [Err ZeroDivisionError] (numpy: a warning and nan or inf). *)
From Coq Require Import Reals List Bool.
From Verif Require Import Base.
Import ListNotations.
Open Scope R_scope.

Record V3 := mkV { vx : R; vy : R; vz : R }.

(** xyz_from_pts(pts, True) :49-61: the first vertex is repeated at the end; an empty array raises. *)
Definition closed (pts : list V3) : result (list V3) :=
  match pts with [] => Err IndexError | p :: _ => Ok (pts ++ [p]) end.
(** np.sum of an expression in x[:-1], x[1:], ... *)
Definition esum (f : V3 -> V3 -> R) (cl : list V3) : R :=
  fold_right Rplus 0 (map (fun e => f (fst e) (snd e)) (pairs cl)).
Definition vsum (f : V3 -> R) (l : list V3) : R := fold_right Rplus 0 (map f l).
Definition fdiv (a b : R) : result R := if Reqb b 0 then Err ZeroDivisionError else Ok (a / b).

(** eqn_of_plane :75-108 *)
Definition eqn_of_plane (pts : list V3) : result (V3 * R) :=
  cl <- closed pts ;;
  let a := esum (fun p q => (vy p - vy q) * (vz p + vz q)) cl in
  let b := esum (fun p q => (vz p - vz q) * (vx p + vx q)) cl in
  let c := esum (fun p q => (vx p - vx q) * (vy p + vy q)) cl in
  let norm := sqrt (a * a + b * b + c * c) in
  n1 <- fdiv a norm ;; n2 <- fdiv b norm ;; n3 <- fdiv c norm ;;
  let len := INR (length pts) in
  let px := vsum vx pts / len in let py := vsum vy pts / len in let pz := vsum vz pts / len in
  let d := - (px * n1 + py * n2 + pz * n3) in
  Ok (mkV n1 n2 n3, d).

(** np.argmax of three entries: the first largest *)
Definition argmax3 (n : V3) : nat :=
  if Rltb (vx n) (vy n) then (if Rltb (vy n) (vz n) then 2 else 1)%nat
  else (if Rltb (vx n) (vz n) then 2 else 0)%nat.

(** if1dxdy :244-248 *)
Definition if1dxdy (X Y : V3 -> R) (cl : list V3) : R :=
  esum (fun p q => (X p / 2 + X q / 2) * (- Y p + Y q)) cl.
(** polygon_area :220-250; j is [0;1;2] without i *)
Definition polygon_area (pts : list V3) : result R :=
  cl <- closed pts ;;
  nd <- eqn_of_plane pts ;;
  let n := fst nd in
  match argmax3 n with
  | 0%nat => fdiv (if1dxdy vy vz cl) (vx n)
  | 1%nat => fdiv (if1dxdy vx vz cl) (vy n)
  | _ => fdiv (if1dxdy vx vy cl) (vz n)
  end.

(** ifxdxdy :268-271, ifydxdy :272-276 *)
Definition ifxdxdy (X Y : V3 -> R) (cl : list V3) : R :=
  esum (fun p q => (- Y p + Y q) * (X p ^ 2 / 6 + X p * X q / 6 + X q ^ 2 / 6)) cl.
Definition ifydxdy (X Y : V3 -> R) (cl : list V3) : R :=
  esum (fun p q => (- Y p + Y q) * (X p * Y p / 3 + X p * Y q / 6 + X q * Y p / 6 + X q * Y q / 3)) cl.

(** The chain of projections of polygon_centroid :289-312 and polygon_2nd_moment_of_area :360-383:
    [u] is the function used for the first of the two projected coordinates, [v] for the second;
    the third argument is the value subtracted (the centroid) *)
Definition by_projection (u v : (V3 -> R) -> (V3 -> R) -> R -> R) (n : V3) (a : R) (c : V3) : result V3 :=
  (* :292-298 project on the yz plane *)
  y0 <- (if Reqb (vx n) 0 then Ok None else rmap Some (fdiv (u vy vz (vy c)) (vx n * a))) ;;
  z0 <- (if Reqb (vx n) 0 then Ok None else rmap Some (fdiv (v vy vz (vz c)) (vx n * a))) ;;
  (* :299-305 project on the zx plane *)
  z1 <- (match z0 with
         | Some r => Ok (Some r)
         | None => if Reqb (vy n) 0 then Ok None else rmap Some (fdiv (u vz vx (vz c)) (vy n * a)) end) ;;
  x1 <- (if Reqb (vy n) 0 then Ok None else rmap Some (fdiv (v vz vx (vx c)) (vy n * a))) ;;
  (* :306-312 project on the xy plane *)
  x2 <- (match x1 with
         | Some r => Ok (Some r)
         | None => if Reqb (vz n) 0 then Ok None else rmap Some (fdiv (u vx vy (vx c)) (vz n * a)) end) ;;
  y2 <- (match y0 with
         | Some r => Ok (Some r)
         | None => if Reqb (vz n) 0 then Ok None else rmap Some (fdiv (v vx vy (vy c)) (vz n * a)) end) ;;
  let out o := match o with Some r => r | None => 0 end in
  Ok (mkV (out x2) (out y2) (out z1)).

(** polygon_centroid :253-314 *)
Definition polygon_centroid (pts : list V3) : result V3 :=
  cl <- closed pts ;;
  nd <- eqn_of_plane pts ;;
  a <- polygon_area pts ;;
  by_projection (fun X Y _ => ifxdxdy X Y cl) (fun X Y _ => ifydxdy X Y cl) (fst nd) a (mkV 0 0 0).

(** ifx2dxdy :332-337, ify2dxdy :339-346 *)
Definition ifx2dxdy (X Y : V3 -> R) (xc : R) (cl : list V3) : R :=
  esum (fun p q => (- Y p + Y q) * (X p ^ 3 / 12 + X p ^ 2 * X q / 12 - X p ^ 2 * xc / 3 + X p * X q ^ 2 / 12
     - X p * X q * xc / 3 + X p * xc ^ 2 / 2 + X q ^ 3 / 12 - X q ^ 2 * xc / 3 + X q * xc ^ 2 / 2)) cl.
Definition ify2dxdy (X Y : V3 -> R) (yc : R) (cl : list V3) : R :=
  esum (fun p q => (- Y p + Y q) * (X p * Y p ^ 2 / 4 + X p * Y p * Y q / 6 - 2 * X p * Y p * yc / 3
     + X p * Y q ^ 2 / 12 - X p * Y q * yc / 3 + X p * yc ^ 2 / 2 + X q * Y p ^ 2 / 12
     + X q * Y p * Y q / 6 - X q * Y p * yc / 3 + X q * Y q ^ 2 / 4 - 2 * X q * Y q * yc / 3
     + X q * yc ^ 2 / 2)) cl.
(** polygon_2nd_moment_of_area :317-385 *)
Definition polygon_2nd_moment_of_area (pts : list V3) : result V3 :=
  cl <- closed pts ;;
  nd <- eqn_of_plane pts ;;
  a <- polygon_area pts ;;
  c <- polygon_centroid pts ;;
  by_projection (fun X Y xc => ifx2dxdy X Y xc cl) (fun X Y yc => ify2dxdy X Y yc cl) (fst nd) a c.

(** One face of polyhedron_volume :411-422 *)
Definition face_volume (pts : list V3) : result R :=
  cl <- closed pts ;;
  nd <- eqn_of_plane pts ;;
  let n1 := vx (fst nd) in let n2 := vy (fst nd) in let n3 := vz (fst nd) in let d := snd nd in
  if Reqb n1 0 then Ok 0 else
  Ok (esum (fun p q =>
    (- vz p + vz q) * ((- 2 * d * vy p - n2 * vy p ^ 2 - 2 * n3 * vy p * vz p) / (2 * n1)
      + (d * vy p - d * vy q + n2 * vy p ^ 2 - n2 * vy p * vy q + 2 * n3 * vy p * vz p - n3 * vy p * vz q
         - n3 * vy q * vz p) / (2 * n1)
      + (- n2 * vy p ^ 2 + 2 * n2 * vy p * vy q - n2 * vy q ^ 2 - 2 * n3 * vy p * vz p + 2 * n3 * vy p * vz q
         + 2 * n3 * vy q * vz p - 2 * n3 * vy q * vz q) / (6 * n1))) cl).
(** polyhedron_volume :387-426 *)
Fixpoint polyhedron_volume (faces : list (list V3)) : result R :=
  match faces with
  | [] => Ok 0
  | f :: r => v <- face_volume f ;; w <- polyhedron_volume r ;; Ok (v + w)
  end.

(** make_hexahedron :428-466 *)
Definition face_nodes : list (list nat) :=
  [[0;3;2;1];[2;3;7;6];[7;4;5;6];[1;5;4;0];[5;1;2;6];[4;7;3;0]]%nat.
Definition make_hexahedron (coords : list V3) : result (list (list V3)) :=
  mapM (mapM (get coords)) face_nodes.
