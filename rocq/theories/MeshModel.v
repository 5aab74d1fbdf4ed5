(** * Model of the meshing helpers of /repo/geotecha/piecewise/piecewise_linear_1d.py
    (subdivide_x_y_into_segments, layer_coords, subdivide_into_elements), exact arithmetic. *)
From Coq Require Import Reals List ZArith Bool Arith.
From Verif Require Import Base.
Import ListNotations.
Open Scope R_scope.

(** np.arange(n) *)
Definition arange (n : nat) : list nat := seq 0 n.
(** piecewise_linear_1d.py:3006-3018, the exponents: [ppower[k:] = tail] overwrites the
    elements from position k on. *)
Definition assign_from (k : nat) (l tail : list nat) : list nat := firstn k l ++ tail.
Definition ppowers (n : nat) (symmetry : bool) : list nat :=
  if symmetry then
    if Nat.even n then assign_from (n / 2) (arange n) (rev (arange (n / 2)))
    else assign_from ((n + 1) / 2) (arange n) (rev (arange ((n - 1) / 2)))
  else arange n.

(** piecewise_linear_1d.py:2932-3020 subdivide_into_elements (n a natural number). *)
Definition subdivide_into_elements (n : nat) (h p : R) (symmetry : bool) : result (list R) :=
  if Rleb p 0 then Err ValueError
  else if Nat.leb n 1 then Err ValueError
  else if Reqb p 1 then
    (* np.diff(np.linspace(0, h, n+1)) *)
    Ok (diff (map (fun k => INR k * (h / INR n)) (seq 0 (n + 1))))
  else
    let x := if symmetry then
               if Nat.even n then h / (2 * (p ^ (n / 2) - 1) / (p - 1))
               else h / (2 * (p ^ ((n + 1) / 2) - 1) / (p - 1) - p ^ ((n - 1) / 2))
             else h / (p ^ n - 1) * (p - 1) in
    Ok (map (fun k => x * p ^ k) (ppowers n symmetry)).

(** np.linspace(a, b, n, endpoint=False): n points from a, step (b-a)/n. *)
Definition linspace_open (a b : R) (n : nat) : list R :=
  map (fun k => a + INR k * ((b - a) / INR n)) (seq 0 n).
(** np.linspace(a, b, n+1, endpoint=True): n+1 points from a to b. *)
Definition linspace_closed (a b : R) (n : nat) : list R :=
  map (fun k => a + INR k * ((b - a) / INR n)) (seq 0 (n + 1)).

(** max(int(abs((x2-x1)//dx)), min_segments): piecewise_linear_1d.py:2739; [//] is floor
    division. *)
Definition nseg (dx : R) (min_segments : nat) (x1 x2 : R) : nat :=
  Nat.max (Z.to_nat (Z.abs (Int_part ((x2 - x1) / dx)))) min_segments.

Definition Rmaxl (l : list R) (d : R) : R := fold_right Rmax d l.
Definition Rminl (l : list R) (d : R) : R := fold_right Rmin d l.

(** piecewise_linear_1d.py:2651-2772 subdivide_x_y_into_segments with logx=logy=False.
    dx=None is 2*(max x - min x) (lines 2735-2736).  dx = 0 (numpy: int(nan)) raises
    ValueError as soon as there is a segment. *)
Definition subdivide_x_y_into_segments (x y : list R) (dx : option R) (min_segments : nat)
  (just_before : option R) : result (list R * list R) :=
  if negb (Nat.eqb (length x) (length y)) then Err ValueError else
  x0 <- get x 0 ;;
  xe <- get_last x ;; ye <- get_last y ;;
  let d := match dx with Some d => d | None => 2 * (Rmaxl x x0 - Rminl x x0) end in
  if andb (Reqb d 0) (Nat.ltb 1 (length x)) then Err ValueError else
  let n p := nseg d min_segments (fst p) (snd p) in
  match just_before with
  | None =>
      Ok (concat (map (fun p => linspace_open (fst p) (snd p) (n p)) (pairs x)) ++ [xe],
          concat (map (fun q => linspace_open (fst (snd q)) (snd (snd q)) (n (fst q)))
                      (combine (pairs x) (pairs y))) ++ [ye])
  | Some j =>
      Ok (concat (map (fun p => linspace_closed (fst p) (fst p + (1 - j) * (snd p - fst p)) (n p)) (pairs x)) ++ [xe],
          concat (map (fun q => linspace_closed (fst (snd q)) (fst (snd q) + (1 - j) * (snd (snd q) - fst (snd q))) (n (fst q)))
                      (combine (pairs x) (pairs y))) ++ [ye])
  end.

(** piecewise_linear_1d.py:2878-2929 layer_coords.  Lines 2919-2920: z2 = cumsum(h), z1 = z2 - h.
    Simplification: line 2922's count max(height//dx, min_segs) is a Python float when h is a
    float array; np.linspace of older numpy releases truncates it, newer ones raise TypeError.
    Here it is a natural number. *)
Fixpoint cumsum_from (a : R) (l : list R) : list R :=
  match l with [] => [] | h :: t => (a + h) :: cumsum_from (a + h) t end.
Definition layer_coords (h : list R) (segs min_segs : nat) : result (list R) :=
  let z2 := cumsum_from 0 h in
  let dx := sumn h / INR segs in
  ze <- get_last z2 ;;
  Ok (concat (map (fun p => linspace_open (snd p - fst p) (snd p) (nseg dx min_segs 0 (fst p)))
                  (combine h z2)) ++ [ze]).
