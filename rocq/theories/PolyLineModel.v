(** * Model of PolyLine arithmetic, polyline_make_x_common and the *_super functions of
    /repo/geotecha/piecewise/piecewise_linear_1d.py (over R, exact arithmetic) *)
From Coq Require Import Reals List Arith Bool.
From Verif Require Import Base PiecewiseModel LayersModel.
Import ListNotations.
Open Scope R_scope.

(** A polyline's points: the rows of the (n, 2) array xy. *)
Definition points := list (R * R).
Definition px (p : points) : list R := map fst p.
Definition py (p : points) : list R := map snd p.

(** piecewise_linear_1d.py:2291-2292: every PolyLine has atol=1e-5, rtol=1e-8. *)
Definition pl_atol : R := / 100000.
Definition pl_rtol : R := / 100000000.
Definition tol (v : R) : R := pl_atol + pl_rtol * Rabs v.

(** piecewise_linear_1d.py:1148-1206 remove_superfluous_from_x_y (atol as argument).
    State of the loop: j and the list of removed indices.  [ikeep.remove(i-1)] always
    finds i-1, which is removed at most once. *)
Definition rs_far (atol : R) (x y : list R) (j i : nat) : bool :=
  let x0 := nth j x 0 in let y0 := nth j y 0 in
  let dx := nth i x 0 - x0 in let dy := nth i y 0 - y0 in
  let d := sqrt (dx ^ 2 + dy ^ 2) in
  existsb (fun k => Rltb atol (Rabs ((dx * (y0 - nth k y 0) - dy * (x0 - nth k x 0)) / d)))
          (seq (S j) (i - S j)).
Definition rs_close (x y : list R) (j i : nat) : bool :=
  let dx := nth i x 0 - nth j x 0 in let dy := nth i y 0 - nth j y 0 in
  isclose rtol_default atol_default (sqrt (dx ^ 2 + dy ^ 2)) 0.
Definition rs_step (atol : R) (x y : list R) (st : nat * list nat) (i : nat) : nat * list nat :=
  let '(j, removed) := st in
  if rs_close x y j i then (j, (i - 1)%nat :: removed)
  else if rs_far atol x y j i then ((i - 1)%nat, removed)
  else (j, (i - 1)%nat :: removed).
Definition rs_removed (atol : R) (x y : list R) : list nat :=
  snd (fold_left (rs_step atol x y) (seq 2 (length x - 2)) (0%nat, [])).
Definition remove_superfluous_from_x_y (atol : R) (p : points) : points :=
  if Nat.leb (length p) 2 then p else
  let removed := rs_removed atol (px p) (py p) in
  map (fun k => nth k p (0, 0)) (filter (fun k => negb (existsb (Nat.eqb k) removed)) (seq 0 (length p))).

(** Rows of the work array: 2501-2511 and 2605-2615 (x, y, line number; the fourth column,
    the original position, is only used for sorting). *)
Record row := mkRow { rx : R; ry : R; rline : nat }.
Definition rows_of (k : nat) (p : points) : list row := map (fun q => mkRow (fst q) (snd q) k) p.
Fixpoint all_rows (k : nat) (ls : list points) : list row :=
  match ls with [] => [] | p :: t => rows_of k p ++ all_rows (S k) t end.
(** np.lexsort((pos, line, x)): sort by x, then line, then position.  The rows are laid out
    by line and position, so this is the stable sort by x (stable insertion sort here). *)
Fixpoint insert_row (r : row) (l : list row) : list row :=
  match l with
  | [] => [r]
  | h :: t => if Rleb (rx r) (rx h) then r :: h :: t else h :: insert_row r t
  end.
Definition sort_rows (l : list row) : list row := fold_right insert_row [] l.

(** 2523 / 2630: rows whose x is close to the current x. *)
Definition near (x : R) (r : row) : bool := Rltb (Rabs (rx r - x)) (tol x).

(** 2525-2541 / 2633-2640: first and last y of line k at (close to) x, or interpolation.
    Simplification: the one-element array returned by interp_x_y is its element. *)
Definition visit_line (data : list row) (x : R) (kp : nat * points) : result (R * R) :=
  let '(k, p) := kp in
  match filter (fun r => near x r && Nat.eqb (rline r) k) data with
  | [] => y <- interp1 (px p) (py p) false x ;; Ok (y, y)
  | h :: t => Ok (ry h, ry (last t h))
  end.
(** [np.nonzero(ind)[0][-1]] *)
Definition last_near (data : list row) (x : R) : result nat :=
  get_last (where_ (map (near x) data)).
(** 2519-2549 / 2626-2645: the while loop; each visited x with the (first, last) y per line.
    At most len(data) iterations are needed when i increases; running out is RuntimeError. *)
Fixpoint visit_loop (fuel : nat) (data : list row) (lines : list (nat * points)) (i : nat)
  : result (list (R * list (R * R))) :=
  if Nat.leb (length data) i then Ok [] else
  match fuel with
  | O => Err RuntimeError
  | S fuel' =>
      r <- get data i ;;
      vs <- mapM (visit_line data (rx r)) lines ;;
      m <- last_near data (rx r) ;;
      rest <- visit_loop fuel' data lines (S m) ;;
      Ok ((rx r, vs) :: rest)
  end.
Definition visits (ls : list points) : result (list (R * list (R * R))) :=
  let data := sort_rows (all_rows 0 ls) in
  visit_loop (length data) data (combine (seq 0 (length ls)) ls) 0.

(** 2545-2547 / 2641-2643: append [x, y], and [x, y_] when they differ noticeably. *)
Definition emit (x y y_ : R) : points :=
  if Rltb (tol y_) (Rabs (y - y_)) then [(x, y); (x, y_)] else [(x, y)].

(** 2483-2488, 2595-2600: make the x values increase. *)
Definition orient (p : points) : result points :=
  b <- is_initially_increasing (px p) ;;
  Ok (if b : bool then p else rev p).
Definition monotone_x (p : points) : bool := non_increasing (px p) || non_decreasing (px p).

(** PolyLine.__init__ with one argument (2296-2306): at least two points, else TypeError. *)
Definition new_points (p : points) : result points :=
  if Nat.ltb (length p) 2 then Err TypeError else Ok p.

(** 2474-2551: PolyLine + PolyLine and PolyLine - PolyLine. *)
Definition add_points (op : R -> R -> R) (p q : points) : result points :=
  if negb (monotone_x p) || negb (monotone_x q) then Err TypeError else
  a <- orient p ;; b <- orient q ;;
  let a := remove_superfluous_from_x_y (/ 100000000) a in
  let b := remove_superfluous_from_x_y (/ 100000000) b in
  vs <- visits [a; b] ;;
  new_points (flat_map (fun v : R * list (R * R) =>
     match v with
     | (x, [(y1, y1_); (y2, y2_)]) => emit x (op y1 y2) (op y1_ y2_)
     | _ => []
     end) vs).

(** 2568-2646 polyline_make_x_common.  One argument: the line itself (a PolyLine, not a
    tuple; here a one-element list).  All lines share the class-wide atol and rtol. *)
Definition polyline_make_x_common (ls : list points) : result (list points) :=
  os <- mapM (fun p => if negb (monotone_x p) then Err TypeError else orient p) ls ;;
  match ls with
  | [p] => Ok [p]
  | _ =>
      vs <- visits os ;;
      mapM new_points
        (map (fun k => flat_map (fun v : R * list (R * R) =>
                let '(y, y_) := nth k (snd v) (0, 0) in emit (fst v) y y_) vs) (seq 0 (length ls)))
  end.

(** 1654-1692 pintegrate_x1a_x2a_y1a_y2a_multiply_x1b_x2b_y1b_y2b_between for points. *)
Definition pintegrate_product (a b : points) (xi xj : list R) : result (list R) :=
  ab <- polyline_make_x_common [a; b] ;;
  match ab with
  | [a; b] => integrate_product (convert_x_y_to_x1_x2_y1_y2 a) (convert_x_y_to_x1_x2_y1_y2 b) xi xj
  | _ => Err ValueError
  end.

(** Outer products: [ybi[:, np.newaxis] * yai[np.newaxis, :]]. *)
Definition outer (yb ya : list R) : list (list R) := map (fun b => map (fun a => b * a) ya) yb.

(** 2139-2197 and 1916-1969 with the PolyLine wrappers 2091-2137, 1869-1912: one load.
    [om] = None is the plain version. *)
Definition load_values (a : points) (om : option (R * R)) (xai : list R) (choose_max : bool) : result (list R) :=
  ya <- interp_x_y (px a) (py a) xai choose_max ;;
  match om with
  | None => Ok ya
  | Some (omega, phase) => Ok (map (fun p => fst p * cos (omega * snd p + phase)) (combine ya xai))
  end.
Definition single_load (a b c : points) (om : option (R * R)) (xai xbi xbj : list R) (choose_max : bool)
  : result (list (list R)) :=
  bc <- polyline_make_x_common [b; c] ;;
  match bc with
  | [b; c] =>
      ya <- load_values a om xai choose_max ;;
      yb <- integrate_product (convert_x_y_to_x1_x2_y1_y2 b) (convert_x_y_to_x1_x2_y1_y2 c) xbi xbj ;;
      Ok (outer yb ya)
  | _ => Err ValueError
  end.

(** Arguments that may be one PolyLine or a list of them; omega_phase may be None, a single
    (omega, phase) tuple, or a list whose items are None or tuples. *)
Inductive arg (T : Type) := One (t : T) | Many (l : list T).
Arguments One {T} t. Arguments Many {T} l.
Inductive omega_phase_arg := OmNone | OmTuple (omega phase : R) | OmList (l : list (option (R * R))).
Definition listify {T} (a : arg T) : list T := match a with One t => [t] | Many l => l end.
(** An item of the iterated omega_phase: a bare number cannot be unpacked (2085). *)
Inductive om_item := ItemNone | ItemPair (omega phase : R) | ItemNumber (r : R).
(** 2072-2075: the test on line 2074 asks whether *b* is a list, after b was made one, so a
    single tuple is never wrapped and is iterated as two numbers. *)
Definition om_items (n : nat) (om : omega_phase_arg) : list om_item :=
  match om with
  | OmNone => repeat ItemNone n
  | OmTuple o p => [ItemNumber o; ItemNumber p]
  | OmList l => map (fun i => match i with None => ItemNone | Some (o, p) => ItemPair o p end) l
  end.
Definition madd (m n : list (list R)) : list (list R) :=
  map (fun p => map (fun q => fst q + snd q) (combine (fst p) (snd p))) (combine m n).
Definition zeros (n m : nat) : list (list R) := repeat (repeat 0 m) n.
Fixpoint super_loop (ls : list (points * points * om_item)) (c : points) (xai xbi xbj : list R) (cm : bool)
  (out : list (list R)) : result (list (list R)) :=
  match ls with
  | [] => Ok out
  | (a, b, om) :: t =>
      (* 2083 comes before the unpacking of 2085 *)
      bc <- polyline_make_x_common [b; c] ;;
      om <- match om with ItemNone => Ok None | ItemPair o p => Ok (Some (o, p)) | ItemNumber _ => Err TypeError end ;;
      m <- single_load a b c om xai xbi xbj cm ;;
      super_loop t c xai xbi xbj cm (madd out m)
  end.
(** 2011-2089 pxa_ya_cos_multiply_integrate_..._between_super. *)
Definition cos_super (a b : arg points) (c : points) (xai xbi xbj : list R) (om : omega_phase_arg) (cm : bool)
  : result (list (list R)) :=
  let la := listify a in let lb := listify b in
  let lo := om_items (length la) om in
  if negb (Nat.eqb (length la) (length lb)) then Err ValueError else
  if negb (Nat.eqb (length la) (length lo)) then Err ValueError else
  super_loop (combine (combine la lb) lo) c xai xbi xbj cm (zeros (length xbi) (length xai)).
(** 1805-1867 pxa_ya_multiply_integrate_..._between_super. *)
Definition plain_super (a b : arg points) (c : points) (xai xbi xbj : list R) (cm : bool)
  : result (list (list R)) :=
  let la := listify a in let lb := listify b in
  if negb (Nat.eqb (length la) (length lb)) then Err ValueError else
  super_loop (combine (combine la lb) (repeat ItemNone (length la))) c xai xbi xbj cm
    (zeros (length xbi) (length xai)).

(** ** PolyLine objects *)
(** 2284-2290: the attributes.  [_x] and [_y] are always views of the columns of [_xy]
    (2320-2321, 2362, 2371), so only [_xy] (a reference to an (n,2) array) and the four
    layer arrays are kept.  The layer arrays are never written by PolyLine code. *)
Record obj := mkObj { o_xy : option nat; o_lay : option (list (layer R)) }.
Record heap := mkHeap { arrays : list points; objs : list obj }.

Fixpoint upd {T} (l : list T) (i : nat) (v : T) : list T :=
  match l, i with
  | [], _ => []
  | _ :: t, O => v :: t
  | h :: t, S i => h :: upd t i v
  end.
Definition alloc_array (h : heap) (p : points) : heap * nat :=
  (mkHeap (arrays h ++ [p]) (objs h), length (arrays h)).
Definition alloc_obj (h : heap) (o : obj) : heap * nat :=
  (mkHeap (arrays h) (objs h ++ [o]), length (objs h)).

(** A state-changing evaluation: the heap survives an exception. *)
Definition M (T : Type) := heap -> heap * result T.
Definition ret {T} (v : T) : M T := fun h => (h, Ok v).
Definition raise {T} (e : exn) : M T := fun h => (h, Err e).
Definition mbind {T U} (m : M T) (f : T -> M U) : M U :=
  fun h => let '(h, r) := m h in match r with Ok v => f v h | Err e => (h, Err e) end.
Declare Scope m_scope.
Delimit Scope m_scope with m.
Notation "x <~ c1 ;; c2" := (mbind c1 (fun x => c2)) (at level 61, c1 at next level, right associativity).
Definition lift {T} (r : result T) : M T := fun h => (h, r).
Definition get_obj (p : nat) : M obj := fun h => (h, get (objs h) p).
Definition get_array (r : nat) : M points := fun h => (h, get (arrays h) r).

(** 2339-2347 property xy (also used by x, 2356-2363, and y, 2365-2372). *)
Definition read_xy (p : nat) : M nat :=
  o <~ get_obj p ;;
  match o_xy o with
  | Some r => ret r
  | None =>
      match o_lay o with
      | None => raise TypeError (* cannot happen: one of the two is always set *)
      | Some l =>
          pts <~ lift (convert_x1_x2_y1_y2_to_x_y l) ;;
          fun h => let '(h, r) := alloc_array h pts in
                   (mkHeap (arrays h) (upd (objs h) p (mkObj (Some r) (o_lay o))), Ok r)
      end
  end.
Definition read_points (p : nat) : M points := r <~ read_xy p ;; get_array r.
(** 2349-2354 property x1_x2_y1_y2. *)
Definition read_lay (p : nat) : M (list (layer R)) :=
  o <~ get_obj p ;;
  match o_lay o with
  | Some l => ret l
  | None =>
      r <~ read_xy p ;;
      pts <~ get_array r ;;
      fun h => let l := convert_x_y_to_x1_x2_y1_y2 pts in
               (mkHeap (arrays h) (upd (objs h) p (mkObj (Some r) (Some l))), Ok l)
  end.

(** 2308-2322 PolyLine(x, y): fresh array; fewer than two points: TypeError. *)
Definition new2 (pts : points) : M nat :=
  if Nat.ltb (length pts) 2 then raise TypeError else
  fun h => let '(h, r) := alloc_array h pts in
           let '(h, p) := alloc_obj h (mkObj (Some r) None) in (h, Ok p).
(** 2296-2306 PolyLine(xy) of an existing float array: no copy (np.asarray), so the array is shared. *)
Definition new1_shared (r : nat) : M nat :=
  pts <~ get_array r ;;
  if Nat.ltb (length pts) 2 then raise TypeError else
  fun h => let '(h, p) := alloc_obj h (mkObj (Some r) None) in (h, Ok p).
(** 2324-2337 PolyLine(x1, x2, y1, y2). *)
Definition new4 (l : list (layer R)) : M nat :=
  fun h => let '(h, p) := alloc_obj h (mkObj None (Some l)) in (h, Ok p).

(** 2553-2555 p + c, p - c: [iop(self.y, other)] writes into the array of p itself. *)
Definition add_scalar (op : R -> R -> R) (p : nat) (c : R) : M nat :=
  r <~ read_xy p ;;
  pts <~ get_array r ;;
  let pts' := map (fun q => (fst q, op (snd q) c)) pts in
  _ <~ (fun h => (mkHeap (upd (arrays h) r pts') (objs h), Ok tt)) ;;
  new2 pts'.
(** 2413-2419 p * c, 2431-2436 p / c, 2445-2450 c / p: [f y] is a fresh array.
    Simplification: division by zero (numpy inf/nan with a warning) is R's total division. *)
Definition map_y (f : R -> R) (p : nat) : M nat :=
  pts <~ read_points p ;;
  new2 (map (fun q => (fst q, f (snd q))) pts).
(** 2410-2411 c - p = (p - c) * (-1). *)
Definition rsub_scalar (p : nat) (c : R) : M nat :=
  d <~ add_scalar Rminus p c ;; map_y (fun y => y * -1) d.
(** 2474-2551 p + q, p - q of two PolyLines. *)
Definition add_lines (op : R -> R -> R) (p q : nat) : M nat :=
  a <~ read_points p ;; b <~ read_points q ;;
  s <~ lift (add_points op a b) ;; new2 s.
(** 2460-2464 p == q. *)
Definition xy_close (a b : points) : bool :=
  forallb (fun u => isclose pl_rtol pl_atol (fst (fst u)) (fst (snd u)) &&
                    isclose pl_rtol pl_atol (snd (fst u)) (snd (snd u))) (combine a b).
Definition eq_points (a b : points) : bool :=
  if negb (Nat.eqb (length a) (length b)) then false else xy_close a b.
Definition eq_lines (p q : nat) : M bool :=
  a <~ read_points p ;; b <~ read_points q ;; ret (eq_points a b).

(** What a program can do with PolyLines. *)
Inductive op :=
| NewArray (a : points)            (* the caller makes a float array *)
| New1 (r : nat) | New2 (a : points) | New4 (l : list (layer R))
| ReadXY (p : nat) | ReadLayers (p : nat)
| AddC (p : nat) (c : R) | SubC (p : nat) (c : R) | RsubC (p : nat) (c : R)
| MulC (p : nat) (c : R) | DivC (p : nat) (c : R) | RdivC (p : nat) (c : R)
| AddP (p q : nat) | SubP (p q : nat) | EqP (p q : nat).
Inductive value := VRef (n : nat) | VLayers (l : list (layer R)) | VPoints (p : points) | VBool (b : bool).
Definition vmap {T} (f : T -> value) (m : M T) : M value := v <~ m ;; ret (f v).
Definition exec (o : op) : M value :=
  match o with
  | NewArray a => fun h => let '(h, r) := alloc_array h a in (h, Ok (VRef r))
  | New1 r => vmap VRef (new1_shared r)
  | New2 a => vmap VRef (new2 a)
  | New4 l => vmap VRef (new4 l)
  | ReadXY p => vmap VPoints (read_points p)
  | ReadLayers p => vmap VLayers (read_lay p)
  | AddC p c => vmap VRef (add_scalar Rplus p c)
  | SubC p c => vmap VRef (add_scalar Rminus p c)
  | RsubC p c => vmap VRef (rsub_scalar p c)
  | MulC p c => vmap VRef (map_y (fun y => y * c) p)
  | DivC p c => vmap VRef (map_y (fun y => y / c) p)
  | RdivC p c => vmap VRef (map_y (fun y => c / y) p)
  | AddP p q => vmap VRef (add_lines Rplus p q)
  | SubP p q => vmap VRef (add_lines Rminus p q)
  | EqP p q => vmap VBool (eq_lines p q)
  end.
(** A program: operations one after the other, exceptions caught. *)
Definition run (ops : list op) (h : heap) : heap := fold_left (fun h o => fst (exec o h)) ops h.
Definition empty_heap : heap := mkHeap [] [].
