(** * Model of geotecha/piecewise/piecewise_linear_1d.py (functions on x, y arrays).

    Generic in the number type.  Query arrays (xi, xj) are lists; each function
    that numpy vectorises over xi is given per point and then mapped.
    Simplification common to the file: arrays are 1-d and contain no nan/inf
    (over R and Q they cannot); [np.asarray]/[np.atleast_1d] are identities. *)
From Coq Require Import List ZArith Bool Arith.
From Verif Require Import Base.
Import ListNotations.

Section Piecewise.
Context {A : Type} `{Num A}.

(** piecewise_linear_1d.py:31-50 has_steps *)
Definition has_steps (x : list A) : bool :=
  existsb (fun d => neqb d n0) (diff x).

(** piecewise_linear_1d.py:53-76 is_initially_increasing.
    [np.where(np.diff(x) != 0)[0][0] > 0] compares an *index* with 0. *)
Definition is_initially_increasing (x : list A) : result bool :=
  x1 <- get x 1 ;;
  x0 <- get x 0 ;;
  if negb (neqb x1 x0) then Ok (nltb x0 x1)
  else
    w0 <- get (where_ (map (fun d => negb (neqb d n0)) (diff x))) 0 ;;
    Ok (Nat.ltb 0 w0).

(** piecewise_linear_1d.py:80-101, 104-125, 128-149, 152-173 *)
Definition strictly_increasing (x : list A) : bool :=
  forallb (fun d => nltb n0 d) (diff x).
Definition strictly_decreasing (x : list A) : bool :=
  forallb (fun d => nltb d n0) (diff x).
Definition non_increasing (x : list A) : bool :=
  forallb (fun d => nleb d n0) (diff x).
Definition non_decreasing (x : list A) : bool :=
  forallb (fun d => nleb n0 d) (diff x).

(** piecewise_linear_1d.py:176-224 non_increasing_and_non_decreasing_parts.
    The list of parts is kept reversed, and the current (last) part [cur] is kept
    apart from the finished ones [done]; [cur] is in order. *)
Fixpoint parts_loop (incl : bool) (i : nat) (signs : list Z) (cs : Z)
         (done : list (list nat)) (cur : list nat) : list (list nat) * list nat :=
  match signs with
  | [] => (done, cur)
  | sgn :: t =>
      if andb (negb (Z.eqb sgn 0)) (negb (Z.eqb sgn cs))
      then parts_loop incl (S i) t sgn
                      ((if incl then cur ++ [i] else cur) :: done) [i]
      else parts_loop incl (S i) t cs done (cur ++ [i])
  end.

Definition non_increasing_and_non_decreasing_parts (x : list A) (incl : bool)
  : result (list (list nat)) :=
  let signs := map nsign (diff x) in
  i0 <- get (where_ (map (fun s => negb (Z.eqb s 0)) signs)) 0 ;;
  cs <- get signs i0 ;;
  let '(done, cur) := parts_loop incl 1 (tl signs) cs [] [0%nat] in
  l <- get_last cur ;;
  let cur' := if incl then cur ++ [S l] else cur in
  Ok (rev (cur' :: done)).

(** [x[idx] = x[idx] + dx] for increasing distinct positions idx. *)
Fixpoint add_at (i : nat) (idx : list nat) (dx : list A) (x : list A) : list A :=
  match x with
  | [] => []
  | v :: t =>
      match idx, dx with
      | k :: ks, d :: ds =>
          if Nat.eqb i k then nadd v d :: add_at (S i) ks ds t
          else v :: add_at (S i) idx dx t
      | _, _ => v :: t
      end
  end.

(** piecewise_linear_1d.py:227-289 force_strictly_increasing.
    Result (x, y).  [eps] is the keyword argument (default 1e-15).
    The in-place assignment to x (which also changes the caller's array when the
    argument is a float ndarray) is a returned value here; see
    [force_strictly_increasing_caller_x] for its effect on the argument. *)
Definition fsi_steps (x : list A) : list nat :=
  where_ (map (fun d => neqb d n0) (diff x)).
Definition fsi_shift (keep_end_points : bool) (eps : A) (x : list A) : list A :=
  let steps := fsi_steps x in
  let n := length steps in
  if keep_end_points then
    add_at 0 steps
      (map (fun k => nmul (nofZ (Z.of_nat (n - k))) (nmul (nopp n1) eps)) (seq 0 n)) x
  else
    add_at 0 (map S steps)
      (map (fun k => nmul (nofZ (Z.of_nat (S k))) (nmul n1 eps)) (seq 0 n)) x.
Definition force_strictly_increasing (x y : list A) (keep_end_points : bool) (eps : A)
  : result (list A * list A) :=
  if strictly_increasing x then Ok (x, y)
  else if strictly_decreasing x then Ok (rev x, rev y)
  else
    let '(x, y) := if non_increasing x then (rev x, rev y) else (x, y) in
    if negb (non_decreasing x) then Err ValueError
    else Ok (fsi_shift keep_end_points eps x, y).

(** What the caller's own float array holds afterwards: lines 260 ([np.asarray]
    of an ndarray does not copy), 270 (reversal is a view) and 288 (in-place). *)
Definition force_strictly_increasing_caller_x (x : list A) (keep_end_points : bool) (eps : A)
  : list A :=
  if strictly_increasing x then x
  else if strictly_decreasing x then x
  else
    if non_increasing x then
      (if negb (non_decreasing (rev x)) then x
       else rev (fsi_shift keep_end_points eps (rev x)))
    else (if negb (non_decreasing x) then x else fsi_shift keep_end_points eps x).

(** piecewise_linear_1d.py:292-317 force_non_decreasing *)
Definition force_non_decreasing (x y : list A) : result (list A * list A) :=
  if non_decreasing x then Ok (x, y)
  else if negb (non_increasing x) then Err ValueError
  else Ok (rev x, rev y).

Definition masks2 (f : A -> A -> bool) (x y : list A) : list bool :=
  map (fun p => f (fst p) (snd p)) (combine (diff x) (diff y)).

(** [np.delete(a, idx)]: removes the elements of [a] at *positions* idx;
    a position beyond the end raises IndexError. *)
Definition np_delete (a : list nat) (idx : list nat) : result (list nat) :=
  if forallb (fun k => Nat.ltb k (length a)) idx then
    Ok (map snd (filter (fun p => negb (existsb (Nat.eqb (fst p)) idx))
                        (combine (seq 0 (length a)) a)))
  else Err IndexError.

(** piecewise_linear_1d.py:320-344 start_index_of_ramps.
    Simplification: x and y of different lengths (numpy broadcasting error) are
    a ValueError here and below. *)
Definition start_index_of_ramps (x y : list A) : result (list nat) :=
  if negb (Nat.eqb (length x) (length y)) then Err ValueError else
  Ok (where_ (masks2 (fun dx dy => negb (neqb dx n0) && negb (neqb dy n0)) x y)).

(** piecewise_linear_1d.py:347-372 start_index_of_constants *)
Definition start_index_of_constants (x y : list A) : result (list nat) :=
  if negb (Nat.eqb (length x) (length y)) then Err ValueError else
  np_delete (where_ (map (fun d => neqb d n0) (diff y)))
            (where_ (masks2 (fun dx dy => neqb dx n0 && neqb dy n0) x y)).

(** piecewise_linear_1d.py:375-400 start_index_of_steps *)
Definition start_index_of_steps (x y : list A) : result (list nat) :=
  if negb (Nat.eqb (length x) (length y)) then Err ValueError else
  np_delete (where_ (map (fun d => neqb d n0) (diff x)))
            (where_ (masks2 (fun dx dy => neqb dx n0 && neqb dy n0) x y)).

(** piecewise_linear_1d.py:535-562 ramps_constants_steps *)
Definition ramps_constants_steps (x y : list A)
  : result (list nat * list nat * list nat) :=
  r <- start_index_of_ramps x y ;;
  c <- start_index_of_constants x y ;;
  s <- start_index_of_steps x y ;;
  Ok (r, c, s).

(** piecewise_linear_1d.py:463-464: default subset np.arange(len(x)-1). *)
Definition all_segs (x : list A) : list nat := seq 0 (length x - 1).

(** piecewise_linear_1d.py:472: the mask for one segment start s and point v. *)
Definition seg_mask (x : list A) (v : A) (s : nat) : result bool :=
  a <- get x s ;;
  b <- get x (S s) ;;
  Ok (nleb (nabs (nsub v a)) (nabs (nsub a b)) &&
      nleb (nabs (nsub v b)) (nabs (nsub a b)) &&
      negb (neqb a b)).

(** piecewise_linear_1d.py:403-485 segment_containing_xi, for one point:
    [] or a one-element list. *)
Definition segment_containing1 (x : list A) (subset : list nat) (choose_max : bool) (v : A)
  : result (list nat) :=
  c <- filterM (seg_mask x v) subset ;;
  Ok (match c with
      | [] => []
      | h :: _ => if choose_max then [last c h] else [h]
      end).
Definition segment_containing_xi (x xi : list A) (subset : list nat) (choose_max : bool)
  : result (list (list nat)) :=
  mapM (segment_containing1 x subset choose_max) xi.

(** piecewise_linear_1d.py:488-532 segments_less_than_xi, one point and all. *)
Definition segments_less_than1 (x : list A) (subset : list nat) (or_equal_to : bool) (v : A)
  : result (list nat) :=
  filterM (fun s => b <- get x (S s) ;; Ok (if or_equal_to then nleb b v else nltb b v)) subset.
Definition segments_less_than_xi (x xi : list A) (subset : list nat) (or_equal_to : bool)
  : result (list (list nat)) :=
  mapM (segments_less_than1 x subset or_equal_to) xi.

(** piecewise_linear_1d.py:565-647 segment_containing_also_segments_less_than_xi, one point:
    (ramps_less, constants_less, steps_less, ramps_containing, constants_containing). *)
Definition containing_also_less1 (x y : list A) (steps_or_equal_to ramp_const_or_equal_to choose_max : bool) (v : A)
  : result (list nat * list nat * list nat * list nat * list nat) :=
  rcs <- ramps_constants_steps x y ;;
  let '(ramps, constants, steps) := rcs in
  rl <- segments_less_than1 x ramps ramp_const_or_equal_to v ;;
  cl <- segments_less_than1 x constants ramp_const_or_equal_to v ;;
  sl <- segments_less_than1 x steps steps_or_equal_to v ;;
  ct <- segment_containing1 x (all_segs x) choose_max v ;;
  match ct with
  | [] => Ok (rl, cl, sl, [], [])
  | s :: _ => if existsb (Nat.eqb s) ramps then Ok (rl, cl, sl, [s], [])
              else Ok (rl, cl, sl, [], [s])
  end.

(** piecewise_linear_1d.py:650-705 and 708-769 segments_between_xi_and_xj for one pair:
    (both, xi only, xj only, between).  [np.r_[a:b]] is empty when b <= a. *)
Definition segments_between1 (x : list A) (vi vj : A)
  : result (list nat * list nat * list nat * list nat) :=
  ix1 <- segment_containing1 x (all_segs x) true vi ;;
  ix2 <- segment_containing1 x (all_segs x) false vj ;;
  match ix1, ix2 with
  | i1 :: _, i2 :: _ =>
      if Nat.eqb i1 i2 then Ok ([i1], [], [], [])
      else Ok ([], [i1], [i2], seq (S i1) (i2 - S i1))
  | _, _ => Ok ([], [], [], [])
  end.
Definition segments_between_xi_and_xj (x : list A) (xi xj : list A)
  : result (list (list nat * list nat * list nat * list nat)) :=
  mapM (fun p => segments_between1 x (fst p) (snd p)) (combine xi xj).

(** piecewise_linear_1d.py:1087-1145 interp_x_y: one point, then all. *)
Definition interp1 (x y : list A) (choose_max : bool) (v : A) : result A :=
  seg <- segment_containing1 x (all_segs x) choose_max v ;;
  match seg with
  | j :: _ =>
      yj <- get y j ;; yj1 <- get y (S j) ;;
      xj <- get x j ;; xj1 <- get x (S j) ;;
      Ok (nadd yj (nmul (ndiv (nsub yj1 yj) (nsub xj1 xj)) (nsub v xj)))
  | [] =>
      x0 <- get x 0 ;; xl <- get_last x ;;
      if nltb (nabs (nsub v x0)) (nabs (nsub v xl)) then get y 0 else get_last y
  end.
Definition interp_x_y (x y xi : list A) (choose_max : bool) : result (list A) :=
  if negb (Nat.eqb (length x) (length y)) then Err ValueError
  else mapM (interp1 x y choose_max) xi.

(** piecewise_linear_1d.py:1381-1425 integrate_x_y_between_xi_xj, one pair, then all. *)
Definition integrate1 (x y : list A) (vi vj : A) : result A :=
  sb <- segments_between1 x vi vj ;;
  let '(both, ionly, jonly, between) := sb in
  yi <- interp1 x y true vi ;;
  yj <- interp1 x y false vj ;;
  a1 <- mapM (fun _ => Ok (nmul (nmul (nadd yi yj) nhalf) (nsub vj vi))) both ;;
  a2 <- mapM (fun l => yl <- get y (S l) ;; xl <- get x (S l) ;;
                       Ok (nmul (nmul (nadd yi yl) nhalf) (nsub xl vi))) ionly ;;
  a3 <- mapM (fun l => ya <- get y l ;; yb <- get y (S l) ;; xa <- get x l ;; xb <- get x (S l) ;;
                       Ok (nmul (nmul (nadd ya yb) nhalf) (nsub xb xa))) between ;;
  a4 <- mapM (fun l => yl <- get y l ;; xl <- get x l ;;
                       Ok (nmul (nmul (nadd yl yj) nhalf) (nsub vj xl))) jonly ;;
  Ok (sumn (a1 ++ a2 ++ a3 ++ a4)).
Definition integrate_x_y_between_xi_xj (x y xi xj : list A) : result (list A) :=
  if negb (Nat.eqb (length x) (length y)) then Err ValueError
  else mapM (fun p => integrate1 x y (fst p) (snd p)) (combine xi xj).

(** piecewise_linear_1d.py:1324-1352 avg_x_y_between_xi_xj, one pair.
    xi = xj (a numpy 0-division warning, nan or inf) is ZeroDivisionError here. *)
Definition avg1 (x y : list A) (vi vj : A) : result A :=
  i <- integrate1 x y vi vj ;;
  if neqb (nsub vj vi) n0 then Err ZeroDivisionError else Ok (ndiv i (nsub vj vi)).

Definition avg_x_y_between_xi_xj (x y xi xj : list A) : result (list A) :=
  if negb (Nat.eqb (length x) (length y)) then Err ValueError
  else mapM (fun p => avg1 x y (fst p) (snd p)) (combine xi xj).

(** np.isclose(a, b) with rtol, atol: |a - b| <= atol + rtol*|b|. *)
Definition isclose (rtol atol a b : A) : bool :=
  nleb (nabs (nsub a b)) (nadd atol (nmul rtol (nabs b))).
(** np.allclose of equal-length arrays. *)
Definition allclose (rtol atol : A) (a b : list A) : bool :=
  forallb (fun p => isclose rtol atol (fst p) (snd p)) (combine a b).
(** numpy defaults rtol=1e-5, atol=1e-8. *)
Definition rtol_default : A := ndiv n1 (nofZ 100000).
Definition atol_default : A := ndiv n1 (nofZ 100000000).

(** A layer (x1, x2, y1, y2). *)
Record layer := mkLayer { lx1 : A; lx2 : A; ly1 : A; ly2 : A }.

(** piecewise_linear_1d.py:772-872 convert_x1_x2_y1_y2_to_x_y.
    The four arrays of equal length are given as a list of layers (so the length
    check of line 851 cannot fail); an empty list is the IndexError of x2[-1].
    Lines 861-870 insert (x2[k], y2[k]) before point k+1 wherever y2[k] != y1[k+1]. *)
Fixpoint layers_to_points (l : list layer) : list (A * A) :=
  match l with
  | [] => []
  | a :: t =>
      (lx1 a, ly1 a) ::
      match t with
      | [] => [(lx2 a, ly2 a)]
      | b :: _ => if negb (neqb (ly2 a) (ly1 b)) then (lx2 a, ly2 a) :: layers_to_points t
                  else layers_to_points t
      end
  end.
Definition convert_x1_x2_y1_y2_to_x_y (l : list layer) : result (list (A * A)) :=
  if negb (allclose rtol_default atol_default (map lx1 (tl l)) (map lx2 (removelast l)))
  then Err ValueError
  else match l with [] => Err IndexError | _ => Ok (layers_to_points l) end.

(** piecewise_linear_1d.py:875-966 convert_x_y_to_x1_x2_y1_y2 (points as pairs, so
    the length check of line 954 cannot fail). *)
Definition convert_x_y_to_x1_x2_y1_y2 (p : list (A * A)) : list layer :=
  map (fun q => mkLayer (fst (fst q)) (fst (snd q)) (snd (fst q)) (snd (snd q)))
      (filter (fun q => negb (neqb (fst (fst q)) (fst (snd q)))) (pairs p)).

(** piecewise_linear_1d.py:996-1056 interp_x1_x2_y1_y2, one point. *)
Definition interp_layers1 (l : list layer) (choose_max : bool) (v : A) : result A :=
  if negb (allclose rtol_default atol_default (map lx1 (tl l)) (map lx2 (removelast l)))
  then Err ValueError else
  lastl <- get_last l ;;
  let xs := map lx1 l ++ [lx2 lastl] in
  seg <- segment_containing1 xs (all_segs xs) choose_max v ;;
  match seg with
  | j :: _ =>
      a <- get l j ;;
      Ok (nadd (ly1 a) (nmul (ndiv (nsub (ly2 a) (ly1 a)) (nsub (lx2 a) (lx1 a))) (nsub v (lx1 a))))
  | [] =>
      f <- get l 0 ;;
      if nltb (nabs (nsub v (lx1 f))) (nabs (nsub v (lx2 lastl))) then Ok (ly1 f) else Ok (ly2 lastl)
  end.

(** piecewise_linear_1d.py:1453-1506 integrate_x1_x2_y1_y2_between_xi_xj, one pair. *)
Definition integrate_layers1 (l : list layer) (vi vj : A) : result A :=
  lastl <- get_last l ;;
  let xs := map lx1 l ++ [lx2 lastl] in
  sb <- segments_between1 xs vi vj ;;
  let '(both, ionly, jonly, between) := sb in
  yi <- interp_layers1 l true vi ;;
  yj <- interp_layers1 l false vj ;;
  a1 <- mapM (fun _ => Ok (nmul (nmul (nadd yi yj) nhalf) (nsub vj vi))) both ;;
  a2 <- mapM (fun k => a <- get l k ;; Ok (nmul (nmul (nadd yi (ly2 a)) nhalf) (nsub (lx2 a) vi))) ionly ;;
  a3 <- mapM (fun k => a <- get l k ;;
                 Ok (nmul (nmul (nadd (ly1 a) (ly2 a)) nhalf) (nsub (lx2 a) (lx1 a)))) between ;;
  a4 <- mapM (fun k => a <- get l k ;; Ok (nmul (nmul (nadd (ly1 a) yj) nhalf) (nsub vj (lx1 a)))) jonly ;;
  Ok (sumn (a1 ++ a2 ++ a3 ++ a4)).

End Piecewise.
Arguments layer : clear implicits.
