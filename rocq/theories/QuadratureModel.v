(** * Model of /repo/geotecha/mathematics/quadrature.py, over the reals.

    The decimal literals of the tables are exact numbers here (python: the nearest doubles).  The
    integrand is a real function applied elementwise; integrands with extra array dimensions
    (gen_slice, :1250-1253, :1334-1337) are not modelled. *)
From Coq Require Import Reals List Bool ZArith.
From Verif Require Import Base QuadratureGen.
Import ListNotations.
Open Scope R_scope.

Definition dec (z : Z) : R := IZR z / 10 ^ 25.
Definition zmem (n : Z) (l : list Z) : bool := existsb (Z.eqb n) l.

(** gauss_legendre_abscissae_and_weights :487-968 *)
Definition gauss_legendre (n : Z) : result (list (R * R)) :=
  if negb (zmem n gl_allowed) then Err ValueError
  else match gl_table n with
       | Some t => Ok (map (fun e => (dec (fst e), dec (snd e))) t)
       | None => Err KeyError
       end.
(** wi1 = np.zeros_like(xi); wi1[dup] = ws :475-477 *)
Fixpoint put (dup : list bool) (ws : list R) : result (list R) :=
  match dup, ws with
  | [], [] => Ok []
  | [], _ => Err ValueError
  | false :: d, _ => r <- put d ws ;; Ok (0 :: r)
  | true :: d, w :: ws => r <- put d ws ;; Ok (w :: r)
  | true :: _, [] => Err ValueError
  end.
(** gauss_kronrod_abscissae_and_weights :35-483: xi, wi1, wi2 *)
Definition gauss_kronrod (n : Z) : result (list R * list R * list R) :=
  if negb (zmem n gk_allowed) then Err ValueError
  else match gk_table n with
       | Some (g, k, dup) =>
           wi1 <- put dup (map (fun e => dec (snd e)) g) ;;
           Ok (map (fun e => dec (fst e)) k, wi1, map (fun e => dec (snd e)) k)
       | None => Err KeyError
       end.

(** one row of the array: np.sum(bma * f(bma * xj + bpa) * wj) :1242-1260, :1326-1339 *)
Definition rsum (l : list R) : R := fold_right Rplus 0 l.
Definition rule (f : R -> R) (a b : R) (xw : list (R * R)) : R :=
  let bma := (b - a) / 2 in let bpa := (a + b) / 2 in
  rsum (map (fun e => bma * f (bma * fst e + bpa) * snd e) xw).
(** (bi - ai) broadcasts two columns :1227-1243 *)
Definition broadcast (la lb : list R) : result (list (R * R)) :=
  match la, lb with
  | [a], _ => Ok (map (fun b => (a, b)) lb)
  | _, [b] => Ok (map (fun a => (a, b)) la)
  | _, _ => if (length la =? length lb)%nat then Ok (combine la lb) else Err ValueError
  end.
(** f(xij.flat[0]) :1250, :1334 raises on an empty array *)
Definition nonempty {A} (l : list A) : result (list A) := match l with [] => Err IndexError | _ => Ok l end.

(** gl_quad :1274-1344, without and with sum_intervals (shanks_ind is not used) *)
Definition gl_quad (f : R -> R) (la lb : list R) (n : Z) : result (list R) :=
  xw <- gauss_legendre n ;; ab0 <- broadcast la lb ;; ab <- nonempty ab0 ;;
  Ok (map (fun e => rule f (fst e) (snd e) xw) ab).
Definition gl_quad_sum (f : R -> R) (la lb : list R) (n : Z) : result R :=
  l <- gl_quad f la lb n ;; Ok (rsum l).
(** gk_quad :1191-1271: the fine integral and the error estimate *)
Definition gk_quad (f : R -> R) (la lb : list R) (n : Z) : result (list R * list R) :=
  t <- gauss_kronrod n ;; ab0 <- broadcast la lb ;; ab <- nonempty ab0 ;;
  let '(xi, wi1, wi2) := t in
  let ig1 := map (fun e => rule f (fst e) (snd e) (combine xi wi1)) ab in
  let ig2 := map (fun e => rule f (fst e) (snd e) (combine xi wi2)) ab in
  Ok (ig2, map (fun e => Rabs (snd e - fst e)) (combine ig1 ig2)).
Definition gk_quad_sum (f : R -> R) (la lb : list R) (n : Z) : result (R * R) :=
  r <- gk_quad f la lb n ;; Ok (rsum (fst r), rsum (snd r)).

(** ** shanks :1119-1188 for a 1-d float array.  The array is updated in place (np.atleast_1d does
    not copy an array), so the model returns the array afterwards and the value. *)
Fixpoint triples (l : list R) : list (R * R * R) :=
  match l with
  | a :: ((b :: c :: _) as t) => (a, b, c) :: triples t
  | _ => []
  end.
Definition denom (t : R * R * R) : R := let '(a, b, c) := t in c - 2 * b + a.
Definition shank (t : R * R * R) : R := let '(a, b, c) := t in (c * a - b ^ 2) / denom t.
Fixpoint shanks_loop (fuel : nat) (i : nat) (l : list R) : list R :=
  match fuel with
  | O => l
  | S k => if (i <? length l - 2)%nat then
             let T := triples (skipn i l) in
             if existsb (fun t => Reqb (denom t) 0) T then l
             else shanks_loop k (i + 2) (firstn (i + 2) l ++ map shank T)
           else l
  end.
(** ind: None, or an index counted from the end if negative *)
Definition shanks (l : list R) (ind : option Z) : result (list R * R) :=
  let l' := match ind with
            | None => l
            | Some z => let z := (if z <? 0 then Z.of_nat (length l) + z else z)%Z in
                        shanks_loop (length l) (Z.to_nat (Z.max z 0)) l
            end in
  v <- get_last l' ;; Ok (l', v).

(** ** shanks_table :970-1116 with randomized=False (the pseudo-random replacement of a zero divisor
    is not modelled).  [cells]: the entries of row i from column j on, given the entry to the left
    ([prev]) and the previous row; [None] when b is 0. *)
Fixpoint cells (seqi : R) (prow : list R) (n j : nat) (prev : R) : option (list R) :=
  match n with
  | O => Some []
  | S n' =>
      let a := match j with 1%nat => seqi | _ => nth (j - 2) prow 0 end in
      let b := prev - nth (j - 1) prow 0 in
      if Reqb b 0 then None
      else match cells seqi prow n' (S j) (a + 1 / b) with
           | Some r => Some ((a + 1 / b) :: r)
           | None => None
           end
  end.
Definition table_row (seq : list R) (table : list (list R)) (i : nat) : option (list R) :=
  let b := nth (i + 1) seq 0 - nth i seq 0 in
  if Reqb b 0 then None
  else match cells (nth i seq 0) (nth (i - 1) table []) i 1 (0 + 1 / b) with
       | Some r => Some ((0 + 1 / b) :: r)
       | None => None
       end.
Fixpoint table_rows (seq : list R) (n i : nat) (table : list (list R)) : list (list R) :=
  match n with
  | O => table
  | S n' => match table_row seq table i with
            | Some row => table_rows seq n' (S i) (table ++ [row])
            | None => if Nat.odd i then removelast table else table
            end
  end.
Definition shanks_table (seq : list R) (table : list (list R)) : result (list (list R)) :=
  if (length seq <? 2)%nat then Err ValueError
  else
    let start := length table in
    let stop := (length seq - 1)%nat in
    let stop := if Nat.odd stop then (stop - 1)%nat else stop in
    Ok (table_rows seq (stop - start) start table).
