(** * Model of small helpers: colours and subplot order (plotting/one_d.py), elapsed time strings
    (inputoutput.py), depth to reduced level (mathematics/transformations.py) *)
From Coq Require Import List Ascii ZArith Reals Bool Arith Lia.
From Verif Require Import Base StemModel.
Import ListNotations.

(** ** one_d.py rgb_shade :73-81, rgb_tint :121-133.  A colour is the list of its components. *)
Open Scope R_scope.
Definition rgb_shade (rgb : list R) (factor : R) : result (list R) :=
  if Rltb factor 0 || Rltb 1 factor then Err ValueError                                 (* :73-75 *)
  else let new := map (fun v => v * factor) (firstn 3 rgb) in                           (* :77 *)
       match rgb with
       | [_; _; _; a] => Ok (new ++ [a])                                                (* :78-79 *)
       | _ => Ok new
       end.
Definition rgb_tint (rgb : list R) (factor : R) (scaled : bool) : result (list R) :=
  if Rltb factor 0 || Rltb 1 factor then Err ValueError                                 (* :121-122 *)
  else let black := if scaled then 1 else 255 in                                        (* :124-127 *)
       let new := map (fun v => v + (black - v) * factor) (firstn 3 rgb) in             (* :129 *)
       match rgb with
       | [_; _; _; a] => Ok (new ++ [a])
       | _ => Ok new
       end.

(** ** transformations.py depth_to_reduced_level :44-47 *)
Definition depth_to_reduced_level (z H : R) (rlzero : option R) : R :=
  match rlzero with Some rl => rl - z * H | None => z * H end.

(** ** inputoutput.py hms_string :1871-1874, for a non-negative number of seconds, exact arithmetic.
    int truncates, % is the remainder of the floored quotient, .2f rounds to the nearest hundredth,
    ties to even. *)
Definition floor (x : R) : Z := Int_part x.
Definition mod_ (x y : R) : R := x - y * IZR (floor (x / y)).
Definition round_even (x : R) : Z :=
  let k := floor x in
  if Rltb (x - IZR k) (1 / 2) then k else if Rltb (1 / 2) (x - IZR k) then (k + 1)%Z else if Z.even k then k else (k + 1)%Z.
Definition hms_string (sec : R) : text :=
  let h := floor (sec / (60 * 60)) in
  let m := floor (mod_ sec (60 * 60) / 60) in
  let s := mod_ sec 60 in
  let c := round_even (s * 100) in
  (digits h ++ [":"%char] ++ pad 2 (digits m) ++ [":"%char] ++ pad 5 (digits (c / 100)%Z ++ ["."%char] ++ pad 2 (digits (c mod 100)%Z)))%list.

(** ** one_d.py row_major_order_reverse_map :975-987.  An array is a function of the multi-index. *)
Open Scope nat_scope.
Fixpoint indices (shape : list nat) : list (list nat) :=                      (* all multi-indices, last one fastest *)
  match shape with [] => [[]] | n :: r => flat_map (fun i => map (cons i) (indices r)) (seq 0 n) end.
Definition ravel (shape idx : list nat) : nat := fold_left (fun acc p => acc * fst p + snd p) (combine shape idx) 0.
(** slice(None, None, s) of a dimension with n entries: how many, and which is the i-th *)
Definition slice_len (n : nat) (s : Z) : nat := let a := Z.abs_nat s in (n + a - 1) / a.
Definition slice_at (n : nat) (s : Z) (i : nat) : nat :=
  if (0 <? s)%Z then i * Z.abs_nat s else n - 1 - i * Z.abs_nat s.
(** pos[...] = pos[a] :981-982: a may have fewer entries than dimensions (the rest is taken whole), a
    zero step is an error, and a sliced dimension must have its old length or length one (then it is
    repeated).  numpy reads the overlapping right hand side before writing. *)
Fixpoint source (shape : list nat) (steps : list Z) : result (list (nat -> nat)) :=
  match shape, steps with
  | _, [] => Ok (map (fun _ i => i) shape)
  | [], _ :: _ => Err IndexError
  | n :: r, s :: t =>
      if (s =? 0)%Z then Err ValueError
      else fs <- source r t ;;
           let c := slice_len n s in
           if c =? n then Ok (slice_at n s :: fs) else if c =? 1 then Ok ((fun _ => slice_at n s 0) :: fs) else Err ValueError
  end.
Definition applies (fs : list (nat -> nat)) (idx : list nat) : list nat := map (fun p => (fst p) (snd p)) (combine fs idx).
Definition row_major_order_reverse_map (shape : list nat) (index_steps : option (list Z)) (transpose : bool) : result (list nat) :=
  let steps := match index_steps with None => map (fun _ => 1%Z) shape | Some a => a end in          (* :976-977 *)
  fs <- source shape steps ;;
  let pos := fun idx => ravel shape (applies fs idx) in                                               (* :980-982 *)
  if transpose then Ok (map (fun idx => pos (rev idx)) (indices (rev shape)))                         (* :984-985 *)
  else Ok (map pos (indices shape)).
Example map_doc1 : row_major_order_reverse_map [3; 3] (Some [1; -1]%Z) false = Ok [2; 1; 0; 5; 4; 3; 8; 7; 6]. Proof. reflexivity. Qed.
Example map_doc2 : row_major_order_reverse_map [3; 3] (Some [-1; 1]%Z) false = Ok [6; 7; 8; 3; 4; 5; 0; 1; 2]. Proof. reflexivity. Qed.
Example map_doc3 : row_major_order_reverse_map [3; 3] None true = Ok [0; 3; 6; 1; 4; 7; 2; 5; 8]. Proof. reflexivity. Qed.
