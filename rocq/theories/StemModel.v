(** * Model of next_output_stem (inputoutput.py :1643-1704)

    File names are character lists.  The prefix is taken literally: python compiles it as a regular
    expression, so prefixes with metacharacters are not covered.  \d is an ascii digit. *)
From Coq Require Import List Ascii ZArith Lia Bool.
From Verif Require Import Base.
Import ListNotations.
Open Scope Z_scope.

Definition text := list ascii.

Definition is_digit (c : ascii) : bool := (48 <=? Z.of_nat (nat_of_ascii c)) && (Z.of_nat (nat_of_ascii c) <=? 57).
Definition digit_value (c : ascii) : Z := Z.of_nat (nat_of_ascii c) - 48.
Definition digit_char (d : Z) : ascii := ascii_of_nat (Z.to_nat (d + 48)).

(** the greedy \d+ at the start of a text *)
Fixpoint take_digits (s : text) : text :=
  match s with [] => [] | c :: r => if is_digit c then c :: take_digits r else [] end.
(** int(...) of a run of digits *)
Definition int_of (s : text) : Z := fold_left (fun acc c => 10 * acc + digit_value c) s 0.

(** re.compile(prefix + "(?P<x>\d+).*").match(nm) :1689, :1693-1695 *)
Fixpoint strip_prefix (p s : text) : option text :=
  match p, s with
  | [], _ => Some s
  | a :: p', b :: s' => if Ascii.eqb a b then strip_prefix p' s' else None
  | _ :: _, [] => None
  end.
Definition match_number (prefix nm : text) : option Z :=
  match strip_prefix prefix nm with
  | None => None
  | Some rest => match take_digits rest with [] => None | ds => Some (int_of ds) end
  end.

(** str(n) for n >= 0: decimal digits, most significant first *)
Fixpoint digits_fuel (fuel : nat) (n : Z) : text :=
  match fuel with
  | O => []
  | S f => if n <? 10 then [digit_char n] else digits_fuel f (n / 10) ++ [digit_char (n mod 10)]
  end.
Definition digits (n : Z) : text := digits_fuel (S (Z.to_nat (Z.log2 n))) n.
(** str(num).zfill(zfill) :1704; the sign stays in front *)
Definition pad (n : nat) (s : text) : text := repeat "0"%char (n - length s) ++ s.
Definition str_zfill (zfill : nat) (n : Z) : text :=
  if n <? 0 then "-"%char :: pad (zfill - 1) (digits (- n)) else pad zfill (digits n).

(** [listing] is os.listdir of the folder; None: the folder does not exist (:1684-1685) *)
Definition next_output_stem (prefix : text) (listing : option (list text)) (start inc : Z) (zfill : nat) (overwrite : bool) : result text :=
  match listing with
  | None => Err ValueError
  | Some names =>
      let nums := flat_map (fun nm => match match_number prefix nm with Some n => [n] | None => [] end) names in    (* :1691-1695 *)
      let num := match nums with                                                                                    (* :1696-1702 *)
                 | [] => start
                 | n :: r => let m := fold_left Z.max r n in if overwrite then m else m + inc
                 end in
      Ok (prefix ++ str_zfill zfill num)
  end.
