(** * Vocabulary for numbered file names *)
From Coq Require Import List Ascii ZArith.
Import ListNotations.
Open Scope Z_scope. Open Scope char_scope.

Definition decimal_digit (c : ascii) : option Z :=
  match c with
  | "0" => Some 0%Z | "1" => Some 1%Z | "2" => Some 2%Z | "3" => Some 3%Z | "4" => Some 4%Z
  | "5" => Some 5%Z | "6" => Some 6%Z | "7" => Some 7%Z | "8" => Some 8%Z | "9" => Some 9%Z | _ => None
  end.
(** the digits [ds], read as a decimal number, are n *)
Inductive decimal : list ascii -> Z -> Prop :=
| decimal_nil : decimal [] 0
| decimal_cons c d r n : decimal_digit c = Some d -> decimal r n -> decimal (c :: r) (d * 10 ^ Z.of_nat (length r) + n).
Definition starts_with_digit (s : list ascii) : Prop := exists c r d, s = c :: r /\ decimal_digit c = Some d.
(** nm is the prefix, then the number n, then something that does not continue the number *)
Definition numbered (prefix nm : list ascii) (n : Z) : Prop :=
  exists ds rest, nm = prefix ++ ds ++ rest /\ ds <> [] /\ decimal ds n /\ ~ starts_with_digit rest.
(** the largest number in use *)
Definition largest (prefix : list ascii) (names : list (list ascii)) (n : Z) : Prop :=
  (exists nm, In nm names /\ numbered prefix nm n) /\ forall nm m, In nm names -> numbered prefix nm m -> m <= n.
Definition none_numbered (prefix : list ascii) (names : list (list ascii)) : Prop :=
  forall nm m, In nm names -> ~ numbered prefix nm m.
(** n written with at least w digits, padded with zeros only as far as needed *)
Definition written (w : nat) (ds : list ascii) (n : Z) : Prop :=
  decimal ds n /\ (w <= length ds)%nat /\ ((length ds <= Nat.max w 1)%nat \/ hd "0" ds <> "0").
