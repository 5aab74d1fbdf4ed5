(** * Vocabulary for attributes of objects *)
From Coq Require Import List String Reals.
From Verif Require Import AttrModel.
Import ListNotations.

(** the object has the attribute / it is not None / it is None *)
Definition has (o : object) (v : string) : Prop := exists x, o v = Some x.
Definition defined (o : object) (v : string) : Prop := exists x, o v = Some x /\ x <> VNone.
Definition undefined (o : object) (v : string) : Prop := o v = Some VNone.
(** the documented conditions on combinations *)
Definition all_or_none (o : object) (check : list string) : Prop := (forall v, In v check -> defined o v) \/ (forall v, In v check -> undefined o v).
Definition some_defined (o : object) (check : list string) : Prop := exists v, In v check /\ defined o v.
Definition implied (o : object) (check : list string) : Prop :=
  (2 <= List.length check)%nat /\ forall c0 cs, check = c0 :: cs -> defined o c0 -> forall v, In v cs -> defined o v.
Definition consistent (o : object) (zero_or_all at_least_one one_implies_others : list (list string)) : Prop :=
  (forall c, In c zero_or_all -> all_or_none o c) /\ (forall c, In c at_least_one -> some_defined o c) /\ (forall c, In c one_implies_others -> implied o c).
Definition none_or_list (o : object) (v : string) : Prop := undefined o v \/ exists l, o v = Some (VList l).
(** length of the two attributes of a pair agrees, or one is None *)
Definition pair_ok (o : object) (pair : list string) : Prop :=
  exists v1 v2, pair = [v1; v2] /\ (undefined o v1 \/ undefined o v2 \/ exists x1 x2 n, o v1 = Some x1 /\ o v2 = Some x2 /\ len x1 = Some n /\ len x2 = Some n).
(** the two objects agree *)
Definition same (o o' : object) : Prop := forall v, o v = o' v.
(** equal limits within numpy's default tolerances *)
Definition close (a b : R) : Prop := (Rabs (a - b) <= / 10 ^ 8 + / 10 ^ 5 * Rabs b)%R.
(** the PolyLines of an attribute: itself or the members of the list *)
Definition polylines (x : value) : list value := match x with VList l => l | VNone => [] | x => [x] end.
Definition x_limits (p : value) (a b : R) : Prop := exists xs, p = VPolyLine xs /\ xs <> [] /\ a = hd 0%R xs /\ b = List.last xs 0%R.
