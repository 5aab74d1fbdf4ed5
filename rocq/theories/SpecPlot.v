(** * Vocabulary for C55-C57, C60 *)
From Coq Require Import List Ascii ZArith Reals.
From Verif Require Import SpecStem.
Import ListNotations.
Open Scope nat_scope.

(** colour components between 0 and the top of the scale; the fourth, if any, is the opacity *)
Definition colour (top : R) (rgb : list R) : Prop := (length rgb = 3 \/ length rgb = 4) /\ List.Forall (fun v => (0 <= v <= top)%R) (firstn 3 rgb).
Definition opacity (rgb : list R) : option R := nth_error rgb 3.

(** "h:mm:ss.cc" *)
Definition shows (t : list ascii) (h m s c : Z) : Prop :=
  exists hs ms ss cs, t = hs ++ [":"%char] ++ ms ++ [":"%char] ++ ss ++ ["."%char] ++ cs /\
    written 1 hs h /\ (decimal ms m /\ length ms = 2) /\ (decimal ss s /\ length ss = 2) /\ (decimal cs c /\ length cs = 2).

(** grids: a multi-index inside a shape, its place in row-major order *)
Definition inside (shape idx : list nat) : Prop := Forall2 (fun n i => i < n) shape idx.
Fixpoint places (shape : list nat) : nat := match shape with [] => 1 | n :: r => n * places r end.
Fixpoint place (shape idx : list nat) : nat :=
  match shape, idx with n :: r, i :: t => i * places r + place r t | _, _ => 0 end.
(** the index seen from the far end in the dimensions with step -1 *)
Fixpoint reversed (shape : list nat) (steps : list Z) (idx : list nat) : list nat :=
  match shape, steps, idx with
  | n :: r, s :: t, i :: u => (if (s =? -1)%Z then n - 1 - i else i) :: reversed r t u
  | _, _, _ => idx
  end.
