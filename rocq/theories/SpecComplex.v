(** * Vocabulary: derivatives and integrals of complex functions of a real variable, by components *)
From Coq Require Import Reals List.
From Coquelicot Require Import Coquelicot.
From Verif Require Import BeamModel.
Import ListNotations.
Local Open Scope R_scope.
Definition is_Cderive (f : R -> C) (t : R) (d : C) : Prop :=
  is_derive (fun s => fst (f s)) t (fst d) /\ is_derive (fun s => snd (f s)) t (snd d).
Definition is_CInt (f : R -> C) (a b : R) (v : C) : Prop :=
  is_RInt (fun s => fst (f s)) a b (fst v) /\ is_RInt (fun s => snd (f s)) a b (snd v).
