(** * Vocabulary for the syntax checker: the tree read from the outside in, left to right *)
From Coq Require Import List String.
From Verif Require Import SyntaxModel.
Import ListNotations.
Open Scope string_scope.

(** What a node asks for. *)
Inductive item :=
| UsesName (id ctx : string)        (* a name, loaded or stored *)
| UsesAttribute (attr : string)     (* .attr *)
| CallsName (f : string)            (* f(...) *)
| HasNode (type : string).          (* any other syntax element *)

(** All of them, in the order in which a reader going through the tree meets them. *)
Fixpoint items (t : node) : list item :=
  match t with
  | Name id ctx => [UsesName id ctx; HasNode ctx]
  | Attribute v a ctx => UsesAttribute a :: items v ++ [HasNode ctx]
  | Call f rest => (match f with Name id _ => [CallsName id] | _ => [] end) ++ items f ++ flat_map items rest
  | Node ty ch => HasNode ty :: flat_map items ch
  end.
(** The names stored to among some items. *)
Fixpoint stored (l : list item) : list string :=
  match l with
  | [] => []
  | UsesName id ctx :: r => (if string_dec ctx "Store" then [id] else []) ++ stored r
  | _ :: r => stored r
  end.
(** May the item be used, given the whitelists and the names stored before it? *)
Definition permitted (funcs types safe attrs before : list string) (i : item) : Prop :=
  match i with
  | UsesName id ctx => ctx = "Load" -> In id safe \/ In id funcs \/ In id attrs \/ In id before
  | UsesAttribute a => In a funcs \/ In a attrs \/ In a before
  | CallsName f => In f funcs
  | HasNode ty => In ty types
  end.
