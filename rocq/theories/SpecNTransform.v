(** * What a nested transform is *)
From Coq Require Import List String Reals.
From Verif Require Import Base NTransformModel.
Import ListNotations.
Open Scope R_scope.
Local Open Scope list_scope.

Section Spec.
Context {V : Type}.
(** the outcome of a transform applied to a function: its value and all error estimates made on the
    way, its own last; None if something raises *)
Fixpoint outcome (t : strategy V) (f : V -> option (V * list R)) : option (V * list R) :=
  match t with
  | Done _ v e => Some (v, [e])
  | Raise _ _ => None
  | Ask _ x k => match f x with
                 | None => None
                 | Some (y, es) => match outcome (k y) f with None => None | Some (v, es') => Some (v, es ++ es') end
                 end
  end.
(** levels from the outermost to the innermost; the function gets the variable of the innermost
    transform first, the extra arguments last *)
Fixpoint iterated (func : list V -> result V) (levels : list (list V -> strategy V)) (args : list V) : option (V * list R) :=
  match levels with
  | [] => match func args with Ok v => Some (v, []) | Err _ => None end
  | t :: inner => outcome (t args) (fun x => iterated func inner (x :: args))
  end.
Definition worst (es : list R) : R := fold_right (fun e m => Rmax (Rabs e) m) 0 es.
End Spec.
