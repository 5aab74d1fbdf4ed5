(** * Model of mathematics/multi_transform.py ntransform :36-155, _NTransform :182-250

    Values are any type V (numbers real or complex).  A transform is known only through what it does
    with the function it is given: a strategy that asks for values of the function, one after the
    other, each request depending on the answers so far, and ends with a value and an error
    estimate or an exception.  The strategy may depend on everything the transform is given: its name,
    variable, options and the extra arguments. *)
From Coq Require Import List String Bool Arith Reals.
From Verif Require Import Base.
Import ListNotations.
Open Scope R_scope.
Local Open Scope list_scope.

Section NTransform.
Variable V : Type.
Variable opts_ : Type.                                       (* keyword options, a dict *)
Variable no_opts : opts_.
Inductive strategy := Done (v : V) (err : R) | Raise (e : exn) | Ask (x : V) (k : V -> strategy).

(** a call of the function: result and the object's abserr afterwards *)
Fixpoint play (t : strategy) (f : V -> R -> result (V * R)) (abserr : R) : result ((V * R) * R) :=
  match t with
  | Done v err => Ok ((v, err), abserr)
  | Raise e => Err e
  | Ask x k => va <- f x abserr ;; play (k (fst va)) f (snd va)
  end.

(** self.tdict :200-204: the known transforms *)
Variable tdict : string -> option (V -> list V -> opts_ -> strategy).     (* tvar, args, options *)
(** options of a level: a dict, or a function of the arguments (:151-152, _OptFunc :175-180) *)
Inductive opt := ODict (d : opts_) | OFun (f : list V -> opts_) .
Definition call_opt (o : opt) (args : list V) : opts_ := match o with ODict d => d | OFun f => f args end.

(** integral_transform :224-250.  The levels come outermost first, that is transforms[-1],
    transforms[-2], ... (:232-237).  None for the options is an object that cannot be called. *)
Variable func : list V -> result V.
Fixpoint integral_transform (levels : list (string * V * option opt)) (args : list V) (abserr : R) : result (V * R) :=
  match levels with
  | [] => Err IndexError                                                  (* transforms[-1] of an empty list *)
  | (name, tvar, o) :: rest =>
      match tdict name with
      | None => Err KeyError
      | Some transform =>
          match o with
          | None => Err TypeError                                         (* fn_opt(args) :237 *)
          | Some o =>
              let f := match rest with                                    (* :239-242 *)
                       | [] => fun x a => v <- func (x :: args) ;; Ok (v, a)
                       | _ => fun x a => integral_transform rest (x :: args) a
                       end in
              r <- play (transform tvar args (call_opt o args)) f abserr ;;     (* :244 *)
              Ok (fst (fst r), Rmax (snd r) (Rabs (snd (fst r))))               (* :245 *)
          end
      end
  end.

(** ntransform :134-155 *)
Inductive opts_arg := ONone | OOne (d : opts_) | OMany (l : list opt).
Definition ntransform (transforms : list string) (transvars : list V) (args : list V) (opts : opts_arg) : result (V * R) :=
  let depth := List.length transforms in
  if negb (List.length transvars =? depth)%nat then Err RuntimeError      (* AssertionError :140-141 *)
  else
    let opts := match opts with
                | ONone => repeat (Some (ODict no_opts)) depth            (* :145-146, :151 *)
                | OOne d => repeat None depth                             (* :148-149: the dict itself, not callable *)
                | OMany l => map Some l
                end in
    let n := List.length opts in
    if (n <? depth)%nat then Err IndexError       (* opts[-(depth+1)] :236; raised when the level is reached, here at once *)
    else integral_transform (rev (combine (combine transforms transvars) (skipn (n - depth) opts))) args 0.     (* more options than transforms: the last ones *)
End NTransform.
