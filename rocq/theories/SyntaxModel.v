(** * Model of SyntaxChecker and make_module_from_text (inputoutput.py :62-222, :573-629).

    A syntax tree is what ast.parse gives: Name, Attribute and Call have their own visit methods,
    every other node has a type name and its child nodes in the order of ast.iter_fields.  The
    context of a name or attribute (Load, Store, Del, ...) is itself a node.  Identifiers that are
    plain strings in the tree (function names, keyword names, parameters) are not visited by
    ast.NodeVisitor and have no place here.  The dispatch visit_<type> of ast.NodeVisitor.visit is
    the match below.  print_each_node is False. *)
From Coq Require Import List String Bool.
From Verif Require Import Base SyntaxGen.
Import ListNotations.
Open Scope string_scope.

Inductive node :=
| Name (id ctx : string)
| Attribute (value : node) (attr ctx : string)
| Call (func : node) (rest : list node)               (* rest: args and keywords *)
| Node (type : string) (children : list node).

Definition mem (s : string) (l : list string) : bool := existsb (String.eqb s) l.

(** The tables of the checker that do not change during a visit *)
Record config := mkConfig { functions : list string; node_types : list string; safe_names : list string }.

(** NodeVisitor.generic_visit :213-222 for a leaf (ctx) *)
Definition visit_ctx (c : config) (ctx : string) : result unit :=
  if mem ctx (node_types c) then Ok tt else Err SyntaxError_.

(** visit :173-222.  The second argument and the result are allowed_attributes, which visit_Name
    enlarges. *)
Fixpoint visit (c : config) (t : node) (attrs : list string) : result (list string) :=
  let children := fix go (l : list node) (attrs : list string) : result (list string) :=
    match l with
    | [] => Ok attrs
    | x :: r => attrs' <- visit c x attrs ;; go r attrs'
    end in
  match t with
  | Name id ctx =>                                                     (* visit_Name :188-200 *)
      attrs' <- (if ctx =? "Store" then Ok (id :: attrs)
                 else if ctx =? "Load" then
                   if negb (mem id (safe_names c)) && negb (mem id (functions c)) && negb (mem id attrs)
                   then Err SyntaxError_ else Ok attrs
                 else Ok attrs) ;;
      _ <- visit_ctx c ctx ;; Ok attrs'
  | Attribute value attr ctx =>                                        (* visit_Attribute :202-211 *)
      if negb (mem attr (functions c)) && negb (mem attr attrs) then Err SyntaxError_
      else attrs' <- visit c value attrs ;; _ <- visit_ctx c ctx ;; Ok attrs'
  | Call f rest =>                                                     (* visit_Call :173-185 *)
      match f with
      | Name id _ => if mem id (functions c) then attrs' <- visit c f attrs ;; children rest attrs'
                     else Err SyntaxError_
      | _ => attrs' <- visit c f attrs ;; children rest attrs'
      end
  | Node ty ch =>                                                      (* generic_visit :213-222 *)
      if mem ty (node_types c) then children ch attrs else Err SyntaxError_
  end.

(** SyntaxChecker(allow) :154-171, with the allow_* methods :224-518.  hasattr(ast, v) and
    hasattr(builtins, v) (:250, :286) keep the words that exist in the running python: [in_ast] and
    [in_builtins]. *)
Inductive group := GAst | GBuiltin | GNumpy | GPolyLine.
Definition allow_functions (in_builtins : string -> bool) (g : group) : list string :=
  match g with GAst => [] | GBuiltin => filter in_builtins builtin_functions | GNumpy => numpy_functions | GPolyLine => PolyLine_functions end.
Definition allow_nodes (in_ast : string -> bool) (g : group) : list string :=
  match g with GAst => filter in_ast ast_nodes | _ => [] end.
Definition allow_attributes (g : group) : list string :=
  match g with GAst => [] | GBuiltin => builtin_attributes | GNumpy => numpy_attributes | GPolyLine => PolyLine_attributes end.
Definition checker (in_ast in_builtins : string -> bool) (allow : list group) : config * list string :=
  (mkConfig (flat_map (allow_functions in_builtins) allow) (flat_map (allow_nodes in_ast) allow) ["True"; "False"; "None"],
   flat_map allow_attributes allow).

(** make_module_from_text :612-629: what is done, in order.  [parse] is ast.parse, [run] the
    execution of the compiled tree in a module holding the given names (arbitrary). *)
Section Make.
Variables (A : Type) (parse : string -> result node) (run : node -> list string -> result A) (run_text : string -> result A).
Inductive event := Executed (t : node) (names : list string) | ExecutedText (s : string).
Definition make_module_from_text (text : string) (ck : option (config * list string)) : list event * result A :=
  match ck with
  | None => ([ExecutedText text], run_text text)
  | Some (c, attrs) =>
      match parse text with
      | Err e => ([], Err e)
      | Ok t => match visit c t attrs with
                | Err e => ([], Err e)
                | Ok _ => ([Executed t (functions c)], run t (functions c))
                end
      end
  end.
End Make.
