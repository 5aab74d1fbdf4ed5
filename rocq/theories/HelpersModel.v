(** * Model of helpers in /repo/geotecha/plotting/one_d.py: iterable_method_call :836-882, split_sequence_into_dict_and_nondicts
    :994-1024, apply_dict_to_object :1167-1208, MarkersDashesColors.__call__ :259-355

    Objects are values that a method call or a setter turns into new ones or fails on; the elements of an iterable are taken to be
    different objects.  A failure leaves the earlier calls done, so each result is the objects afterwards and the exception, if any.
    A dict is the list of its items in insertion order.  Indices of styles are naturals: Python's negative ones are not modelled. *)
From Coq Require Import List Bool Arith.
From Verif Require Import Base.
Import ListNotations.
Local Open Scope list_scope.

Section Calls.
Variables Ob P : Type.
(** getattr(o, method)( *xs) *)
Variable method : Ob -> list P -> result Ob.
(** *a: the items of an argument that is unpacked, or TypeError *)
Variable items : P -> result (list P).
Definition call (unpack : bool) (o : Ob) (a : P) : result Ob := if unpack then xs <- items a ;; method o xs else method o [a].
(** for i in iterable: f(i) *)
Fixpoint each (f : Ob -> result Ob) (l : list Ob) : list Ob * option exn :=
  match l with
  | [] => ([], None)
  | o :: t => match f o with Err e => (o :: t, Some e) | Ok o' => let r := each f t in (o' :: fst r, snd r) end
  end.
(** :875-881, from position 0 on; None is skipped before the element is looked up *)
Fixpoint by_position (unpack : bool) (l : list Ob) (args : list (option P)) : list Ob * option exn :=
  match args with
  | [] => (l, None)
  | None :: ts => match l with [] => by_position unpack [] ts | o :: t => let r := by_position unpack t ts in (o :: fst r, snd r) end
  | Some a :: ts => match l with
                    | [] => ([], Some IndexError)
                    | o :: t => match call unpack o a with Err e => (o :: t, Some e) | Ok o' => let r := by_position unpack t ts in (o' :: fst r, snd r) end
                    end
  end.
(** :861-882 *)
Definition iterable_method_call (l : list Ob) (unpack : bool) (args : list (option P)) : list Ob * option exn :=
  match args with
  | [] => each (fun o => method o []) l
  | [None] => (l, None)
  | [Some a] => each (fun o => call unpack o a) l
  | _ => by_position unpack l args
  end.
End Calls.

Section Dicts.
Variables K V : Type.
Variable eqk : K -> K -> bool.
Definition dict := list (K * V).
Fixpoint lookup (d : dict) (k : K) : option V := match d with [] => None | (k', v) :: t => if eqk k' k then Some v else lookup t k end.
Fixpoint put (d : dict) (k : K) (v : V) : dict := match d with [] => [(k, v)] | (k', v') :: t => if eqk k' k then (k', v) :: t else (k', v') :: put t k v end.
(** merged_dict.update(v) :1021 *)
Definition update (d e : dict) : dict := fold_left (fun d kv => put d (fst kv) (snd kv)) e d.
(** :1016-1024; an argument is a dict or not *)
Definition split_args {A} (args : list (A + dict)) : list A * dict :=
  (flat_map (fun a => match a with inl x => [x] | inr _ => [] end) args,
   fold_left (fun d a => match a with inl _ => d | inr e => update d e end) args []).

Variable Ob : Type.
(** hasattr(o, 'set_' + key) and its call :1204-1206 *)
Variable has : Ob -> K -> bool.
Variable setter : Ob -> K -> V -> result Ob.
(** an object's own dict :1203-1206: the object as far as it came *)
Fixpoint set_all (o : Ob) (d : dict) : Ob * option exn :=
  match d with
  | [] => (o, None)
  | (k, v) :: t => if has o k then match setter o k v with Err e => (o, Some e) | Ok o' => set_all o' t end else set_all o t
  end.
Fixpoint set_each (l : list (Ob * option dict)) : list Ob * option exn :=
  match l with
  | [] => ([], None)
  | (o, d) :: t => match (match d with None => (o, None) | Some d => set_all o d end) with
                   | (o', Some e) => (o' :: map fst t, Some e)
                   | (o', None) => let r := set_each t in (o' :: fst r, snd r)
                   end
  end.
(** :1189-1208; obj and dic already made lists *)
Definition apply_dict_to_object (obj : list Ob) (dic : list (option dict)) : list Ob * option exn :=
  if negb (length obj =? length dic) then (obj, Some ValueError) else set_each (combine obj dic).
End Dicts.

(** *** styles *)
Section Styles.
Variables Color Dash Mark : Type.
(** a marker's own settings; whether its edge and its face are 'none' *)
Record marker := mkMarker { m_mark : Mark; m_edge_none : bool; m_face_none : bool }.
(** what a style says: marker with edge and face colour (None: 'none'), dashes (None: linestyle 'None'), colour *)
Record style := mkStyle { st_marker : option (Mark * option Color * option Color); st_dashes : option Dash; st_color : Color }.
Variable markers : list marker.
Variable dashes : list Dash.
Variable colors : list Color.
Variable plain : Color.
Definition StopIteration : exn := UserError 1.
(** itertools.cycle(l): what next gives the i-th time; None list: always None *)
Definition cycled (l : option (list (option nat))) (i : nat) : result (option nat) :=
  match l with None => Ok None | Some l => match length l with 0 => Err StopIteration | S _ => get l (i mod length l) end end.
(** :321-351 *)
Definition style_at (ms ds mcs lcs : option (list (option nat))) (i : nat) : result style :=
  m <- cycled ms i ;;
  mc <- cycled mcs i ;;
  mk <- match m with
        | None => Ok None
        | Some m => mm <- get markers m ;;
            c <- (if m_edge_none mm && m_face_none mm then Ok plain else match mc with None => Ok plain | Some j => get colors j end) ;;
            Ok (Some (m_mark mm, (if m_edge_none mm then None else Some c), (if m_face_none mm then None else Some c)))
        end ;;
  d <- cycled ds i ;;
  dd <- match d with None => Ok None | Some j => x <- get dashes j ;; Ok (Some x) end ;;
  lc <- cycled lcs i ;;
  c <- match lc with None => Ok plain | Some j => get colors j end ;;
  Ok (mkStyle mk dd c).
Definition len (l : option (list (option nat))) : nat := match l with None => 0 | Some l => length l end.
Definition all_of (n : nat) : option (list (option nat)) := Some (map Some (seq 0 n)).
(** :289-355 *)
Definition styles (ms ds mcs lcs : option (list (option nat))) : result (list style) :=
  let n := Nat.max (Nat.max (len ms) (len ds)) (Nat.max (len mcs) (len lcs)) in
  match n with
  | 0 => let n := Nat.max (Nat.max (length markers) (length dashes)) (length colors) in
         mapM (style_at (all_of (length markers)) (all_of (length dashes)) (all_of (length colors)) (all_of (length colors))) (seq 0 n)
  | _ => mapM (style_at ms ds mcs lcs) (seq 0 n)
  end.
End Styles.
