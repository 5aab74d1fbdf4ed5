(** * Model of the attribute handling of inputoutput.py (:718-1035, :1248-1345, :1477-1525)

    Objects are partial maps from names to values, living in a store so that two names may mean the
    same object.  Of a value only what the code looks at is kept: is it None, a list, a PolyLine
    (its x values), a numpy array, something else with or without a length. *)
From Coq Require Import List String Bool Arith Reals.
From Verif Require Import Base SetupGen.
Import ListNotations.
Open Scope string_scope.
Local Open Scope list_scope.

Inductive value :=
| VNone
| VList (l : list value)
| VPolyLine (x : list R)
| VArray (n : nat) (id : nat)                      (* numpy array, n elements *)
| VOther (len : option nat) (id : nat).            (* number, string, dict, slice, ... *)
Definition object := string -> option value.
Definition is_None (v : value) : bool := match v with VNone => true | _ => false end.
Definition is_list (v : value) : bool := match v with VList _ => true | _ => false end.

(** obj.__getattribute__(v), getattr(obj, v) *)
Definition getattr (o : object) (v : string) : result value := match o v with Some x => Ok x | None => Err AttributeError end.
Definition setattr (o : object) (v : string) (x : value) : object := fun w => if String.eqb w v then Some x else o w.
(** hasattr(x, '__len__'), len(x).  PolyLine has no __len__. *)
Definition len (x : value) : option nat :=
  match x with VNone => None | VList l => Some (List.length l) | VPolyLine _ => None | VArray n _ => Some n | VOther l _ => l end.

(** ** dictionaries (defaults) *)
Definition dict := list (string * value).
Fixpoint lookup (d : dict) (v : string) : option value :=
  match d with [] => None | (k, x) :: r => if String.eqb k v then Some x else lookup r v end.
Definition get_or (d : dict) (v : string) (x : value) : value := match lookup d v with Some y => y | None => x end.
(** copy_dict (plotting/one_d.py :137-177): the second dictionary wins *)
Definition copy_dict (source diffs : dict) : dict := diffs ++ source.

(** ** copy_attributes_between_objects :718-754, objects a (from) and b (to) of a store *)
Definition store := nat -> object.
Definition update (s : store) (b : nat) (o : object) : store := fun k => if Nat.eqb k b then o else s k.
Fixpoint copy_attributes (s : store) (a b : nat) (attributes : list string) (defaults : dict) (not_found : value) : store :=
  match attributes with
  | [] => s
  | v :: r => let x := match s a v with Some x => x | None => get_or defaults v not_found end in       (* :752 *)
              copy_attributes (update s b (setattr (s b) v x)) a b r defaults not_found
  end.
(** initialize_objects_attributes :1033-1035 *)
Definition initialize_attributes (o : object) (attributes : list string) (defaults : dict) (not_found : value) : object :=
  fold_left (fun o v => setattr o v (get_or defaults v not_found)) attributes o.

(** ** the checks *)
(** check_attribute_is_list :814-822 *)
Fixpoint check_attribute_is_list (o : object) (attributes : list string) (force_list : bool) : result object :=
  match attributes with
  | [] => Ok o
  | v :: r => x <- getattr o v ;;
              if is_None x || is_list x then check_attribute_is_list o r force_list
              else if force_list then check_attribute_is_list (setattr o v (VList [x])) r force_list
              else Err ValueError
  end.
(** [g(v) is None for v in check] *)
Definition nones (o : object) (check : list string) : result (list bool) := mapM (fun v => x <- getattr o v ;; Ok (is_None x)) check.
Fixpoint each {A} (f : A -> result unit) (l : list A) : result unit :=
  match l with [] => Ok tt | a :: r => _ <- f a ;; each f r end.
(** check_attribute_combinations :935-955 *)
Definition check_attribute_combinations (o : object) (zero_or_all at_least_one one_implies_others : list (list string)) : result unit :=
  _ <- each (fun check => ns <- nones o check ;;
                          let k := count_occ Bool.bool_dec ns true in
                          if (1 <=? k)%nat && (k <? List.length check)%nat then Err ValueError else Ok tt) zero_or_all ;;        (* :937-939 *)
  _ <- each (fun check => ns <- nones o check ;;
                          if existsb negb ns then Ok tt else Err ValueError) at_least_one ;;                             (* :941-946 *)
  each (fun check => if (List.length check <=? 1)%nat then Err ValueError                                                      (* :948-953 *)
                     else match check with
                          | [] => Ok tt
                          | c0 :: cs => x <- getattr o c0 ;;
                                        if is_None x then Ok tt
                                        else ns <- nones o cs ;; if forallb negb ns then Ok tt else Err ValueError
                          end) one_implies_others.
(** check_attribute_pairs_have_equal_length :889-908 *)
Definition check_attribute_pairs_have_equal_length (o : object) (pairs : list (list string)) : result unit :=
  each (fun pair => match pair with
                    | [v1; v2] =>
                        x1 <- getattr o v1 ;; x2 <- getattr o v2 ;;
                        if is_None x1 || is_None x2 then Ok tt
                        else match len x1, len x2 with
                             | Some n1, Some n2 => if Nat.eqb n1 n2 then Ok tt else Err ValueError
                             | _, _ => Err TypeError
                             end
                    | _ => Err ValueError                        (* more than two, or too few to unpack *)
                    end) pairs.
(** force_attribute_same_len_if_none :982-987.  [a1 != None] of a numpy array is an array, whose
    truth value is an error unless it has one element (an empty one is false). *)
Definition fill (filler a1 : value) (o : object) (v : string) : result object :=
  x <- getattr o v ;;
  if is_None x then match len a1 with Some n => Ok (setattr o v (VList (repeat filler n))) | None => Err TypeError end else Ok o.
Fixpoint fill_all (filler a1 : value) (o : object) (vs : list string) : result object :=
  match vs with [] => Ok o | v :: r => o' <- fill filler a1 o v ;; fill_all filler a1 o' r end.
Definition force_group (filler : value) (o : object) (group : list string) : result object :=
  match group with
  | [] => Err IndexError
  | g0 :: gs =>
      a1 <- getattr o g0 ;;
      match a1 with
      | VNone => Ok o
      | VArray 1 _ => fill_all filler a1 o gs
      | VArray 0 _ => Ok o
      | VArray _ _ => Err ValueError
      | _ => fill_all filler a1 o gs
      end
  end.
Fixpoint force_attribute_same_len_if_none (o : object) (groups : list (list string)) (filler : value) : result object :=
  match groups with [] => Ok o | g :: r => o' <- force_group filler o g ;; force_attribute_same_len_if_none o' r filler end.

(** check_attribute_PolyLines_have_same_x_limits :844-870 *)
Definition limits (x : value) : result (R * R) :=                                 (* [u.x[0], u.x[-1]] *)
  match x with
  | VPolyLine xs => match xs with [] => Err IndexError | a :: _ => Ok (a, List.last xs a) end
  | _ => Err AttributeError
  end.
Definition isclose (a b : R) : bool := Rleb (Rabs (a - b)) (1 / 10 ^ 8 + 1 / 10 ^ 5 * Rabs b).        (* np.allclose, default tolerances *)
Definition members (x : value) : list value := match x with VList l => l | x => [x] end.
Fixpoint first_defined (o : object) (vs : list string) : result (option value) :=                      (* :848-859 *)
  match vs with
  | [] => Ok None
  | v :: r => x <- getattr o v ;; if is_None x then first_defined o r else Ok (Some x)
  end.
Definition check_x_limits (o : object) (sublist : list string) : result unit :=
  f <- first_defined o sublist ;;
  xcheck <- match f with
            | None => Ok None
            | Some x => match members x with [] => Err IndexError | u :: _ => l <- limits u ;; Ok (Some l) end
            end ;;
  each (fun v => x <- getattr o v ;;                                                                   (* :861-869 *)
                 if is_None x then Ok tt
                 else each (fun u => l <- limits u ;;
                                     match xcheck with
                                     | Some (c0, c1) => if isclose (fst l) c0 && isclose (snd l) c1 then Ok tt else Err ValueError
                                     | None => Err UnboundLocalError
                                     end) (members x)) sublist.
Definition check_attribute_PolyLines_have_same_x_limits (o : object) (attributes : list (list string)) : result unit :=
  each (check_x_limits o) attributes.

(** ** check_input_attributes :1477-1525 *)
Definition check_input_attributes (cfg : setup) (o : object) : result object :=
  _ <- check_attribute_combinations o (zero_or_all cfg) (at_least_one cfg) (one_implies_others cfg) ;;
  o1 <- check_attribute_is_list o (should_be_lists cfg) true ;;
  o2 <- force_attribute_same_len_if_none o1 (force_same_len cfg) VNone ;;
  _ <- check_attribute_PolyLines_have_same_x_limits o2 (same_x_limits cfg) ;;
  _ <- check_attribute_pairs_have_equal_length o2 (same_len_pairs cfg) ;;
  Ok o2.

(** ** Construction from an input text :1248-1345.  [own] is the class's _attribute_defaults, [common]
    the common ones :1318-1330; [module] is what executing the text leaves in the module's
    dictionary (make_module_from_text) or the exception it raises. *)
Definition common_attributes : list string :=                                                       (* :1305-1311 *)
  ["plot_properties"; "save_data_to_file"; "prefix"; "directory"; "overwrite"; "create_directory"; "data_ext"; "input_ext"; "figure_ext";
   "save_figures_to_file"; "show_figures"; "author"; "version"; "title"].
Definition all_attributes (attrs : list string) : list string :=                                    (* :1335-1336 *)
  fold_left (fun l v => if existsb (String.eqb v) l then l else l ++ [v]) common_attributes attrs.
Definition construct (attrs : list string) (own common : dict) (start : object) (reader : option (result object)) : result object :=
  let attrs := all_attributes attrs in
  let defaults := copy_dict common own in                                                           (* :1338-1339 *)
  let o := initialize_attributes start attrs defaults VNone in                                      (* :1342-1345 *)
  match reader with
  | None => Ok o
  | Some m => md <- m ;;
              Ok (copy_attributes (fun k => match k with 0 => md | _ => o end) 0 1 attrs defaults VNone 1)   (* :1286-1293 *)
  end.
