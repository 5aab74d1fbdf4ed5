(** * Model of writing results (inputoutput.py :1347-1448, :1707-1746, :1752-1853)

    Paths are lists of components, the last one first; [] is the current directory.  A directory
    given as a text is one such path; file stems and names contain no separator.  open(...,'w') and
    mkdir fail only when the parent is not a directory or the entry is in the way. *)
From Coq Require Import List Ascii String Bool Arith ZArith.
From Verif Require Import Base StemModel.
Import ListNotations.
Local Open Scope list_scope.

Definition path := list text.
Definition eqt (a b : text) : bool := if list_eq_dec ascii_dec a b then true else false.
Definition eqp (a b : path) : bool := if list_eq_dec (list_eq_dec ascii_dec) a b then true else false.

(** ** values found in the dictionaries: None, a string, a reference to another dictionary, anything
    else (tables, label lists) by identity *)
Inductive pv := PNone | PText (t : text) | PDict (r : nat) | PObj (id : nat).
Definition pdict := list (string * pv).
Fixpoint find (d : pdict) (k : string) : option pv := match d with [] => None | (k', v) :: r => if String.eqb k' k then Some v else find r k end.
Definition del (d : pdict) (k : string) : pdict := filter (fun e => negb (String.eqb (fst e) k)) d.
Definition set (d : pdict) (k : string) (v : pv) : pdict := (k, v) :: del d k.
Definition heap := nat -> pdict.
Definition upd (h : heap) (r : nat) (d : pdict) : heap := fun x => if Nat.eqb x r then d else h x.
Definition or_default (v : option pv) (d : pv) : pv := match v with Some v => v | None => d end.

(** ** the file system *)
Inductive content := CText (t : text) | CTable (header : option text) (data columns rows label : pv) (kwargs : pdict) | CFigure (id : nat).
Inductive node := Dir | File (c : content).
Definition fs := list (path * node).
Definition at_ (f : fs) (p : path) : option node := match List.find (fun e => eqp (fst e) p) f with Some e => Some (snd e) | None => None end.
Definition isdir (f : fs) (p : path) : bool := match p with [] => true | _ => match at_ f p with Some Dir => true | _ => false end end.
Definition listdir (f : fs) (p : path) : list text := flat_map (fun e => match fst e with [] => [] | n :: q => if eqp q p then [n] else [] end) f.
Definition mkdir (f : fs) (p : path) : result fs :=
  match p with [] => Err OSError | _ :: q => if isdir f q then match at_ f p with None => Ok ((p, Dir) :: f) | Some _ => Err OSError end else Err OSError end.
Definition write (f : fs) (p : path) (c : content) : result fs :=
  match p with [] => Err OSError | _ :: q => if isdir f q && negb (isdir f p) then Ok ((p, File c) :: filter (fun e => negb (eqp (fst e) p)) f) else Err OSError end.

Section Save.
Variable str : pv -> text.                                   (* str(name) *)
Variable frame_ok : pv -> pv -> pv -> pv -> result unit.     (* make_array_into_dataframe :1734-1746: pandas may refuse the labels *)

(** ** save_grid_data_to_file :1752-1853 *)
Definition keys : list string := ["data"; "name"; "row_labels"; "row_labels_label"; "column_labels"; "header"; "df_kwargs"]%string.
Definition save_one (dirname : path) (file_stem ext : text) (hf : heap * fs) (r : nat) : result (heap * fs) :=
  let (h, f) := hf in
  let d := h r in
  let data := or_default (find d "data") PNone in                                          (* :1834-1840 *)
  let name := or_default (find d "name") (PText []) in
  let row_labels := or_default (find d "row_labels") PNone in
  let row_labels_label := or_default (find d "row_labels_label") (PText ["i"; "t"; "e"; "m"]%char) in
  let column_labels := or_default (find d "column_labels") PNone in
  let header := or_default (find d "header") PNone in
  let df_kwargs := find d "df_kwargs" in
  let h1 := upd h r (fold_left del keys d) in
  match data with
  | PNone => Ok (h1, f)                                                                    (* :1842-1843 *)
  | _ =>
      _ <- frame_ok data column_labels row_labels row_labels_label ;;                      (* :1844-1846 *)
      let idex := PText ["i"; "d"; "e"; "x"]%char in
      hk <- match df_kwargs with                                                           (* :1848 *)
            | None => Ok (h1, [("index_label"%string, idex)])
            | Some (PDict k) => let kw := set (h1 k) "index_label" idex in Ok (upd h1 k kw, kw)
            | Some _ => Err TypeError
            end ;;
      let filename := (file_stem ++ str name ++ ext) :: dirname in                         (* :1849 *)
      match header with
      | PNone => f' <- write f filename (CTable None data column_labels row_labels row_labels_label (snd hk)) ;; Ok (fst hk, f')
      | PText t => f' <- write f filename (CTable (Some t) data column_labels row_labels row_labels_label (snd hk)) ;; Ok (fst hk, f')
      | _ => Err TypeError                                                                 (* header+'\n' *)
      end
  end.
Fixpoint save_each (dirname : path) (file_stem ext : text) (hf : heap * fs) (refs : list nat) : result (heap * fs) :=
  match refs with [] => Ok hf | r :: rs => hf' <- save_one dirname file_stem ext hf r ;; save_each dirname file_stem ext hf' rs end.
(** data_dicts is already a list of dictionaries (:1809-1817) *)
Definition save_grid_data_to_file (hf : heap * fs) (data_dicts : list nat) (directory : option path) (file_stem : text) (create_directory : bool) (ext : text) : result (heap * fs) :=
  match data_dicts with
  | [] => Ok hf                                                                            (* :1812-1813 *)
  | _ =>
      let directory := match directory with None => [] | Some d => d end in                (* :1819-1820 *)
      f1 <- (if isdir (snd hf) directory then Ok (snd hf) else mkdir (snd hf) directory) ;;    (* :1821-1822 *)
      if create_directory                                                                  (* :1825-1830 *)
      then let dirname := file_stem :: directory in
           f2 <- (if isdir f1 dirname then Ok f1 else mkdir f1 dirname) ;;
           save_each dirname file_stem ext (fst hf, f2) data_dicts
      else save_each directory file_stem ext (fst hf, f1) data_dicts
  end.

(** ** The object that saves: the attributes that matter (getattr with default where absent).
    prefix, directory and overwrite may be absent or None; the others are used as found. *)
Record saver := mkSaver {
  prefix : option text; directory : option path; overwrite : option bool; create_directory : bool;
  save_data_to_file : bool; save_figures_to_file : bool;
  input_text : option text; parsed_text : option text;     (* _input_text; string_of_object_attributes when _attributes is there *)
  input_ext : text; data_ext : text; figure_ext : text;
  grid_data_dicts : option (list nat) }.
(** _file_stem: the directory part and the last component *)
Definition stem := (path * text)%type.

(** _determine_output_stem :1347-1372 *)
Definition determine_output_stem (o : saver) (f : fs) : result (stem * fs) :=
  let prefix := match prefix o with None => ["o"; "u"; "t"]%char | Some p => p end in
  let directory := match directory o with None => [] | Some d => d end in
  let overwrite := match overwrite o with None => false | Some b => b end in
  s <- next_output_stem prefix (if isdir f directory then Some (listdir f directory) else None) 1 1 4 overwrite ;;       (* :1359-1361 *)
  let st := if create_directory o then (s :: directory, s) else (directory, s) in                                       (* :1363-1370 *)
  f' <- (if isdir f (fst st) then Ok f else mkdir f (fst st)) ;;                                                         (* :1371-1372 *)
  Ok (st, f').
Definition ensure_stem (o : saver) (st : option stem) (f : fs) : result (stem * fs) :=
  match st with Some s => Ok (s, f) | None => determine_output_stem o f end.

(** _save_data :1413-1446 *)
Definition t_ (s : string) : text := list_ascii_of_string s.
Definition save_data (o : saver) (st : option stem) (hf : heap * fs) : result (option stem * (heap * fs)) :=
  if negb (save_data_to_file o) then Ok (st, hf)
  else
    sf <- ensure_stem o st (snd hf) ;;
    let '((dir, s), f) := sf in
    f1 <- match input_text o with None => Ok f | Some t => write f ((s ++ t_ "_input_original" ++ input_ext o) :: dir) (CText t) end ;;
    f2 <- match parsed_text o with None => Ok f1 | Some t => write f1 ((s ++ t_ "_input_parsed" ++ input_ext o) :: dir) (CText t) end ;;
    hf' <- match grid_data_dicts o with None => Ok (fst hf, f2) | Some l => save_grid_data_to_file (fst hf, f2) l (Some dir) s false (data_ext o) end ;;
    Ok (Some (dir, s), hf').

(** _save_figures :1374-1411.  Figures are known by identity; [label] is fig.get_label().
    :1404 loops over self._figures, not over the list made at :1392-1395. *)
Variable label : nat -> text.
Inductive figures := NoFigures | OneFigure (id : nat) | Figures (l : list nat).
Fixpoint save_figs (dir : path) (s ext : text) (i : Z) (l : list nat) (f : fs) : result fs :=
  match l with
  | [] => Ok f
  | id :: r => let figname := match label id with [] => t_ "Figure_" ++ str_zfill 2 i | lb => lb end in
               f' <- write f ((s ++ t_ "_" ++ figname ++ ext) :: dir) (CFigure id) ;;
               save_figs dir s ext (i + 1)%Z r f'
  end.
Definition save_figures (o : saver) (figs : figures) (st : option stem) (f : fs) : result (option stem * fs) :=
  if negb (save_figures_to_file o) then Ok (st, f)
  else match figs with
       | NoFigures => Ok (st, f)
       | _ => sf <- ensure_stem o st f ;;
              let '((dir, s), f1) := sf in
              match figs with
              | Figures l => f2 <- save_figs dir s (figure_ext o) 0 l f1 ;; Ok (Some (dir, s), f2)
              | _ => Err TypeError
              end
       end.
End Save.
