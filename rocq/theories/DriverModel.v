(** * Model of working_directory and GenericInputFileArgParser.process/main (inputoutput.py :1945-2138)

    The machine: the current directory, the level of the root logger and everything else (files,
    memory, ...) of an arbitrary type.  User code (the constructed object and its methods) is
    arbitrary: it may change all of it and end normally, raise an Exception, or raise a
    BaseException that is not an Exception (KeyboardInterrupt, SystemExit).  Paths are lists of
    names, absolute or not; [..], links and drives are not modelled.  The time strings in the log
    are left out. *)
From Coq Require Import List String ZArith Bool.
Import ListNotations.

Record path := mkPath { absolute : bool; parts : list string }.
(** os.path.dirname :2095, os.path.abspath :2053, :2061, os.path.join :2053 *)
Definition dirname (p : path) : path := mkPath (absolute p) (removelast (parts p)).
Definition abspath (cwd : list string) (p : path) : path := mkPath true (if absolute p then parts p else cwd ++ parts p).
Definition join (p : path) (v : string) : path := mkPath (absolute p) (parts p ++ [v]).

Inductive outcome := Done | Raised (e : nat) | RaisedBase (e : nat).
Definition os_error := 0.

Section Driver.
Variable rest_of_world : Type.
Variable isdir : rest_of_world -> list string -> bool.       (* os.path.isdir of an absolute path *)

Record world := mkWorld { cwd : list string; level : Z; rest : rest_of_world }.
Definition action := world -> world * outcome.

(** os.chdir: '' and what is not a directory raise OSError *)
Definition chdir (p : path) : action := fun w =>
  let target := parts (abspath (cwd w) p) in
  if (match p with mkPath false [] => true | _ => false end) || negb (isdir (rest w) target)
  then (w, Raised os_error) else (mkWorld target (level w) (rest w), Done).

(** What can be seen from outside: which file is taken up, in which directory the user code is
    started, what it opens, which methods are called, which problems are reported. *)
Inductive event :=
| ELog_start | ELog_end | EFile (f : path) | EProblem (f : path)
| EOpen (f : path) | EClose (f : path) | EConstruct (f : path) (where_ : list string) | ECall (m : string) (f : path).
Definition logged := world -> world * list event * outcome.

(** working_directory(path) :2114-2138 around a body *)
Definition working_directory (p : path) (body : logged) : logged := fun w =>
  if negb (isdir (rest w) (cwd w)) then (w, [], Raised os_error)             (* os.getcwd() :2133 *)
  else match chdir p w with                                                  (* :2134 *)
       | (w1, Done) =>
           let '(w2, tr, o) := body w1 in                                    (* :2135-2136 *)
           match chdir (mkPath true (cwd w)) w2 with                         (* finally :2137-2138 *)
           | (w3, Done) => (w3, tr, o)
           | (w3, e) => (w3, tr, e)
           end
       | (w1, e) => (w1, [], e)
       end.

(** GenericInputFileArgParser: obj, methods (name with its arguments) and pass_open_file *)
Variable open_ : path -> action.                    (* open(path,'r') :1965 *)
Variable obj : path -> action.                      (* self.obj(...) *)
Variable method : string -> path -> action.         (* getattr(a, s)( *args, **kwargs) *)

Fixpoint call_methods (ms : list string) (f : path) : logged := fun w =>                 (* :1970-1971 *)
  match ms with
  | [] => (w, [], Done)
  | m :: r =>
      match method m f w with
      | (w1, Done) => let '(w2, tr, o) := call_methods r f w1 in (w2, ECall m f :: tr, o)
      | (w1, e) => (w1, [ECall m f], e)
      end
  end.
Definition process (pass_open_file : bool) (ms : list string) (f : path) : logged := fun w =>   (* :1945-1971 *)
  let '(w1, tr1, o1) :=
    if pass_open_file then
      match open_ f w with
      | (w1, Done) => let (w2, o) := obj f w1 in (w2, [EOpen f; EConstruct f (cwd w1); EClose f], o)
      | (w1, e) => (w1, [], e)
      end
    else let (w2, o) := obj f w in (w2, [EConstruct f (cwd w)], o) in
  match o1 with
  | Done => let '(w2, tr2, o2) := call_methods ms f w1 in (w2, tr1 ++ tr2, o2)
  | e => (w1, tr1, e)
  end.

(** the loop over the files :2075-2103 *)
Fixpoint loop (run : path -> logged) (files : list path) : logged := fun w =>
  match files with
  | [] => (w, [], Done)
  | f :: r =>
      let '(w1, tr, o) := working_directory (dirname f) (run f) w in
      match o with
      | RaisedBase e => (w1, EFile f :: tr, RaisedBase e)                    (* not caught by except Exception *)
      | _ => let problem := match o with Raised _ => [EProblem f] | _ => [] end in
             let '(w2, tr2, o2) := loop run r w1 in (w2, EFile f :: tr ++ problem ++ tr2, o2)
      end
  end.
Definition INFO : Z := 20.
Definition set_level (l : Z) (w : world) : world := mkWorld (cwd w) l (rest w).
Definition run_files (run : path -> logged) (files : list path) : logged := fun w =>      (* :2070-2106 *)
  let '(w1, tr, o) := loop run files (set_level INFO w) in
  match o with
  | Done => (set_level (level w) w1, ELog_start :: tr ++ [ELog_end], Done)
  | e => (w1, ELog_start :: tr, e)
  end.

(** The parsed command line :2003-2029 and the choice of the files :2033-2068.  fnmatch is
    [matches]; parser.error exits. *)
Record args := mkArgs { filename : option (list path); directory : option (list path); pattern : option string }.
Inductive selection := Files (l : list path) | UsageError | NoFiles | Nothing.
Variable listdir : list string -> list string.
Variable matches : string -> string -> bool.
Variable dialog : option (list path).                 (* get_filepaths :2065 *)
Definition present {A} (o : option A) : bool := match o with Some _ => true | None => false end.
Definition own_name : string := "inputoutput.py".     (* os.path.basename(__file__) *)
Definition select (a : args) (w : world) : selection :=
  if xorb (present (pattern a)) (present (directory a)) then UsageError                    (* :2033-2034 *)
  else if present (filename a) && present (directory a) then UsageError                    (* :2037-2040 *)
  else match directory a, pattern a with
       | Some ds, Some p =>
           let ds := match ds with [] => [mkPath true (cwd w)] | _ => ds end in            (* :2043 *)
           if negb (forallb (fun d => isdir (rest w) (parts (abspath (cwd w) d))) ds) then UsageError   (* :2049-2051 *)
           else let files := flat_map (fun d => map (join (abspath (cwd w) d))
                        (filter (fun v => negb (String.eqb v own_name)) (filter (matches p) (listdir (parts (abspath (cwd w) d)))))) ds in
                match files with [] => NoFiles | _ => Files files end                      (* :2053-2058 *)
       | _, _ =>
           match filename a with
           | Some fs => Files (map (abspath (cwd w)) fs)                                   (* :2060-2061 *)
           | None => match dialog with Some fs => Files fs | None => Nothing end           (* :2065-2068 *)
           end
       end.
Definition main (pass_open_file : bool) (ms : list string) (a : args) : world -> world * list event * (selection * outcome) := fun w =>
  match select a w with
  | Files fs => let '(w1, tr, o) := run_files (process pass_open_file ms) fs w in (w1, tr, (Files fs, o))
  | s => (w, [], (s, Done))
  end.
End Driver.
