(** * Vocabulary for C58 and C92 *)
From Coq Require Import List String Bool.
From Verif Require Import Base StemModel SaveModel.
Import ListNotations.

(** the file p holds c *)
Definition holds (f : fs) (p : path) (c : content) : Prop := at_ f p = Some (File c).
(** every entry lies in a directory *)
Definition tree (f : fs) : Prop := forall n q, at_ f (n :: q) <> None -> isdir f q = true.
(** files of f are all still there and unchanged *)
Definition nothing_lost (f f' : fs) : Prop := forall p c, holds f p c -> holds f' p c.
(** a dictionary with something to save *)
Definition has_data (d : pdict) : Prop := exists v, find d "data" = Some v /\ v <> PNone.
Definition entry (d : pdict) (k : string) (v : pv) : pv := match find d k with Some x => x | None => v end.
(** the options used for a dictionary: its df_kwargs with index_label="idex" *)
Definition options_of (h : heap) (d : pdict) (kw : pdict) : Prop :=
  find kw "index_label" = Some (PText (t_ "idex")) /\
  forall k, k <> "index_label"%string -> find kw k = match find d "df_kwargs" with Some (PDict r) => find (h r) k | _ => None end.
(** what the file of a dictionary shows *)
Definition table_of (h : heap) (d : pdict) (c : content) : Prop :=
  exists header kw, c = CTable header (entry d "data" PNone) (entry d "column_labels" PNone) (entry d "row_labels" PNone) (entry d "row_labels_label" (PText (t_ "item"))) kw /\
    (match entry d "header" PNone with PNone => header = None | PText t => header = Some t | _ => False end) /\ options_of h d kw.
