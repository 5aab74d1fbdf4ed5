(** * Property C50: output file stems *)
From Coq Require Import List Ascii String ZArith Lia Bool.
From Verif Require Import Base StemModel SpecStem StemProofs.
Import ListNotations.
Open Scope Z_scope. Open Scope list_scope.

(** The stem is the prefix followed by the number one increment above the largest in use, or by
    [start] when no name in the folder is the prefix followed by a number. *)
Theorem C50_number : forall prefix names start inc zfill overwrite, 0 <= start -> 0 <= inc -> exists stem ds n,
  next_output_stem prefix (Some names) start inc zfill overwrite = Ok stem /\ stem = prefix ++ ds /\ written zfill ds n /\
  (none_numbered prefix names /\ n = start \/ exists m, largest prefix names m /\ n = if overwrite then m else m + inc).
Proof.
  intros prefix names start inc zfill ow Hs Hi. cbn [next_output_stem]. fold (nums prefix names).
  destruct (nums prefix names) as [|m r] eqn:E.
  - destruct (str_zfill_written zfill start Hs) as [W _]. do 3 eexists. split; [reflexivity|]. split; [reflexivity|]. split; [exact W|]. left. split; auto. apply nums_nil. auto.
  - assert (L := max_largest _ _ _ _ E). cbv zeta. set (mx := fold_left Z.max r m) in *. clearbody mx.
    assert (P : 0 <= mx). { destruct L as ((nm & _ & (ds & rest & _ & _ & Hd & _)) & _). apply decimal_nonneg in Hd. lia. }
    assert (Q : 0 <= (if ow then mx else mx + inc)) by (destruct ow; lia).
    destruct (str_zfill_written zfill _ Q) as [W _]. do 3 eexists. split; [reflexivity|]. split; [reflexivity|]. split; [exact W|]. right. exists mx. split; auto.
Qed.
(** No name in the folder begins with the stem: a file written under it overwrites nothing. *)
Theorem C50_fresh : forall prefix names start inc zfill stem, 0 <= start -> 1 <= inc ->
  next_output_stem prefix (Some names) start inc zfill false = Ok stem -> forall nm rest, In nm names -> nm <> stem ++ rest.
Proof.
  intros prefix names start inc zfill stem Hs Hi H nm rest Hin ->.
  destruct (C50_number prefix names start inc zfill false Hs ltac:(lia)) as (stem' & ds & n & E & -> & W & K). rewrite H in E. injection E as ->.
  assert (Hne : ds <> []). { destruct W as (W1 & W2 & W3). intros ->. destruct K as [(_ & K)|(m & L & K)].
    - revert H. cbn [next_output_stem]. fold (nums prefix names). destruct (nums prefix names) as [|m r] eqn:En; intros H; injection H as H; apply app_inv_head in H.
      + destruct (str_zfill_written zfill start Hs) as [_ Q]. contradiction.
      + assert (L := max_largest _ _ _ _ En). set (mx := fold_left Z.max r m) in *. clearbody mx. destruct L as ((nm & _ & (ds & rest' & _ & _ & Hd & _)) & _). apply decimal_nonneg in Hd.
        destruct (str_zfill_written zfill (mx + inc) ltac:(lia)) as [_ Q]. contradiction.
    - inversion W1; subst. destruct L as ((nm & _ & (ds & rest' & _ & _ & Hd & _)) & _). apply decimal_nonneg in Hd. lia. }
  destruct W as (W1 & _). destruct (extends prefix ds rest n Hne W1) as (m & Hm & Hle).
  rewrite <- app_assoc in Hin. destruct K as [(N & _)|(mx & L & K)]; [exact (N _ _ Hin Hm)|]. assert (Q := proj2 L _ _ Hin Hm). lia.
Qed.
(** Histories: however the folder grows between the calls, if every run writes at least one file
    under its stem no stem is ever given twice. *)
Inductive history (prefix : text) (start inc : Z) (zfill : nat) : list text -> list text -> Prop :=
| H_start names : history prefix start inc zfill names []
| H_other names stems more : history prefix start inc zfill names stems -> history prefix start inc zfill (more ++ names) stems
| H_run names stems stem suffix : history prefix start inc zfill names stems ->
    next_output_stem prefix (Some names) start inc zfill false = Ok stem ->
    history prefix start inc zfill ((stem ++ suffix) :: names) (stem :: stems).
Theorem C50_history : forall prefix start inc zfill names stems, 0 <= start -> 1 <= inc ->
  history prefix start inc zfill names stems -> NoDup stems /\ forall s, In s stems -> exists suffix, In (s ++ suffix) names.
Proof.
  intros prefix start inc zfill names stems Hs Hi H. induction H as [names|names stems more H [IH1 IH2]|names stems stem suffix H [IH1 IH2] Hr].
  - split; [constructor|intros s []].
  - split; auto. intros s Hin. destruct (IH2 s Hin) as (x & Hx). exists x. apply in_or_app. auto.
  - split.
    + constructor; auto. intros Hin. destruct (IH2 _ Hin) as (x & Hx). exact (C50_fresh _ _ _ _ _ _ Hs Hi Hr _ x Hx eq_refl).
    + intros s [<-|Hin]; [exists suffix; left; auto|]. destruct (IH2 s Hin) as (x & Hx). exists x. right. auto.
Qed.
Theorem C50_missing_folder : forall prefix start inc zfill overwrite, next_output_stem prefix None start inc zfill overwrite = Err ValueError.
Proof. reflexivity. Qed.

Definition t (s : string) : text := list_ascii_of_string s.
(** overwrite=True gives the highest number, but not necessarily the existing name: with another
    padding the old files stay. *)
Theorem C50_overwrite_refuted : exists prefix names zfill stem m, largest prefix names m /\
  next_output_stem prefix (Some names) 1 1 zfill true = Ok stem /\ forall nm rest, In nm names -> nm <> stem ++ rest.
Proof.
  exists (t "out"), [t "out5.csv"], 3%nat, (t "out005"), 5. split; [|split; [reflexivity|intros nm rest [<-|[]]; discriminate]].
  split.
  - exists (t "out5.csv"). split; [left; auto|]. apply match_number_spec. reflexivity.
  - intros nm m [<-|[]] H. apply match_number_spec in H. change (match_number (t "out") (t "out5.csv")) with (Some 5) in H. injection H as <-. lia.
Qed.
(** With increment 0 the stem is taken. *)
Theorem C50_increment_zero_refuted : exists prefix names stem, next_output_stem prefix (Some names) 1 0 3 false = Ok stem /\ exists nm rest, In nm names /\ nm = stem ++ rest.
Proof. exists (t "out"), [t "out005.csv"], (t "out005"). split; [reflexivity|]. exists (t "out005.csv"), (t ".csv"). split; [left|]; reflexivity. Qed.
Example stem_mixed : next_output_stem (t "out") (Some [t "out007.csv"; t "out12_a.png"; t "outlier.txt"; t "readme"]) 1 1 3 false = Ok (t "out013").
Proof. reflexivity. Qed.
Example stem_first : next_output_stem (t "out") (Some [t "outlier.txt"]) 1 1 3 false = Ok (t "out001").
Proof. reflexivity. Qed.
Example stem_long : next_output_stem (t "out") (Some [t "out999.csv"]) 1 1 3 false = Ok (t "out1000").
Proof. reflexivity. Qed.
Example history_two : history (t "o") 1 1 3 [t "o002.csv"; t "o001.csv"] [t "o002"; t "o001"].
Proof.
  apply (H_run _ _ _ _ [t "o001.csv"] [t "o001"] (t "o002") (t ".csv")); [|reflexivity].
  apply (H_run _ _ _ _ [] [] (t "o001") (t ".csv")); [constructor|reflexivity].
Qed.
Print Assumptions C50_number.
Print Assumptions C50_fresh.
Print Assumptions C50_history.
