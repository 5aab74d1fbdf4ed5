(** * C59: nested integral transforms *)
From Coq Require Import List String Bool Arith Reals Lia Lra.
From Verif Require Import Base NTransformModel SpecNTransform.
Import ListNotations.
Open Scope R_scope.
Local Open Scope list_scope.

Section C59.
Variable V opts_ : Type.
Variable no_opts : opts_.
Variable tdict : string -> option (V -> list V -> opts_ -> strategy V).
Variable func : list V -> result V.
Notation opt := (opt V opts_).

Lemma worst_nonneg es : 0 <= worst es.
Proof. induction es as [|e es IH]; cbn; [lra|]. eapply Rle_trans; [exact IH|apply Rmax_r]. Qed.
Lemma worst_app a b : worst (a ++ b) = Rmax (worst a) (worst b).
Proof.
  induction a as [|e a IH]; cbn [app worst fold_right]; [|fold (worst (a ++ b)) (worst a); rewrite IH; apply Rmax_assoc].
  fold (worst b). rewrite Rmax_right; [reflexivity|apply worst_nonneg].
Qed.
(** a transform runs as its outcome says, the largest error so far being kept *)
Lemma play_outcome (t : strategy V) (f : V -> R -> result (V * R)) (g : V -> option (V * list R)) :
  (forall x a, 0 <= a -> match f x a, g x with Ok (y, a'), Some (y', es) => y = y' /\ a' = Rmax a (worst es) | Err _, None => True | _, _ => False end) ->
  forall a, 0 <= a -> match play V t f a, outcome t g with Ok ((v, e), a'), Some (v', es) => v = v' /\ Rmax a' (Rabs e) = Rmax a (worst es) | Err _, None => True | _, _ => False end.
Proof.
  intros H. induction t as [v e|ex|x k IH]; intros a Ha; cbn [play outcome]; auto.
  - split; [reflexivity|]. cbn. f_equal. rewrite Rmax_left; [reflexivity|apply Rabs_pos].
  - assert (Q := H x a Ha). destruct (f x a) as [[y a1]|], (g x) as [[y' es]|]; try contradiction; cbn [bind fst snd]; auto. destruct Q as [<- ->].
    assert (A1 : 0 <= Rmax a (worst es)) by (eapply Rle_trans; [exact Ha|apply Rmax_l]). specialize (IH y _ A1). destruct (play V (k y) f (Rmax a (worst es))) as [[[v e] a2]|], (outcome (k y) g) as [[v' es']|]; try contradiction; auto.
    destruct IH as [-> ->]. split; [reflexivity|]. rewrite worst_app, Rmax_assoc. reflexivity.
Qed.
Definition known (l : string * V * option opt) : Prop := (exists t, tdict (fst (fst l)) = Some t) /\ snd l <> None.
Definition behaviour (l : string * V * option opt) (args : list V) : strategy V :=
  match tdict (fst (fst l)), snd l with
  | Some t, Some o => t (snd (fst l)) args (match o with ODict _ _ d => d | OFun _ _ f => f args end)
  | _, _ => Raise V KeyError
  end.
Lemma integral_spec levels : levels <> [] -> List.Forall known levels -> forall args a, 0 <= a ->
  match integral_transform V opts_ tdict func levels args a, iterated func (map behaviour levels) args with
  | Ok (v, a'), Some (v', es) => v = v' /\ a' = Rmax a (worst es) | Err _, None => True | _, _ => False end.
Proof.
  induction levels as [|[[name tvar] o] rest IH]; [congruence|]. intros _ K args a Ha. inversion K as [|? ? [(t & Et) No] K2]; subst. cbn [fst snd] in *. destruct o as [o|]; [|congruence].
  cbn [integral_transform map iterated]. assert (B : behaviour (name, tvar, Some o) args = t tvar args (call_opt V opts_ o args)) by (unfold behaviour; cbn [fst snd]; rewrite Et; destruct o; reflexivity). rewrite B, Et.
  set (f := match rest with [] => _ | _ => _ end).
  assert (P := play_outcome (t tvar args (call_opt V opts_ o args)) f (fun x => iterated func (map behaviour rest) (x :: args))).
  specialize (fun H => P H a Ha).
  destruct (play V (t tvar args (call_opt V opts_ o args)) f a) as [[[v e] a']|ex] eqn:EP; cbn [bind fst snd]; apply P; clear P; intros x b Hb; unfold f; (destruct rest as [|l rest]; [cbn [map iterated]; destruct (func (x :: args)); cbn [bind]; auto; split; [reflexivity|cbn; symmetry; apply Rmax_left, Hb]|apply IH; auto; discriminate]).
Qed.

(** The value is that of the transforms nested in the given order - the first one innermost, acting
    on the first argument of the function - and abserr is the largest error estimate any of them
    made; an exception exactly when something in the nest raises.  Options: none, or one (dictionary
    or function of the arguments) per transform. *)
Definition options (depth : nat) (opts : opts_arg V opts_) : option (list opt) :=
  match opts with ONone _ _ => Some (repeat (ODict V opts_ no_opts) depth) | OMany _ _ l => if (List.length l =? depth)%nat then Some l else None | OOne _ _ _ => None end.
Theorem C59_nested : forall transforms transvars args opts l, transforms <> [] -> List.length transvars = List.length transforms ->
  (forall name, In name transforms -> exists t, tdict name = Some t) -> options (List.length transforms) opts = Some l ->
  let levels := map (fun p args => match tdict (fst (fst p)) with
                                   | Some t => t (snd (fst p)) args (match snd p with ODict _ _ d => d | OFun _ _ f => f args end)
                                   | None => Raise V KeyError end) (combine (combine transforms transvars) l) in
  match ntransform V opts_ no_opts tdict func transforms transvars args opts, iterated func (rev levels) args with
  | Ok (v, e), Some (v', es) => v = v' /\ e = worst es
  | Err _, None => True
  | _, _ => False
  end.
Proof.
  intros transforms transvars args opts l NE L K O levels. unfold ntransform. rewrite L, Nat.eqb_refl. cbn [negb].
  set (os := match opts with ONone _ _ => _ | OOne _ _ _ => _ | OMany _ _ _ => _ end).
  assert (Eo : os = map Some l /\ List.length l = List.length transforms).
  { unfold os. destruct opts as [|d|k]; cbn [options] in O; [|discriminate|].
    - injection O as <-. rewrite repeat_length. split; [|reflexivity]. generalize (List.length transforms) as n. induction n as [|n IH]; cbn; congruence.
    - destruct (List.length k =? List.length transforms)%nat eqn:E; [|discriminate]. injection O as <-. apply Nat.eqb_eq in E. auto. }
  destruct Eo as [-> Ll]. rewrite map_length, Ll, Nat.ltb_irrefl, Nat.sub_diag. cbn [skipn].
  set (lv := combine (combine transforms transvars) (map Some l)).
  assert (LV : lv <> []) by (unfold lv; destruct transforms as [|? ?]; [congruence|]; destruct transvars; [discriminate L|]; destruct l; [discriminate Ll|]; discriminate).
  assert (KV : List.Forall known lv).
  { apply Forall_forall. intros [[n tv] o] Hin. unfold lv in Hin. split; cbn [fst snd].
    - apply K. apply in_combine_l in Hin. apply in_combine_l in Hin. exact Hin.
    - apply in_combine_r in Hin. apply in_map_iff in Hin. destruct Hin as (q & <- & _). discriminate. }
  assert (EB : map behaviour lv = levels).
  { unfold lv, levels. clear. generalize (combine transforms transvars) as tv. intros tv. revert l. induction tv as [|[n v] tv IH]; intros [|o l]; try reflexivity. cbn [combine map]. rewrite IH. f_equal. }
  assert (Q := integral_spec (rev lv)). rewrite map_rev, EB in Q. assert (NR : rev lv <> []) by (intros E; apply LV; rewrite <- (rev_involutive lv), E; reflexivity).
  specialize (Q NR (Forall_rev KV) args 0 (Rle_refl 0)). destruct (integral_transform V opts_ tdict func (rev lv) args 0) as [[v e]|ex], (iterated func (rev levels) args) as [[v' es]|]; auto. destruct Q as [-> ->]. split; [reflexivity|]. apply Rmax_right, worst_nonneg.
Qed.
(** Mismatched lengths are refused before anything is evaluated. *)
Theorem C59_lengths : forall transforms transvars args opts, List.length transvars <> List.length transforms ->
  exists e, ntransform V opts_ no_opts tdict func transforms transvars args opts = Err e.
Proof. intros. unfold ntransform. apply Nat.eqb_neq in H. rewrite H. eexists. reflexivity. Qed.
(** One dictionary for all transforms, as documented, always fails. *)
Theorem C59_one_dict_refuted : forall transforms transvars args d, List.length transvars = List.length transforms -> (forall name, In name transforms -> exists t, tdict name = Some t) -> transforms <> [] ->
  ntransform V opts_ no_opts tdict func transforms transvars args (OOne V opts_ d) = Err TypeError.
Proof.
  intros transforms transvars args d L K NE. unfold ntransform. rewrite L, Nat.eqb_refl, repeat_length, Nat.ltb_irrefl, Nat.sub_diag. cbn [negb skipn].
  assert (Q : exists lv name tv, rev (combine (combine transforms transvars) (repeat (@None opt) (List.length transforms))) = (name, tv, None) :: lv /\ In name transforms).
  { assert (A : forall l : list (string * V * option opt), l <> [] -> (forall x, In x l -> snd x = None /\ In (fst (fst x)) transforms) -> exists lv name tv, rev l = (name, tv, None) :: lv /\ In name transforms).
    { intros l Nl H. destruct (rev l) as [|[[n tv] o] lv] eqn:E; [exfalso; apply Nl; rewrite <- (rev_involutive l), E; reflexivity|]. destruct (H (n, tv, o)) as [H1 H2]; [apply in_rev; rewrite E; left; reflexivity|]. cbn in H1, H2. subst o. eauto 6. }
    apply A.
    - destruct transforms as [|? ?]; [congruence|]. destruct transvars; [discriminate L|]. discriminate.
    - intros [[n tv] o] H. split; [apply in_combine_r in H; apply repeat_spec in H; exact H|apply in_combine_l in H; apply in_combine_l in H; exact H]. }
  destruct Q as (lv & name & tv & -> & In_). cbn [integral_transform]. destruct (K name In_) as (t & ->). reflexivity.
Qed.
End C59.

(** Two transforms: "Double" (asks at 1 and 2 and adds) inside "Square" (asks at its variable). *)
Definition demo_dict (s : string) : option (R -> list R -> unit -> strategy R) :=
  if String.eqb s "Double" then Some (fun _ _ _ => Ask R 1 (fun a => Ask R 2 (fun b => Done R (a + b) (1 / 10))))
  else if String.eqb s "Square" then Some (fun tv _ _ => Ask R tv (fun a => Done R (a * a) (- (1 / 5)))) else None.
Example demo : ntransform R unit tt demo_dict (fun l => match l with [x; y; c] => Ok (x * y + c) | _ => Err TypeError end) ["Double"; "Square"]%string [7; 3] [10] (ONone R unit) = Ok ((1 * 3 + 10 + (2 * 3 + 10)) * (1 * 3 + 10 + (2 * 3 + 10)), Rmax (Rmax 0 (Rabs (1 / 10))) (Rabs (- (1 / 5)))).
Proof.
  reflexivity.
Qed.
Print Assumptions C59_nested.
Print Assumptions C59_one_dict_refuted.
