(** * Proofs about saving *)
From Coq Require Import List Ascii String Bool Arith ZArith Lia.
From Verif Require Import Base StemModel SpecStem StemProofs PropsStem SaveModel SpecSave.
Import ListNotations.
Local Open Scope list_scope.

Lemma eqp_true a b : eqp a b = true <-> a = b.
Proof. unfold eqp. destruct (list_eq_dec (list_eq_dec ascii_dec) a b); split; congruence. Qed.
Lemma eqp_false a b : eqp a b = false <-> a <> b.
Proof. unfold eqp. destruct (list_eq_dec (list_eq_dec ascii_dec) a b); split; congruence. Qed.
Lemma eqp_refl a : eqp a a = true. Proof. apply eqp_true. reflexivity. Qed.
Lemma at_cons e f p : at_ (e :: f) p = if eqp (fst e) p then Some (snd e) else at_ f p.
Proof. unfold at_. cbn [List.find]. destruct (eqp (fst e) p); reflexivity. Qed.
Lemma at_filter f p q : p <> q -> at_ (filter (fun e => negb (eqp (fst e) p)) f) q = at_ f q.
Proof.
  intros N. induction f as [|e f IH]; [reflexivity|]. cbn [filter]. rewrite at_cons. destruct (eqp (fst e) p) eqn:E; cbn [negb].
  - apply eqp_true in E. rewrite IH. destruct (eqp (fst e) q) eqn:E2; [apply eqp_true in E2; congruence|reflexivity].
  - rewrite at_cons, IH. reflexivity.
Qed.
Lemma write_spec f p c f' : write f p c = Ok f' -> at_ f' p = Some (File c) /\ (forall q, q <> p -> at_ f' q = at_ f q) /\ isdir f p = false /\ exists n q, p = n :: q /\ isdir f q = true.
Proof.
  unfold write. destruct p as [|n q]; [discriminate|]. destruct (isdir f q) eqn:E1; [|discriminate]. destruct (isdir f (n :: q)) eqn:E2; [discriminate|]. cbn [negb andb]. intros H. injection H as <-.
  split; [rewrite at_cons; cbn [fst snd]; rewrite eqp_refl; reflexivity|]. split; [|split; [reflexivity|eauto]].
  intros r N. rewrite at_cons. cbn [fst snd]. destruct (eqp (n :: q) r) eqn:E; [apply eqp_true in E; congruence|]. apply at_filter. congruence.
Qed.
Lemma mkdir_spec f p f' : mkdir f p = Ok f' -> at_ f p = None /\ at_ f' p = Some Dir /\ (forall q, q <> p -> at_ f' q = at_ f q).
Proof.
  unfold mkdir. destruct p as [|n q]; [discriminate|]. destruct (isdir f q); [|discriminate]. destruct (at_ f (n :: q)) eqn:E; [discriminate|]. intros H. injection H as <-. split; [auto|]. split.
  - rewrite at_cons. cbn [fst snd]. rewrite eqp_refl. reflexivity.
  - intros r N. rewrite at_cons. cbn [fst snd]. destruct (eqp (n :: q) r) eqn:E2; [apply eqp_true in E2; congruence|reflexivity].
Qed.
Lemma isdir_same f f' p : at_ f' p = at_ f p -> isdir f' p = isdir f p.
Proof. intros E. unfold isdir. rewrite E. reflexivity. Qed.
(** writing a file keeps every directory and every other file *)
Lemma write_dirs f p c f' q : write f p c = Ok f' -> isdir f' q = isdir f q.
Proof.
  intros H. destruct (write_spec f p c f' H) as (A & B & D & _). destruct (eqp q p) eqn:E; [apply eqp_true in E; subst q; rewrite D|apply eqp_false in E; apply isdir_same, B, E].
  destruct p as [|n q]; [discriminate D|]. unfold isdir. rewrite A. reflexivity.
Qed.

Section Save.
Variable str : pv -> text.
Variable frame_ok : pv -> pv -> pv -> pv -> result unit.
Notation save_one := (save_one str frame_ok).
Notation save_each := (save_each str frame_ok).

(** dictionaries *)
Lemma find_del d k k' : find (del d k) k' = if String.eqb k k' then None else find d k'.
Proof.
  induction d as [|[a v] d IH]; cbn [del filter find fst]; [destruct (String.eqb k k'); reflexivity|]. fold (del d k). destruct (String.eqb a k) eqn:E; cbn [negb find].
  - rewrite IH. destruct (String.eqb k k') eqn:E2; [reflexivity|]. apply String.eqb_eq in E. subst a. rewrite E2. reflexivity.
  - rewrite IH. destruct (String.eqb a k') eqn:E2; [|reflexivity]. apply String.eqb_eq in E2. subst a. rewrite String.eqb_sym, E. reflexivity.
Qed.
Lemma find_set d k v k' : find (set d k v) k' = if String.eqb k k' then Some v else find d k'.
Proof. unfold set. cbn [find]. rewrite find_del. destruct (String.eqb k k'); reflexivity. Qed.
Lemma find_popped ks : forall d k, find (fold_left del ks d) k = if existsb (String.eqb k) ks then None else find d k.
Proof.
  induction ks as [|a ks IH]; intros d k; [reflexivity|]. cbn [fold_left existsb]. rewrite IH, find_del, (String.eqb_sym a k). destruct (String.eqb k a); cbn [orb]; [destruct (existsb (String.eqb k) ks); reflexivity|reflexivity].
Qed.
Lemma upd_same h r d : upd h r d r = d. Proof. unfold upd. rewrite Nat.eqb_refl. reflexivity. Qed.
Lemma upd_other h r d x : x <> r -> upd h r d x = h x. Proof. unfold upd. intros N. apply Nat.eqb_neq in N. rewrite N. reflexivity. Qed.

Definition file_name (stem ext : text) (d : pdict) : text := stem ++ str (entry d "name" (PText [])) ++ ext.
(** one dictionary: what is written and what becomes of the heap *)
Lemma save_one_spec dirname stem ext h f r h' f' : save_one dirname stem ext (h, f) r = Ok (h', f') ->
  (forall d, find (h r) "df_kwargs" = Some (PDict d) -> d <> r) ->
  (forall k, find (h' r) k = if existsb (String.eqb k) keys then None else find (h r) k) /\
  (forall x, x <> r -> h' x = h x \/ (find (h r) "df_kwargs" = Some (PDict x) /\ h' x = set (h x) "index_label" (PText (t_ "idex")))) /\
  ((~ has_data (h r) /\ f' = f) \/
   (has_data (h r) /\ exists c, table_of h (h r) c /\ write f (file_name stem ext (h r) :: dirname) c = Ok f')).
Proof.
  unfold save_one. intros H A. set (h1 := upd h r (fold_left del keys (h r))) in *.
  assert (P : forall k, find (h1 r) k = if existsb (String.eqb k) keys then None else find (h r) k) by (intros k; unfold h1; rewrite upd_same; apply find_popped).
  assert (O : forall x, x <> r -> h1 x = h x) by (intros x N; unfold h1; apply upd_other, N).
  assert (D : or_default (find (h r) "data") PNone = entry (h r) "data" PNone) by reflexivity.
  destruct (entry (h r) "data" PNone) as [| | |] eqn:ED; rewrite D in H.
  1: { injection H as <- <-. split; [exact P|split; [intros x N; left; apply O, N|left; split; [|reflexivity]]]. intros (v & E & N). unfold entry in ED. rewrite E in ED. contradiction. }
  all: assert (HD : has_data (h r)) by (unfold entry in ED; destruct (find (h r) "data") as [v|] eqn:E; [exists v; split; [auto|congruence]|discriminate ED]);
    match type of H with bind ?q _ = _ => destruct q as [[]|] eqn:FO; [|discriminate H] end; cbn [bind] in H;
    destruct (find (h r) "df_kwargs") as [[| |k|]|] eqn:EK; cbn [bind] in H; try discriminate H; cbn [fst snd] in H;
    change (or_default (find (h r) "header") PNone) with (entry (h r) "header" PNone) in H;
    (destruct (entry (h r) "header" PNone) as [|th| |] eqn:EH; try discriminate H);
    match type of H with bind ?q _ = _ => destruct q as [f2|] eqn:W; [|discriminate H] end; cbn [bind] in H; injection H as <- <-.
  all: try (assert (Nk : k <> r) by (apply A; reflexivity)).
  all: (split; [intros q; first [rewrite upd_other by congruence; apply P|apply P]|]);
       (split; [intros x N; first [destruct (Nat.eq_dec x k) as [->|Nx]; [right; split; [reflexivity|]; rewrite upd_same; rewrite O by auto; reflexivity|left; rewrite upd_other by auto; apply O, N] | left; apply O, N]|right; split; [exact HD|]]).
  all: eexists; split; [|exact W].
  all: eexists; eexists; (split; [rewrite ED; reflexivity|]); rewrite EH; (split; [reflexivity|]); split;
       [first [rewrite find_set; reflexivity|reflexivity]|intros q Nq; rewrite EK; first [rewrite find_set, O by auto; destruct (String.eqb "index_label" q) eqn:E; [apply String.eqb_eq in E; congruence|reflexivity]|cbn [find]; destruct (String.eqb "index_label" q) eqn:E; [apply String.eqb_eq in E; congruence|reflexivity]]].
Qed.

(** the options of a dictionary are not themselves one of the dictionaries *)
Definition separate (h : heap) (refs : list nat) : Prop := forall r d, In r refs -> find (h r) "df_kwargs" = Some (PDict d) -> ~ In d refs.
Lemma save_each_spec dirname stem ext refs : forall h f h' f', separate h refs -> save_each dirname stem ext (h, f) refs = Ok (h', f') ->
  (forall r k, In r refs -> find (h' r) k = if existsb (String.eqb k) keys then None else find (h r) k) /\
  (forall x, ~ In x refs -> h' x = h x \/ ((exists r, In r refs /\ find (h r) "df_kwargs" = Some (PDict x)) /\ forall k, find (h' x) k = if String.eqb "index_label" k then Some (PText (t_ "idex")) else find (h x) k)) /\
  (forall q, (forall r, In r refs -> has_data (h r) -> q <> file_name stem ext (h r) :: dirname) -> at_ f' q = at_ f q) /\
  (forall q, isdir f' q = isdir f q) /\
  (forall r, In r refs -> has_data (h r) -> (forall r', In r' refs -> has_data (h r') -> file_name stem ext (h r') = file_name stem ext (h r) -> r' = r) ->
     exists c, table_of h (h r) c /\ at_ f' (file_name stem ext (h r) :: dirname) = Some (File c)).
Proof.
  induction refs as [|r refs IH]; intros h f h' f' Sep H; cbn [SaveModel.save_each] in H.
  { injection H as <- <-. split; [intros r k []|]. split; [intros x _; left; reflexivity|]. split; [reflexivity|]. split; [reflexivity|intros r []]. }
  destruct (save_one dirname stem ext (h, f) r) as [[h1 f1]|] eqn:E1; [|discriminate H]. cbn [bind] in H.
  destruct (save_one_spec dirname stem ext h f r h1 f1 E1) as (P1 & O1 & W1).
  { intros d Hd ->. apply (Sep r r); [left; auto|auto|left; auto]. }
  assert (Same : forall x, x <> r -> In x (r :: refs) -> h1 x = h x).
  { intros x N Hx. destruct (O1 x N) as [Q|(Q & _)]; [exact Q|]. exfalso. apply (Sep r x); [left; auto|auto|auto]. }
  assert (Kn : forall x k, x <> r -> k <> "index_label"%string -> find (h1 x) k = find (h x) k).
  { intros x k N Nk. destruct (O1 x N) as [Q|(_ & Q)]; rewrite Q; [reflexivity|]. rewrite find_set. destruct (String.eqb "index_label" k) eqn:E; [apply String.eqb_eq in E; congruence|reflexivity]. }
  assert (ND1 : ~ has_data (h1 r)) by (intros (v & E & _); rewrite P1 in E; discriminate E).
  assert (Sep1 : separate h1 refs).
  { intros x d Hx Hd I. destruct (Nat.eq_dec x r) as [->|N]; [rewrite P1 in Hd; discriminate Hd|]. rewrite (Same x N) in Hd by (right; auto). apply (Sep x d); [right; auto|auto|right; auto]. }
  destruct (IH h1 f1 h' f' Sep1 H) as (A1 & A2 & A3 & A4 & A5).
  assert (D1 : forall q, isdir f1 q = isdir f q).
  { intros q. destruct W1 as [(_ & ->)|(_ & c & _ & W)]; [reflexivity|]. apply (write_dirs _ _ _ _ q W). }
  split; [|split; [|split; [|split]]].
  - intros x k Hx. destruct (in_dec Nat.eq_dec x refs) as [I|I].
    + rewrite A1 by auto. destruct (existsb (String.eqb k) keys) eqn:E; [reflexivity|]. destruct (Nat.eq_dec x r) as [->|N]; [rewrite P1, E; reflexivity|rewrite Same by (auto; right; auto); reflexivity].
    + destruct Hx as [<-|Hx]; [|contradiction]. destruct (A2 r I) as [Q|((x & Hx & Q) & _)]; [rewrite Q; apply P1|]. exfalso. destruct (Nat.eq_dec x r) as [->|N]; [contradiction|]. rewrite Same in Q by (auto; right; auto). apply (Sep x r); [right; auto|auto|left; auto].
  - intros x Nx. assert (Nr : x <> r) by (intros ->; apply Nx; left; auto). assert (Nf : ~ In x refs) by (intros I; apply Nx; right; auto).
    destruct (A2 x Nf) as [Q|((y & Hy & Q) & V)].
    + destruct (O1 x Nr) as [Q2|(Q2 & Q3)]; [left; congruence|right]. split; [exists r; split; [left; auto|exact Q2]|]. intros k. rewrite Q, Q3. apply find_set.
    + right. assert (y <> r) by (intros ->; rewrite P1 in Q; discriminate Q). rewrite Same in Q by (auto; right; auto). split; [exists y; split; [right; auto|exact Q]|]. intros k. rewrite V.
      destruct (String.eqb "index_label" k) eqn:E; [reflexivity|]. apply Kn; auto. intros ->. rewrite String.eqb_refl in E. discriminate E.
  - intros q Nq. transitivity (at_ f1 q).
    + apply A3. intros x Hx Hd E. destruct (Nat.eq_dec x r) as [->|N]; [contradiction|]. rewrite Same in Hd, E by (auto; right; auto). apply (Nq x); [right; auto|auto|auto].
    + destruct W1 as [(_ & ->)|(Hd & c & _ & W)]; [reflexivity|]. destruct (write_spec _ _ _ _ W) as (_ & B & _). apply B. intros ->. apply (Nq r); [left; auto|auto|auto].
  - intros q. rewrite A4. apply D1.
  - intros x Hx Hd U. destruct (Nat.eq_dec x r) as [->|N].
    + destruct W1 as [(Nd & _)|(_ & c & T & W)]; [contradiction|]. exists c. split; [exact T|]. rewrite A3; [apply (write_spec _ _ _ _ W)|]. intros y Hy Hyd E. destruct (Nat.eq_dec y r) as [->|Ny]; [contradiction|].
      rewrite Same in Hyd, E by (auto; right; auto). apply Ny. apply U; [right; auto|auto|]. injection E as E. symmetry. exact E.
    + destruct Hx as [->|Hx]; [contradiction|]. rewrite <- (Same x N) in Hd by (right; auto).
      destruct (A5 x Hx Hd) as (c & (hd & kw & Ec & Eh & Eo) & L).
      * intros y Hy Hyd E. destruct (Nat.eq_dec y r) as [->|Ny]; [contradiction|]. rewrite !Same in E by (auto; right; auto). rewrite Same in Hyd by (auto; right; auto). apply U; [right; auto|auto|exact E].
      * rewrite (Same x N) in * by (right; auto). exists c. split; [|exact L]. exists hd, kw. split; [exact Ec|split; [exact Eh|]]. destruct Eo as [o1 o2]. split; [exact o1|]. intros k Nk. rewrite o2 by auto.
        destruct (find (h x) "df_kwargs") as [[| |d|]|] eqn:Ed; try reflexivity. apply Kn; auto. intros ->. apply (Sep x r); [right; auto|auto|left; auto].
Qed.
Lemma save_each_again dirname stem ext refs h f : (forall r, In r refs -> forall k, In k keys -> find (h r) k = None) -> exists h', save_each dirname stem ext (h, f) refs = Ok (h', f).
Proof.
  revert h. induction refs as [|r refs IH]; intros h N; [eexists; reflexivity|]. cbn [SaveModel.save_each]. unfold SaveModel.save_one. rewrite (N r (or_introl eq_refl) "data"%string) by (cbn; auto). cbn [or_default bind].
  apply IH. intros x Hx k Hk. destruct (Nat.eq_dec x r) as [->|Nx].
  - rewrite upd_same, find_popped. destruct (existsb (String.eqb k) keys); [reflexivity|apply N; [left; auto|auto]].
  - rewrite upd_other by auto. apply N; [right; auto|auto].
Qed.

(** changes are confined: everything else in the file system stays *)
Definition confined (P : path -> Prop) (f f' : fs) : Prop := forall q, ~ P q -> at_ f' q = at_ f q.
Lemma confined_refl P f : confined P f f. Proof. intros q _. reflexivity. Qed.
Lemma confined_trans P a b c : confined P a b -> confined P b c -> confined P a c.
Proof. intros A B q N. rewrite B, A; auto. Qed.
Lemma confined_weaken (P Q : path -> Prop) a b : (forall q, P q -> Q q) -> confined P a b -> confined Q a b.
Proof. intros I A q N. apply A. intros H. apply N, I, H. Qed.
Lemma write_confined (P : path -> Prop) f p c f' : P p -> write f p c = Ok f' -> confined P f f'.
Proof. intros Pp H q N. destruct (write_spec _ _ _ _ H) as (_ & B & _). apply B. intros ->. contradiction. Qed.
Definition named (dir : path) (s : text) (q : path) : Prop := exists rest, q = (s ++ rest) :: dir.
Lemma save_one_confined dirname stem ext hf r h' f' : save_one dirname stem ext hf r = Ok (h', f') -> confined (named dirname stem) (snd hf) f'.
Proof.
  destruct hf as [h f]. unfold SaveModel.save_one. cbn [snd]. intros H.
  assert (Q : forall d c, write f ((stem ++ d) :: dirname) c = Ok f' -> confined (named dirname stem) f f') by (intros d c W; apply (write_confined _ _ _ _ _ (ex_intro _ d eq_refl) W)).
  destruct (or_default (find (h r) "data") PNone); [injection H as _ <-; apply confined_refl|..];
  (match type of H with bind ?q _ = _ => destruct q as [[]|] eqn:FO; [|discriminate H] end; cbn [bind] in H;
   match type of H with bind ?q _ = _ => destruct q as [hk|] eqn:HK; [|discriminate H] end; cbn [bind] in H;
   destruct (or_default (find (h r) "header") PNone); try discriminate H;
   match type of H with bind ?q _ = _ => destruct q as [f2|] eqn:W; [|discriminate H] end; cbn [bind] in H; injection H as _ <-; eapply Q, W).
Qed.
Lemma save_each_confined dirname stem ext refs : forall hf h' f', save_each dirname stem ext hf refs = Ok (h', f') -> confined (named dirname stem) (snd hf) f'.
Proof.
  induction refs as [|r refs IH]; intros hf h' f' H; cbn [SaveModel.save_each] in H; [injection H as ->; apply confined_refl|].
  destruct (save_one dirname stem ext hf r) as [[h1 f1]|] eqn:E1; [|discriminate H]. cbn [bind] in H. eapply confined_trans; [eapply save_one_confined, E1|]. apply (IH _ _ _ H).
Qed.
Lemma listdir_In f n q : at_ f (n :: q) <> None -> In n (listdir f q).
Proof.
  induction f as [|[ep en] f IH]; [cbn; congruence|]. rewrite at_cons. cbn [fst snd]. unfold listdir. cbn [flat_map]. fold (listdir f q). intros H. apply in_or_app. destruct (eqp ep (n :: q)) eqn:E.
  - left. apply eqp_true in E. subst ep. cbn [fst]. rewrite eqp_refl. left. reflexivity.
  - right. apply IH, H.
Qed.
(** the stem of a new output: nothing in the way *)
Lemma stem_fresh o f dir s f' : tree f -> overwrite o <> Some true -> determine_output_stem o f = Ok ((dir, s), f') ->
  (forall q, named dir s q -> at_ f q = None) /\ (forall q, at_ f q <> None -> at_ f' q = at_ f q) /\ isdir f' dir = true.
Proof.
  intros T NO. unfold determine_output_stem. set (d := match directory o with None => [] | Some d => d end). set (pre := match prefix o with None => _ | Some p => p end).
  assert (OW : match overwrite o with None => false | Some b => b end = false) by (destruct (overwrite o) as [[]|]; [exfalso; apply NO; reflexivity|reflexivity|reflexivity]). rewrite OW.
  destruct (isdir f d) eqn:ED; [|discriminate]. destruct (next_output_stem pre (Some (listdir f d)) 1 1 4 false) as [st|] eqn:ES; [|discriminate]. cbn [bind].
  assert (Fresh : forall rest, at_ f ((st ++ rest) :: d) = None).
  { intros rest. destruct (at_ f ((st ++ rest) :: d)) eqn:E; [|reflexivity]. exfalso.
    apply (C50_fresh pre (listdir f d) 1 1 4 st ltac:(lia) ltac:(lia) ES (st ++ rest) rest); [apply listdir_In; unfold text, path in *; rewrite E; discriminate|reflexivity]. }
  assert (F0 : at_ f (st :: d) = None) by (rewrite <- (app_nil_r st); apply Fresh).
  destruct (create_directory o); cbn [fst].
  - assert (ND : isdir f (st :: d) = false) by (unfold isdir; rewrite F0; reflexivity). rewrite ND. destruct (mkdir f (st :: d)) as [f2|] eqn:EM; [|discriminate]. cbn [bind]. intros H. injection H as <- <- <-.
    destruct (mkdir_spec _ _ _ EM) as (_ & M2 & M3). split; [|split].
    + intros q (rest & ->). destruct (at_ f ((st ++ rest) :: st :: d)) eqn:E; [|reflexivity]. exfalso. assert (Q : isdir f (st :: d) = true) by (apply (T (st ++ rest)); unfold text, path in *; rewrite E; discriminate). rewrite ND in Q. discriminate Q.
    + intros q Hq. apply M3. intros ->. congruence.
    + unfold isdir. rewrite M2. reflexivity.
  - rewrite ED. cbn [bind]. intros H. injection H as <- <- <-. split; [|split; [reflexivity|exact ED]]. intros q (rest & ->). apply Fresh.
Qed.
End Save.
