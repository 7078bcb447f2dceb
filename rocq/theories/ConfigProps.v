(* Property theorems C11 (constructor keywords), C12 (attribute and item access), C13 (lazy expressions). *)
From Verif Require Import Base StrBase ConfigModel ConfigSpec ConfigProofs.
Local Open Scope list_scope.

(* ---------------- C11 ---------------- *)
(* A keyword value that is neither list nor dict is what the new Object has at that path. *)
Theorem C11_keyword_wins : forall kwargs defaults p v, wf (TDict defaults) ->
  get (TDict kwargs) p = Some v -> atomic v -> get (object_init kwargs defaults) p = Some v.
Proof. intros. now apply base_atom_wins. Qed.
Print Assumptions C11_keyword_wins.
(* A default at a path the keywords say nothing about is kept. *)
Theorem C11_default_kept : forall kwargs defaults p v, wf (TDict defaults) ->
  get (TDict defaults) p = Some v -> silent (TDict kwargs) p -> get (object_init kwargs defaults) p = Some v.
Proof. intros. now apply silent_keeps. Qed.
Print Assumptions C11_default_kept.
(* A keyword at a path without default is kept, whatever its value. *)
Theorem C11_new_keyword_kept : forall kwargs defaults p v, wf (TDict defaults) ->
  get (TDict kwargs) p = Some v -> silent (TDict defaults) p -> get (object_init kwargs defaults) p = Some v.
Proof. intros. now apply new_keeps. Qed.
Print Assumptions C11_new_keyword_kept.
(* Lists: the default is appended to the keyword list. *)
Theorem C11_lists_extended : forall kwargs defaults p a b, wf (TDict defaults) ->
  get (TDict kwargs) p = Some (TList a) -> get (TDict defaults) p = Some (TList b) ->
  get (object_init kwargs defaults) p = Some (TList (a ++ b)).
Proof. intros. now apply lists_append. Qed.
Print Assumptions C11_lists_extended.
(* The merge method, on the other hand, lets the new value win, and appends the new list to the old one. *)
Theorem C11_merge_method : forall data kwargs p v, wf (TDict kwargs) ->
  (get (TDict kwargs) p = Some v -> atomic v -> get (object_merge data kwargs) p = Some v) /\
  (get (TDict data) p = Some v -> silent (TDict kwargs) p -> get (object_merge data kwargs) p = Some v) /\
  (forall a b, get (TDict data) p = Some (TList a) -> get (TDict kwargs) p = Some (TList b) ->
     get (object_merge data kwargs) p = Some (TList (a ++ b))).
Proof.
  intros data kwargs p v Hw. split; [|split].
  - intros. apply next_atom_wins; auto. right. eauto.
  - intros. now apply new_keeps.
  - intros. now apply lists_append.
Qed.
Print Assumptions C11_merge_method.
(* Config Objects are not merged: giving one as a keyword drops every default inside it. *)
Theorem C11_nested_object_merged_refuted : exists kwargs defaults, wf (TDict kwargs) /\ wf (TDict defaults) /\
  read_path (TDict defaults) ["P1"; "Nbeam"]%string = Some (Atom 324) /\
  read_path (TDict kwargs) ["P1"; "Nbeam"]%string = None /\
  read_path (object_init kwargs defaults) ["P1"; "Nbeam"]%string = None.
Proof.
  exists [("P1", TObj [("D", Atom 4)])]%string, [("P1", TObj [("D", Atom 2); ("Nbeam", Atom 324)])]%string.
  split; [|split; [|repeat split]].
  - constructor; [repeat constructor; cbn; tauto|]. intros k t [[= <- <-]|[]]. constructor; [repeat constructor; cbn; tauto|].
    intros k t [[= <- <-]|[]]. constructor.
  - constructor; [repeat constructor; cbn; tauto|]. intros k t [[= <- <-]|[]].
    constructor; [constructor; [cbn; intros [Q|[]]; discriminate|repeat constructor; cbn; tauto]|].
    intros k t [[= <- <-]|[[= <- <-]|[]]]; constructor.
Qed.
Print Assumptions C11_nested_object_merged_refuted.
Example C11_ex : let d := [("a", Atom 1); ("sub", TDict [("x", Atom 2); ("y", TList [Atom 3])])]%string in
  let kw := [("sub", TDict [("x", Atom 9); ("y", TList [Atom 8])])]%string in
  object_init kw d = TDict [("sub", TDict [("x", Atom 9); ("y", TList [Atom 8; Atom 3])]); ("a", Atom 1)]%string.
Proof. reflexivity. Qed.

(* ---------------- C12 ---------------- *)
(* Item access returns the last value assigned as an item, whatever was assigned as an attribute. *)
Theorem C12_item_access : forall A methods (o : object A) l k, avoids_data l -> k <> "data"%string ->
  snd (read_item A (run_ops A methods o l) k) =
  match last_item k l (assoc k (o_data o)) with Some v => Ok (inr v) | None => Raise AttributeError end.
Proof.
  intros A methods o l k Hd Hk. unfold read_item, getattr_hook. destruct (String.eqb_spec k "data"); [contradiction|].
  rewrite (proj2 (run_last methods l o k Hd)). destruct (last_item k l (assoc k (o_data o))); reflexivity.
Qed.
Print Assumptions C12_item_access.
(* Attribute access returns the last value assigned as an attribute if there is one; otherwise a method of that name,
   otherwise what item access returns. *)
Theorem C12_attribute_access : forall A methods (o : object A) l k, avoids_data l -> k <> "data"%string ->
  snd (read_attr A methods (run_ops A methods o l) k) =
  match last_attr k l (assoc k (o_attrs o)), methods k, last_item k l (assoc k (o_data o)) with
  | Some v, _, _ => Ok (inr v)
  | None, Some m, _ => Ok (inr m)
  | None, None, Some v => Ok (inr v)
  | None, None, None => Raise AttributeError
  end.
Proof.
  intros A methods o l k Hd Hk. unfold read_attr, getattr_hook. destruct (String.eqb_spec k "data"); [contradiction|].
  destruct (run_last methods l o k Hd) as [-> E].
  destruct (last_attr k l (assoc k (o_attrs o))); [reflexivity|]. destruct (methods k); [reflexivity|].
  rewrite E. destruct (last_item k l (assoc k (o_data o))); reflexivity.
Qed.
Print Assumptions C12_attribute_access.
(* So the two agree with the last assignment of either kind when only one kind is used for k. *)
Theorem C12_agree_partial : forall A methods (o : object A) l k, avoids_data l -> k <> "data"%string -> methods k = None ->
  assoc k (o_attrs o) = None -> (forall v, ~ In (SetAttr k v) l) ->
  snd (read_attr A methods (run_ops A methods o l) k) = snd (read_item A (run_ops A methods o l) k) /\
  snd (read_item A (run_ops A methods o l) k) =
    match last_any k l (assoc k (o_data o)) with Some v => Ok (inr v) | None => Raise AttributeError end.
Proof.
  intros A methods o l k Hd Hk Hm Ha Hs. rewrite C12_attribute_access, C12_item_access by assumption. rewrite Hm, Ha.
  assert (E1 : last_attr k l None = None).
  { clear -Hs. induction l as [|a l IH]; [reflexivity|]. assert (IH' := IH (fun v H => Hs v (or_intror H))).
    destruct a as [k' v|k' v|k'|k']; cbn; auto. destruct (String.eqb_spec k k') as [->|]; [|exact IH']. exfalso. apply (Hs v). now left. }
  assert (E2 : forall d, last_any k l d = last_item k l d).
  { clear -Hs. induction l as [|a l IH]; intros d; [reflexivity|]. assert (IH' := IH (fun v H => Hs v (or_intror H))).
    destruct a as [k' v|k' v|k'|k']; cbn; auto. destruct (String.eqb_spec k k') as [->|]; [|apply IH']. exfalso. apply (Hs v). now left. }
  rewrite E1, E2. destruct (last_item k l (assoc k (o_data o))); split; reflexivity.
Qed.
Print Assumptions C12_agree_partial.
Example C12_agree_ex : let l := [SetItem "k" 1; SetAttr "other" 5; SetItem "k" 2]%string%Z in
  avoids_data l /\ (forall v, ~ In (SetAttr "k"%string v) l).
Proof.
  split.
  - intros a [<-|[<-|[<-|[]]]]; discriminate.
  - intros v [H|[H|[H|[]]]]; discriminate.
Qed.
(* In general they do not agree. *)
Theorem C12_agreement_refuted : exists (l : list (op Z)) k, avoids_data l /\ k <> "data"%string /\
  let o := run_ops Z (fun _ => None) (mkobj [] []) l in
  snd (read_attr Z (fun _ => None) o k) <> snd (read_item Z o k) /\
  last_any k l None = Some 2%Z /\ snd (read_attr Z (fun _ => None) o k) = Ok (inr 1%Z).
Proof.
  exists [SetAttr "k" 1; SetItem "k" 2]%string%Z, "k"%string. split; [intros a [<-|[<-|[]]]; discriminate|].
  split; [discriminate|]. cbn. repeat split; discriminate.
Qed.
Print Assumptions C12_agreement_refuted.
(* Reading the item 'data' erases everything stored as items. *)
Theorem C12_reading_item_data_erases : forall A (o : object A) k, k <> "data"%string ->
  snd (read_item A (fst (read_item A o "data")) k) = Raise AttributeError.
Proof. intros A o k Hk. cbn. unfold read_item, getattr_hook. destruct (String.eqb_spec k "data"); [contradiction|reflexivity]. Qed.
Print Assumptions C12_reading_item_data_erases.

(* ---------------- C13 ---------------- *)
(* Every read of an entry terminates with exactly one outcome and leaves every in-progress mark as it was, also when it
   raises and whatever was in progress. *)
Theorem C13_terminates_and_restores : forall val (data : list (string * slot val)) body F k,
  (exists r, reads val data body F k F r) /\
  (forall F' r, reads val data body F k F' r -> F' = F) /\
  (forall F1 r1 F2 r2, reads val data body F k F1 r1 -> reads val data body F k F2 r2 -> r1 = r2).
Proof.
  intros val data body F k. split; [apply (reads_total val data body (idle val data F)); lia|]. split.
  - apply reads_restore.
  - intros F1 r1 F2 r2 H1 H2. exact (reads_det val data body F k F2 r2 H2 F1 r1 H1).
Qed.
Print Assumptions C13_terminates_and_restores.
(* A value or an exception other than the circularity error is returned exactly when it is the meaning of the entry. *)
Theorem C13_value_is_meaning : forall val (data : list (string * slot val)) body k r, r <> Circular val ->
  (reads val data body (fun _ => false) k (fun _ => false) r <-> means val data body k r).
Proof. exact reads_means. Qed.
Print Assumptions C13_value_is_meaning.
(* The circularity error is raised exactly when the entry has no meaning (its definition runs in a circle). *)
Theorem C13_circular_iff_no_meaning : forall val (data : list (string * slot val)) body k,
  reads val data body (fun _ => false) k (fun _ => false) (Circular val) <-> forall r, ~ means val data body k r.
Proof. exact reads_circular. Qed.
Print Assumptions C13_circular_iff_no_meaning.
(* No circularity error when the references form no cycle (they can be ranked). *)
Theorem C13_acyclic_no_error : forall val (data : list (string * slot val)) body (rank : nat -> nat) k r,
  (forall id k id', mentions val (body id) k -> assoc k data = Some (Lazy _ id') -> (rank id' < rank id)%nat) ->
  reads val data body (fun _ => false) k (fun _ => false) r -> r <> Circular val.
Proof.
  intros val data body rank k r Hr R ->. destruct (ranked_means val data body rank Hr k) as (x & M).
  exact (proj1 (reads_circular val data body k) R x M).
Qed.
Print Assumptions C13_acyclic_no_error.
(* A ring of entries of any length, each needing the next: the error is raised. *)
Theorem C13_ring_detected : forall val (data : list (string * slot val)) body (key : nat -> string) n,
  (0 < n)%nat ->
  (forall i, (i < n)%nat -> exists id ok m, assoc (key i) data = Some (Lazy _ id) /\ body id = Read val (key ((i + 1) mod n)%nat) ok m) ->
  forall i, (i < n)%nat -> reads val data body (fun _ => false) (key i) (fun _ => false) (Circular val).
Proof.
  intros val data body key n Hn Hk i Hi. apply reads_circular. intros r M. apply means_ev in M. destruct M as (f & E).
  revert i Hi r E. induction f as [|f IH]; intros i Hi r E; [discriminate|]. cbn [ev] in E.
  destruct (Hk i Hi) as (id & ok & m & E1 & E2). rewrite E1, E2 in E. cbn [ev_code] in E.
  destruct (ev val data body f (key ((i + 1) mod n)%nat)) as [x|] eqn:Ex; [|discriminate].
  apply (IH ((i + 1) mod n)%nat) with x; [apply Nat.mod_upper_bound; lia|exact Ex].
Qed.
Print Assumptions C13_ring_detected.
(* A concrete configuration: b = a + 1 evaluates, c needs d needs c. *)
Definition ex_data : list (string * slot Z) := [("a", Plain Z 4); ("b", Lazy Z 0); ("c", Lazy Z 1); ("d", Lazy Z 2)]%string%Z.
Definition ex_body (id : nat) : code Z :=
  match id with
  | O => Read Z "a" (fun v => Ret Z (v + 1)%Z) None
  | 1%nat => Read Z "d" (fun v => Ret Z v) None
  | _ => Read Z "c" (fun v => Ret Z v) None
  end%string.
Example C13_ex : reads Z ex_data ex_body (fun _ => false) "b" (fun _ => false) (Val Z 5) /\
  reads Z ex_data ex_body (fun _ => false) "c" (fun _ => false) (Circular Z).
Proof.
  split.
  - apply reads_means; [discriminate|]. eapply m_lazy; [reflexivity|]. eapply g_read; [now apply m_plain|]. exact (g_ret Z ex_data ex_body 5%Z).
  - apply (C13_ring_detected Z ex_data ex_body (fun i => match i with O => "c" | _ => "d" end%string) 2%nat) with (i := 0%nat); [lia| |lia].
    intros i Hi. destruct i as [|[|i]]; [| |lia].
    + exists 1%nat. eexists. eexists. split; reflexivity.
    + exists 2%nat. eexists. eexists. split; reflexivity.
Qed.
