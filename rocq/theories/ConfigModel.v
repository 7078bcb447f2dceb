(* Model of falco/config/Object.py and falco/config/Eval.py. *)
From Verif Require Import Base StrBase.
From Coq Require Import FunctionalExtensionality.
Local Open Scope string_scope.
Local Open Scope list_scope.

(* ------------------------------------------------------------------ *)
(** * Configuration trees and deepmerge *)

(* Python values as far as deepmerge tells them apart: lists, dicts (keys in insertion order, distinct), and the rest
   (numbers, strings, arrays, config Objects with their data, Evals), which it treats as one unit. *)
Inductive tree : Type :=
| Atom (n : Z)
| TObj (d : list (string * tree))
| TList (l : list tree)
| TDict (d : list (string * tree)).

Fixpoint assoc {A} (k : string) (d : list (string * A)) : option A :=
  match d with [] => None | (k', v) :: t => if String.eqb k k' then Some v else assoc k t end.
(* d[k] = v: replaces in place or appends *)
Fixpoint upd {A} (k : string) (v : A) (d : list (string * A)) : list (string * A) :=
  match d with [] => [(k, v)] | (k', w) :: t => if String.eqb k k' then (k', v) :: t else (k', w) :: upd k v t end.

(* deepmerge (third party, as documented): lists are concatenated, dicts merged key by key, and otherwise the
   strategy is "use_existing" (conservative_merger) or "override" (always_merger).
   prefer_base = true: conservative_merger.merge(base, nxt); false: always_merger.merge(base, nxt). *)
Fixpoint merge (prefer_base : bool) (base nxt : tree) {struct nxt} : tree :=
  match base, nxt with
  | TList a, TList b => TList (a ++ b)
  | TDict a, TDict b =>
      TDict ((fix go (b : list (string * tree)) (acc : list (string * tree)) : list (string * tree) :=
                match b with
                | [] => acc
                | (k, v) :: t => go t (upd k (match assoc k acc with None => v | Some w => merge prefer_base w v end) acc)
                end) b a)
  | _, _ => if prefer_base then base else nxt
  end.

(* falco/config/Object.py:15-19: the data of a new Object made with the given keywords, when the class' __init__ has
   assigned the given attributes (its defaults) before *)
Definition object_init (kwargs attrs : list (string * tree)) : tree := merge true (TDict kwargs) (TDict attrs).
(* falco/config/Object.py:21-22 *)
Definition object_merge (data kwargs : list (string * tree)) : tree := merge false (TDict data) (TDict kwargs).

(* ------------------------------------------------------------------ *)
(** * Attribute and item access (falco/config/Object.py:24-45) *)
Section Access.
  Variable A : Type.
  (* instance __dict__ without its entry 'data', and that entry (always present after __init__) *)
  Record object : Type := mkobj { o_attrs : list (string * A); o_data : list (string * A) }.
  (* names defined by the class (methods) *)
  Variable methods : string -> option A.

  Inductive op : Type := SetAttr (k : string) (v : A) | SetItem (k : string) (v : A) | ReadAttr (k : string) | ReadItem (k : string).

  (* falco/config/Object.py:24-39 for entries that are not Eval; item 'data' resets the dictionary *)
  Definition getattr_hook (o : object) (k : string) : object * res (list (string * A) + A) :=
    if String.eqb k "data" then (mkobj (o_attrs o) [], Ok (inl []))
    else match assoc k (o_data o) with
         | None => (o, Raise AttributeError)
         | Some v => (o, Ok (inr v))
         end.
  (* Python attribute lookup: instance __dict__, class, then __getattr__ *)
  Definition read_attr (o : object) (k : string) : object * res (list (string * A) + A) :=
    if String.eqb k "data" then (o, Ok (inl (o_data o)))
    else match assoc k (o_attrs o) with
         | Some v => (o, Ok (inr v))
         | None => match methods k with Some m => (o, Ok (inr m)) | None => getattr_hook o k end
         end.
  (* falco/config/Object.py:41-42 *)
  Definition read_item (o : object) (k : string) : object * res (list (string * A) + A) := getattr_hook o k.
  (* o.k = v, k <> 'data' *)
  Definition set_attr (o : object) (k : string) (v : A) : object := mkobj (upd k v (o_attrs o)) (o_data o).
  (* falco/config/Object.py:44-45 *)
  Definition set_item (o : object) (k : string) (v : A) : object := mkobj (o_attrs o) (upd k v (o_data o)).

  Definition step (o : object) (a : op) : object :=
    match a with
    | SetAttr k v => set_attr o k v
    | SetItem k v => set_item o k v
    | ReadAttr k => fst (read_attr o k)
    | ReadItem k => fst (read_item o k)
    end.
  Definition run_ops (o : object) (l : list op) : object := fold_left step l o.
End Access.
Arguments mkobj {A} _ _.
Arguments o_attrs {A} _.
Arguments o_data {A} _.
Arguments SetAttr {A} _ _.
Arguments SetItem {A} _ _.
Arguments ReadAttr {A} _.
Arguments ReadItem {A} _.

(* ------------------------------------------------------------------ *)
(** * Lazy entries (falco/config/Eval.py, falco/config/Object.py:34-39) *)
Section Lazy.
  Variable val : Type.
  (* an expression: reads entries of the configuration and finally gives a value or raises.  [missing] is what it does
     when the entry does not exist (getattr with default, hasattr); None: the AttributeError propagates.  Expressions
     do not catch other exceptions. *)
  Inductive code : Type :=
  | Ret (v : val)
  | Throw (e : exn)
  | Read (k : string) (ok : val -> code) (missing : option code).
  (* an entry: a value, or an Eval object (by identity: the same object may be stored under several keys) *)
  Inductive slot : Type := Plain (v : val) | Lazy (id : nat).
  Variable data : list (string * slot).
  Variable body : nat -> code.
  (* outcome of a read; Circular is the ValueError raised by Eval.evaluate itself *)
  Inductive outcome : Type := Val (v : val) | Err (e : exn) | Circular.
  (* in_progress of each Eval object *)
  Definition flags := nat -> bool.
  Definition set_flag (F : flags) (id : nat) (b : bool) : flags := fun j => if Nat.eqb j id then b else F j.
  Definition caught (r : outcome) (m : option code) : bool :=
    match r, m with Err AttributeError, Some _ => true | _, _ => false end.

  (* reading an entry; Eval.evaluate (lines 36-46, with the finally clause); running an expression *)
  Inductive reads : flags -> string -> flags -> outcome -> Prop :=
  | r_missing F k : assoc k data = None -> reads F k F (Err AttributeError)
  | r_plain F k v : assoc k data = Some (Plain v) -> reads F k F (Val v)
  | r_lazy F k id F' r : assoc k data = Some (Lazy id) -> evaluates F id F' r -> reads F k F' r
  with evaluates : flags -> nat -> flags -> outcome -> Prop :=
  | e_circular F id : F id = true -> evaluates F id F Circular
  | e_run F id F1 r : F id = false -> runs (set_flag F id true) (body id) F1 r -> evaluates F id (set_flag F1 id false) r
  with runs : flags -> code -> flags -> outcome -> Prop :=
  | u_ret F v : runs F (Ret v) F (Val v)
  | u_throw F e : runs F (Throw e) F (Err e)
  | u_read F k ok m F1 v F2 r : reads F k F1 (Val v) -> runs F1 (ok v) F2 r -> runs F (Read k ok m) F2 r
  | u_caught F k ok c F1 F2 r : reads F k F1 (Err AttributeError) -> runs F1 c F2 r -> runs F (Read k ok (Some c)) F2 r
  | u_error F k ok m F1 r : reads F k F1 r -> (forall v, r <> Val v) -> caught r m = false -> runs F (Read k ok m) F1 r.
End Lazy.
