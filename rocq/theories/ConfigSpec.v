(* Independent specifications for C11 - C13. *)
From Verif Require Import Base StrBase ConfigModel.
Local Open Scope list_scope.

(* ---- C11: the value found by following a path of dict keys ---- *)
Fixpoint get (t : tree) (p : list string) : option tree :=
  match p with
  | [] => Some t
  | k :: r => match t with TDict d => match assoc k d with Some v => get v r | None => None end | _ => None end
  end.
(* the same for attribute access o.a.b through config Objects as well *)
Fixpoint read_path (t : tree) (p : list string) : option tree :=
  match p with
  | [] => Some t
  | k :: r => match t with TDict d | TObj d => match assoc k d with Some v => read_path v r | None => None end | _ => None end
  end.
(* not a list and not a dict *)
Definition atomic (t : tree) : Prop := match t with Atom _ | TObj _ => True | _ => False end.
(* t says nothing about path p: some dict on the way lacks the next key *)
Definition silent (t : tree) (p : list string) : Prop :=
  exists q k r d, p = q ++ k :: r /\ get t q = Some (TDict d) /\ assoc k d = None.
(* Python dicts: no key twice, at any level *)
Inductive wf : tree -> Prop :=
| wf_atom n : wf (Atom n)
| wf_obj d : NoDup (map fst d) -> (forall k t, In (k, t) d -> wf t) -> wf (TObj d)
| wf_list l : (forall t, In t l -> wf t) -> wf (TList l)
| wf_dict d : NoDup (map fst d) -> (forall k t, In (k, t) d -> wf t) -> wf (TDict d).

(* ---- C12: the last value assigned to k by a history ---- *)
Section Last.
  Context {A : Type}.
  Fixpoint last_attr (k : string) (l : list (op A)) (d : option A) : option A :=
    match l with
    | [] => d
    | SetAttr k' v :: t => last_attr k t (if String.eqb k k' then Some v else d)
    | _ :: t => last_attr k t d
    end.
  Fixpoint last_item (k : string) (l : list (op A)) (d : option A) : option A :=
    match l with
    | [] => d
    | SetItem k' v :: t => last_item k t (if String.eqb k k' then Some v else d)
    | _ :: t => last_item k t d
    end.
  Fixpoint last_any (k : string) (l : list (op A)) (d : option A) : option A :=
    match l with
    | [] => d
    | SetAttr k' v :: t | SetItem k' v :: t => last_any k t (if String.eqb k k' then Some v else d)
    | _ :: t => last_any k t d
    end.
  Definition avoids_data (l : list (op A)) : Prop :=
    forall a, In a l -> match a with SetAttr k _ | SetItem k _ | ReadAttr k | ReadItem k => k <> "data"%string end.
End Last.

(* ---- C13: the meaning of an entry, with no notion of evaluation state ---- *)
Section Meaning.
  Variable val : Type.
  Variable data : list (string * slot val).
  Variable body : nat -> code val.
  (* the entry k means r; the expression c gives r *)
  Inductive means : string -> outcome val -> Prop :=
  | m_missing k : assoc k data = None -> means k (Err _ AttributeError)
  | m_plain k v : assoc k data = Some (Plain _ v) -> means k (Val _ v)
  | m_lazy k id r : assoc k data = Some (Lazy _ id) -> gives (body id) r -> means k r
  with gives : code val -> outcome val -> Prop :=
  | g_ret v : gives (Ret _ v) (Val _ v)
  | g_throw e : gives (Throw _ e) (Err _ e)
  | g_read k ok m v r : means k (Val _ v) -> gives (ok v) r -> gives (Read _ k ok m) r
  | g_default k ok c r : means k (Err _ AttributeError) -> gives c r -> gives (Read _ k ok (Some c)) r
  | g_error k ok m e : means k (Err _ e) -> caught _ (Err _ e) m = false -> gives (Read _ k ok m) (Err _ e).
  (* k' is read somewhere in the expression, whatever the values read before *)
  Inductive mentions : code val -> string -> Prop :=
  | mn_here k ok m : mentions (Read _ k ok m) k
  | mn_ok k ok m v k' : mentions (ok v) k' -> mentions (Read _ k ok m) k'
  | mn_default k ok c k' : mentions c k' -> mentions (Read _ k ok (Some c)) k'.
End Meaning.
