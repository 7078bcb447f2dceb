(* When tasks that share mutable fields cannot disturb each other. *)
From Verif Require Import Base PoolModel.
Open Scope nat_scope.
(* value v is the only one ever written to field r *)
Definition only_writes (jobs : list code) (r : nat) (v : Z) : Prop :=
  forall c x, In c jobs -> In (Wr r x) c -> x = v.
(* a task reads r only after writing it itself *)
Fixpoint own_write_first (r : nat) (c : code) : Prop :=
  match c with
  | [] => True
  | Wr k _ :: t => k = r \/ own_write_first r t
  | Rd k :: t => k <> r /\ own_write_first r t
  end.
Definition never_written (jobs : list code) (r : nat) : Prop := forall c x, In c jobs -> ~ In (Wr r x) c.
Definition no_interference (jobs : list code) : Prop :=
  forall r, never_written jobs r \/
    ((exists v, only_writes jobs r v) /\ forall c, In c jobs -> own_write_first r c).
