(* concurrent.futures.ThreadPoolExecutor(max_workers=T).map(f, tasks), as used in falco/imaging.py:160-166,
   286-291, 437-442 and falco/est.py:96-103: all tasks share the object mp, whose fields they read and write.
   A task is the sequence of its reads and writes of shared fields; every interleaving of these is allowed,
   as long as tasks start in submission order and at most T are under way.  Values are identified by integers. *)
From Verif Require Import Base.
Open Scope nat_scope.

Inductive instr : Set := Wr (r : nat) (v : Z) | Rd (r : nat).
Definition code := list instr.
Definition mem := nat -> Z.
Definition put (m : mem) (r : nat) (v : Z) : mem := fun k => if Nat.eqb k r then v else m k.

Record thread : Type := mkth { todo : code; got : list Z; started : bool }.
Record pool : Type := mkpool { shared : mem; threads : list thread }.

Definition launch (m : mem) (jobs : list code) : pool := mkpool m (map (fun c => mkth c [] false) jobs).
Definition active (t : thread) : bool := started t && negb (match todo t with [] => true | _ => false end).
Definition n_started (p : pool) : nat := length (filter started (threads p)).
Definition n_active (p : pool) : nat := length (filter active (threads p)).

Fixpoint set_nth {A} (k : nat) (x : A) (l : list A) : list A :=
  match l, k with [], _ => [] | _ :: t, O => x :: t | y :: t, S k' => y :: set_nth k' x t end.

(* task k performs its next access; None: not allowed *)
Definition may_run (T k : nat) (p : pool) (t : thread) : bool :=
  started t || (Nat.eqb k (n_started p) && Nat.ltb (n_active p) T).
Definition step (T k : nat) (p : pool) : option pool :=
  match nth_error (threads p) k with
  | None => None
  | Some t =>
    if may_run T k p t then
      match todo t with
      | [] => None
      | Wr r v :: c => Some (mkpool (put (shared p) r v) (set_nth k (mkth c (got t) true) (threads p)))
      | Rd r :: c => Some (mkpool (shared p) (set_nth k (mkth c (got t ++ [shared p r]) true) (threads p)))
      end
    else None
  end.
Fixpoint run (T : nat) (sched : list nat) (p : pool) : option pool :=
  match sched with
  | [] => Some p
  | k :: t => match step T k p with None => None | Some q => run T t q end
  end.
Definition finished (p : pool) : bool := forallb (fun t => match todo t with [] => true | _ => false end) (threads p).
(* what the tasks read, in submission order (executor.map returns results in that order) *)
Definition pool_reads (T : nat) (m : mem) (jobs : list code) (sched : list nat) : option (list (list Z)) :=
  match run T sched (launch m jobs) with
  | Some p => if finished p then Some (map got (threads p)) else None
  | None => None
  end.

(* the plain for loop *)
Fixpoint run_code (m : mem) (c : code) : mem * list Z :=
  match c with
  | [] => (m, [])
  | Wr r v :: t => run_code (put m r v) t
  | Rd r :: t => let '(m', l) := run_code m t in (m', m r :: l)
  end.
Fixpoint serial_reads (m : mem) (jobs : list code) : list (list Z) :=
  match jobs with
  | [] => []
  | c :: t => let '(m', l) := run_code m c in l :: serial_reads m' t
  end.
