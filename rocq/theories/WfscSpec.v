(* Specification vocabulary for the control loop. *)
From Verif Require Import Base RBase CtrlModel DmModel DmSpec EfcSpec JacModel WfscModel.
Open Scope R_scope.

(* the DMs in use at iteration t *)
Definition in_use (planned : bool) (sched : list (list Z)) (dm_ind0 : list Z) (t : nat) : list Z :=
  if planned then nth t sched [] else dm_ind0.
(* components of a history column *)
Definition col1 (c : column) : list R := let '(a, _, _, _) := c in a.
Definition col2 (c : column) : list R := let '(_, a, _, _) := c in a.
Definition col8 (c : column) : list R := let '(_, _, a, _) := c in a.
Definition col9 (c : column) : list R := let '(_, _, _, a) := c in a.

(* one iteration seen by mirror 1 or 2: if in use, constraints are enforced (at a relinearisation),
   the delta is added and constraints are enforced again; otherwise nothing changes *)
Definition dm_step (relin used : bool) (d : dmr) (x : list R) (d' : dmr) : Prop :=
  if used then exists d1 v, (if relin then enforce d = Ok d1 else d1 = d) /\
      zip_with Rplus (cV d1) x = Ok v /\ enforce (set_cV d1 v) = Ok d'
  else d' = d.
(* one iteration seen by DM 8 or 9 *)
Definition v_step (used : bool) (v x v' : list R) : Prop :=
  if used then zip_with Rplus v x = Ok v' else v' = v.

(* nothing is dead, pinned or tied *)
Definition free (d : dmr) : Prop :=
  dead d = [] /\ pinned d = [] /\ Vpinned d = [] /\ tied d = [] /\
  (forall m i, dead_map d = Some m -> nth i m false = false).
Definition in_limits (n : nat) (d : dmr) (v : nat -> R) : Prop :=
  forall i, (i < n)%nat -> cVmin d <= v i + val (biasMap d) i <= cVmax d.

(* the sum of the deltas applied to actuator i before iteration t *)
Definition applied (used : nat -> bool) (x : nat -> list R) (t i : nat) : R :=
  rsum t (fun j => if used j then val (x j) i else 0).

(* number of weighted iterations up to and including [t] since the last relinearisation at or before t *)
Fixpoint since (steps : list (option grid3 * bool)) (base : option grid3) (k : nat) (t : nat) : option grid3 * nat :=
  match steps with
  | [] => (base, k)
  | (g, u) :: rest =>
    let '(base', k') := match g with Some x => (Some x, O) | None => (base, k) end in
    let k'' := if u then S k' else k' in
    match t with O => (base', k'') | S t' => since rest base' k'' t' end
  end.

