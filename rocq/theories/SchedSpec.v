(* Specifications for the EFC schedule, grid search and planned controller. *)
From Verif Require Import Base RBase SchedModel.
Open Scope Z_scope.

(* The row in force at each iteration: row k repeated r_count times, in order. *)
Definition expand {C} (rows : list (row C)) : list (row C) :=
  flat_map (fun r => repeat r (Z.to_nat (r_count r))) rows.

(* i is the first iteration of (or, for a zero-count row, the iteration just after) a row whose
   flag is set *)
Definition starts_flagged {C} (flag : row C -> Z) (rows : list (row C)) (i : Z) : Prop :=
  exists p r q, rows = p ++ r :: q /\ flag r = 1 /\ i = Z.of_nat (length (expand p)).

(* ds is the decimal notation of n *)
Definition decimal (ds : list Z) (n : Z) : Prop :=
  ds <> [] /\ Forall (fun d => 0 <= d <= 9) ds /\
  fold_left (fun v d => 10 * v + d) ds 0 = n /\
  (hd 0 ds = 0 -> length ds = 1%nat).

(* k is the position of the first minimum of l, with value m *)
Definition first_min (l : list R) (k : nat) (m : R) : Prop :=
  nth_error l k = Some m /\
  (forall j x, nth_error l j = Some x -> (m <= x)%R) /\
  (forall j x, nth_error l j = Some x -> (j < k)%nat -> (m < x)%R).

(* j is the most recent iteration <= k at which a grid search was scheduled *)
Definition last_grid (l : list pin) (k j : nat) : Prop :=
  (j <= k)%nat /\ (exists i, nth_error l j = Some i /\ i_grid i = true) /\
  (forall m i, (j < m <= k)%nat -> nth_error l m = Some i -> i_grid i = false).

Definition nonneg_rows {C} (rows : list (row C)) : Prop := Forall (fun r => 0 <= r_count r) rows.

Section SearchSpec.
  Variables cmd img : Type.
  (* the k-th (regularisation, gain) pair tried is v, with outcome o *)
  Definition evaluation (efc : nat -> R * R -> R * cmd * img) (regs facs : list R) (k : nat) (v : R * R)
     (o : R * cmd * img) : Prop :=
    nth_error (vals_list regs facs) k = Some v /\ o = efc k v.

  (* What the schedule asks of one iteration, given the best (regularisation, gain) of the most
     recent grid search, if any: a real entry is the regularisation itself, a complex one is an
     offset from the best; the gain is the best gain, 1 before any grid search; the command is the
     one computed for that pair (by a fresh evaluation, or during this iteration's grid search). *)
  Definition planned_as_scheduled (grid : nat -> R * R -> R * cmd * img)
      (single : R * R -> R * cmd * img) (regs facs : list R)
      (best : option (R * R)) (i : pin) (o : pout cmd img) : Prop :=
    (i_im i = 0%R -> o_reg o = i_re i) /\
    (i_im i <> 0%R -> exists b f, best = Some (b, f) /\ o_reg o = (b + i_re i)%R) /\
    (let fac := match best with Some (_, f) => f | None => 1%R end in
     (single (o_reg o, fac) = (o_min o, o_cmd o, o_im o)) \/
     (i_grid i = true /\ i_im i <> 0%R /\ i_re i = 0%R /\
      exists n, evaluation grid regs facs n (o_reg o, fac) (o_min o, o_cmd o, o_im o))).
End SearchSpec.
