(* Specification vocabulary for the voltage constraints: what each actuator's command must be, in
   terms of a single actuator and the lists of pins and ties, over the reals. *)
From Verif Require Import Base RBase CtrlModel DmModel.
Open Scope R_scope.

Definition Rltb (x y : R) : bool := if Rlt_dec x y then true else false.
Definition dmr := dmc R.
Definition enforce : dmr -> res dmr := enforce_constraints R 0 Rplus Rltb.

Definition val (l : list R) (i : nat) : R := nth i l 0.
Definition idx_ok (n : nat) (k : Z) : Prop := (0 <= k < Z.of_nat n)%Z.

(* a usable DM record with n = Nact*Nact actuators *)
Definition dm_ok (n : nat) (d : dmr) : Prop :=
  (0 <= cNact d)%Z /\ (cNact d * cNact d = Z.of_nat n)%Z /\
  length (cV d) = n /\ length (biasMap d) = n /\
  Forall (idx_ok n) (dead d) /\
  (forall m, dead_map d = Some m -> length m = n) /\
  Forall (idx_ok n) (pinned d) /\ length (Vpinned d) = length (pinned d) /\
  Forall (fun p => idx_ok n (fst p) /\ idx_ok n (snd p)) (tied d).

(* dead according to the map when it has been built, else according to the list *)
Definition is_dead (d : dmr) (i : nat) : Prop :=
  match dead_map d with
  | Some m => nth i m false = true
  | None => In (Z.of_nat i) (dead d)
  end.

(* [last_assoc i keys vals]: the value paired with the last occurrence of key i *)
Fixpoint last_assoc {X} (i : Z) (keys : list Z) (vals : list X) : option X :=
  match keys, vals with
  | k :: tk, x :: tv =>
    match last_assoc i tk tv with
    | Some y => Some y
    | None => if (k =? i)%Z then Some x else None
    end
  | _, _ => None
  end.

(* the value actuator i is pinned to, if any: its most recent pin *)
Definition pin_of (d : dmr) (i : nat) : option R := last_assoc (Z.of_nat i) (pinned d) (Vpinned d).
(* the actuator that actuator i must copy, if any *)
Definition copies (d : dmr) (i : nat) : option Z :=
  last_assoc (Z.of_nat i) (map snd (tied d)) (map fst (tied d)).

(* [limited d i v]: what one actuator must be set to before ties are applied *)
Inductive limited (d : dmr) (i : nat) : R -> Prop :=
| lim_high v0 : alive d i v0 -> cVmax d < v0 + val (biasMap d) i -> limited d i (cVmax d)
| lim_low v0 : alive d i v0 -> ~ cVmax d < v0 + val (biasMap d) i ->
    v0 + val (biasMap d) i < cVmin d -> limited d i (cVmin d)
| lim_pin v0 p : alive d i v0 -> ~ cVmax d < v0 + val (biasMap d) i ->
    ~ v0 + val (biasMap d) i < cVmin d -> pin_of d i = Some p -> limited d i p
| lim_free v0 : alive d i v0 -> ~ cVmax d < v0 + val (biasMap d) i ->
    ~ v0 + val (biasMap d) i < cVmin d -> pin_of d i = None -> limited d i v0
(* the command with dead actuators zeroed *)
with alive (d : dmr) (i : nat) : R -> Prop :=
| al_dead : is_dead d i -> alive d i 0
| al_live : ~ is_dead d i -> alive d i (val (cV d) i).

(* no actuator that copies another is itself copied *)
Definition no_chains (d : dmr) : Prop :=
  forall a b, In (a, b) (tied d) -> ~ In a (map snd (tied d)).
(* no actuator is asked to copy two others *)
Definition one_source (d : dmr) : Prop := NoDup (map snd (tied d)).

(* a pin that, with its bias, still violates a limit is a pin at that limit: true of an empty list
   and of pins made by the code *)
Definition stable_pins (d : dmr) : Prop := forall i p, pin_of d i = Some p ->
  (cVmax d < p + val (biasMap d) i -> p = cVmax d) /\ (p + val (biasMap d) i < cVmin d -> p = cVmin d).
(* no bias exceeds the voltage range *)
Definition small_bias (d : dmr) : Prop :=
  cVmin d <= cVmax d /\ forall i, (i < length (biasMap d))%nat -> Rabs (val (biasMap d) i) <= cVmax d - cVmin d.

