(* Specification vocabulary for PROPER's fit of actuator commands (C108) *)
From Verif Require Import Base RBase FitModel.
Open Scope R_scope.
(* the distance between the surface of a command and the surface wanted *)
Definition misfit (n m : nat) (z : image) (w : kernel) (c : image) : R := norm2 n m (sub2 z (conv n m w c)).
(* the successive commands: each adds the difference left *)
Fixpoint trial (n m : nat) (z : image) (w : kernel) (k : nat) : image :=
  match k with O => z | S k => add2 (trial n m z w k) (sub2 z (conv n m w (trial n m z w k))) end.
(* each of the first k corrections takes more than 1 % of the new misfit away *)
Definition improving (n m : nat) (z : image) (w : kernel) (k : nat) : Prop :=
  forall i, (i < k)%nat -> 101 * misfit n m z w (trial n m z w (S i)) < 100 * misfit n m z w (trial n m z w i).
(* everywhere within d *)
Definition within (n m : nat) (d : R) (a b : image) : Prop := forall i j, (i < n)%nat -> (j < m)%nat -> Rabs (a i j - b i j) < d.
