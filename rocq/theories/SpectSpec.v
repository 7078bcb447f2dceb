(* Specification vocabulary for spectral and modal weights. *)
From Verif Require Import Base RBase SpectModel.
Open Scope R_scope.

(* Nsbp sub-bands of K+1 wavelengths with shared end points make a regular grid of Nsbp*K steps over the
   band [lambda0 (1 - fracBW/2), lambda0 (1 + fracBW/2)]; wavelength number q, and its trapezoid-rule
   weight *)
Definition grid_lambda (Nsbp K : nat) (lambda0 fracBW : R) (q : nat) : R :=
  lambda0 * (1 - fracBW / 2) + INR q * (lambda0 * fracBW / INR (Nsbp * K)).
Definition trapezoid (Nsbp K : nat) (q : nat) : R :=
  (if (Nat.eqb q 0 || Nat.eqb q (Nsbp * K))%bool then 1/2 else 1) / INR (Nsbp * K).
(* wavelengths that count as the same: equal when rounded to a picometre; [separated]: any two others
   are more than 10 pm apart *)
Definition separated (n : nat) (lam : nat -> R) : Prop := forall i j, (i < n)%nat -> (j < n)%nat ->
  pm_key (lam i) <> pm_key (lam j) -> / 10 ^ 11 < Rabs (lam i - lam j).

(* first, middle and last sub-band *)
Definition special (Nsbp a : nat) : bool := Nat.eqb a 0 || Nat.eqb a (Nsbp / 2) || Nat.eqb a (Nsbp - 1).
(* the sub-bands a Zernike mode is controlled at: all for piston *)
Definition active (Nsbp : nat) (z : Z) (a : nat) : bool := if (z =? 1)%Z then true else special Nsbp a.
(* any enumeration of the distinct elements *)
Definition enumerates (set_list : list Z -> list Z) : Prop :=
  forall l, NoDup (set_list l) /\ forall x, In x (set_list l) <-> In x l.
(* (sub-band, Zernike) pairs in row-major order *)
Definition lex_lt (x y : nat * nat) : Prop := (fst x < fst y \/ (fst x = fst y /\ snd x < snd y))%nat.
