(* Specification vocabulary for C106 *)
From Verif Require Import Base RBase CBase PropModel PrpModel ApSpec AccModel.
Open Scope R_scope.
(* a factor for n x n wavefronts that is nowhere zero *)
Definition nowhere_zero (n : nat) (v : operand) : Prop :=
  match v with Flt x => x <> 0 | Cpx _ => False | Arr f => frows f = n /\ fcols f = n /\ forall i j, (i < n)%nat -> (j < n)%nat -> fpx f i j <> RtoC 0 end.
(* what it is at row i, column j of the wavefront with its centre at the middle *)
Definition at_pixel (v : operand) (i j : nat) : C := match v with Flt x => RtoC x | Cpx c => c | Arr f => fpx f i j end.
Definition fits (n : nat) (v : operand) : Prop := match v with Arr f => frows f = n /\ fcols f = n | _ => True end.
(* the same wavefront but for its array *)
Definition same_but_array (w w' : wavefront) : Prop := w' = set_arr w (w_arr w').
