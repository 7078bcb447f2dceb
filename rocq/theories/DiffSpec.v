(* Specification vocabulary for the differentiable DM. *)
From Verif Require Import Base RBase CBase PropModel OptModel DiffModel.
Open Scope R_scope.
(* sum of the products of the entries of two r x c arrays *)
Definition rdot (r c : nat) (g s : field R) : R := rsum r (fun i => rsum c (fun j => fpx g i j * fpx s i j)).
Definition dims {A} (r c : nat) (f : field A) : Prop := frows f = r /\ fcols f = c.
(* sample of actuator k along an axis of n samples with nact actuators, sep samples apart *)
Definition act_pos (n nact sep k : nat) : Z :=
  if Nat.even nact then (Z.of_nat n / 2 + (Z.of_nat k - Z.of_nat nact / 2) * Z.of_nat sep + Z.of_nat sep / 2)%Z
  else (Z.of_nat n / 2 + (Z.of_nat k - (Z.of_nat nact + 1) / 2) * Z.of_nat sep)%Z.
(* all actuators of the axis lie inside the array *)
Definition act_fit (n nact sep : nat) : Prop := (1 <= sep)%nat /\ (1 <= nact)%nat /\ (0 <= act_pos n nact sep 0)%Z /\ (act_pos n nact sep (nact - 1) < Z.of_nat n)%Z.
(* a DM that has been initialised and then given the commands [hist], and last the command [a] *)
Fixpoint updates (d : dm_model) (l : list (field R)) : res dm_model := match l with [] => Ok d | a :: r => do d' <- dm_update d a; updates d' r end.
Definition commanded (ifn : field R) (nact sep : nat) (shx shy up : R) (hist : list (field R)) (a : field R) : res dm_model :=
  do d <- dm_init ifn nact nact sep sep shx shy up; do d' <- updates d hist; dm_update d' a.
(* entry of an M x N array continued periodically *)
Definition periodic (f : field R) (y x : Z) : R := fpx f (Z.to_nat (y mod Z.of_nat (frows f))) (Z.to_nat (x mod Z.of_nat (fcols f))).
(* the surface: every actuator adds its height times the influence function, centred on the actuator *)
Definition superposed (ifn : field R) (nact sep : nat) (sx sy : Z) (a : field R) (y x : Z) : R :=
  rsum nact (fun r => rsum nact (fun c => fpx a r c * periodic ifn (y - (act_pos (frows ifn) nact sep r + sy) + Z.of_nat (frows ifn) / 2) (x - (act_pos (fcols ifn) nact sep c + sx) + Z.of_nat (fcols ifn) / 2))).
