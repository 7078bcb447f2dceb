(* Specification vocabulary for the command gradient. *)
From Verif Require Import Base RBase StrBase CBase PropModel OptModel OptSpec GradModel GradSpec DiffModel DiffSpec CmdModel.
Open Scope R_scope.
(* sum of the products of two vectors *)
Definition vdot (v d : list R) : R := rsuml (map (fun p => fst p * snd p) (combine v d)).
(* a DM object ready for use: its model has been initialised and commanded at least once, without resampling, on an even array *)
Definition dm_ready (k : dmcmd) : Prop := exists ifn sep shx shy hist a,
  commanded ifn (k_nact k) sep shx shy 1 hist a = Ok (k_dm k) /\ Forall (dims (k_nact k) (k_nact k)) hist /\ dims (k_nact k) (k_nact k) a /\
  act_fit (frows ifn) (k_nact k) sep /\ act_fit (fcols ifn) (k_nact k) sep /\ Nat.even (frows ifn) = true /\ Nat.even (fcols ifn) = true /\
  dims (k_nact k) (k_nact k) (k_V k) /\ NoDup (k_ele k) /\ Forall (fun e => (e < k_nact k * k_nact k)%nat) (k_ele k).
(* S is the surface of the DM at its present voltages *)
Definition shows (k : dmcmd) (n : nat) (S : field R) : Prop := exists d T i, surface k (zeros (k_nact k) (k_nact k)) n = Ok (d, (T, i)) /\ dims n n S /\ forall y x, (y < n)%nat -> (x < n)%nat -> fpx S y x = fpx T y x.
(* which DM each entry of the command vector belongs to: first the controlled actuators of DM1, then those of DM2 *)
Definition both_dms (k1 k2 : dmcmd) : list Z := map (fun _ => 1%Z) (k_ele k1) ++ map (fun _ => 2%Z) (k_ele k2).
Definition cmd_cost (r : res (R * list R)) : R := match r with Ok (c, _) => c | Raise _ => 0 end.
(* the surface of a DM, and the instrument, after the controlled actuators have moved by u *)
Definition dm_surf (k : dmcmd) (n : nat) (u : list R) : field R := match (do dv <- put (k_nact k) (k_ele k) u; surface k dv n) with Ok (_, (s, _)) => s | Raise _ => zeros n n end.
Definition at_command (k1 k2 : dmcmd) (o : optics) (u1 u2 : list R) : optics := with_surfs o (dm_surf k1 (o_pad o) u1) (dm_surf k2 (o_pad o) u2).
