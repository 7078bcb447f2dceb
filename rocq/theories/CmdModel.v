(* Model of falco/model/models.py:474-489, 520-526 and 614-640: the part of compact_reverse_gradient between the vector of
   actuator commands and the DM surfaces, for DMs with the differentiable model. *)
From Verif Require Import Base RBase StrBase UtilModel CBase PropModel OptModel OptSpec GradModel DiffModel.
Open Scope R_scope.

(* attributes of mp.dm1 or mp.dm2: differentiableModel, V, VtoH, dead_map, Nact, act_ele.  Assumed: HminStep and orientation are not set, NactTotal = Nact^2 *)
Record dmcmd : Type := mkdc { k_dm : dm_model; k_V : field R; k_vtoh : field R; k_dead : field bool; k_nact : nat; k_ele : list nat }.
(* command_vec[uLegend == k] *)
Definition select (legend : list Z) (k : Z) (u : list R) : res (list R) :=
  if Nat.eqb (length legend) (length u) then Ok (map snd (filter (fun p => Z.eqb (fst p) k) (combine legend u))) else Raise IndexError.
(* the value that x[ele] = u leaves at index m: the last assignment wins *)
Fixpoint last_put (ele : list nat) (u : list R) (m : nat) : option R :=
  match ele, u with e :: es, x :: xs => match last_put es xs m with Some y => Some y | None => if Nat.eqb m e then Some x else None end | _, _ => None end.
(* models.py:484-489: zeros(NactTotal), [act_ele] = vector, reshape((Nact, Nact)) *)
Definition put (nact : nat) (ele : list nat) (u : list R) : res (field R) :=
  if negb (forallb (fun e => Nat.ltb e (nact * nact)) ele) then Raise IndexError
  else let f v := mkf nact nact (fun i j => match last_put ele v (i * nact + j) with Some x => x | None => 0 end) in
  if Nat.eqb (length u) (length ele) then Ok (f u) else if Nat.eqb (length u) 1 then Ok (f (map (fun _ => hd 0 u) ele)) else Raise ValueError.
Definition alive (k : dmcmd) (i j : nat) : R := if fpx (k_dead k) i j then 0 else 1.
(* heights sent to the DM: models.py:521-522, then falco/dm.py:914 (dead actuators; no actuator pinned, tied or out of range) and 80: heightMap = VtoH * V *)
Definition heights (k : dmcmd) (dv : field R) : field R := mkf (frows (k_V k)) (fcols (k_V k)) (fun i j => fpx (k_vtoh k) i j * ((fpx (k_V k) i j + fpx dv i j) * alive k i j)).
(* falco/dm.py:122-124: update, then render(Nout, wfe=False) *)
Definition surface (k : dmcmd) (dv : field R) (n : nat) : res (dm_model * (field R * (nat * nat))) :=
  do d <- dm_update (k_dm k) (heights k dv); do r <- render d n n false; Ok (d, r).
(* models.py:620-634: back through the DM, times VtoH and the live actuators, at the controlled actuators *)
Definition back (k : dmcmd) (d : dm_model) (inter : nat * nat) (g : field R) : res (list R) :=
  do b <- render_backprop d (Some inter) g false;
  Ok (map (fun e => let i := (e / k_nact k)%nat in let j := (e mod k_nact k)%nat in fpx b i j * (fpx (k_vtoh k) i j * alive k i j)) (k_ele k)).
Definition sumsq (u : list R) : R := rsuml (map (fun x => x * x) u).
(* cost and gradient for the command vector u; o: the instrument for which the fields were stored; utu: models.py:615 *)
Definition rev_command (k1 k2 : dmcmd) (legend : list Z) (o : optics) (M : field bool) (ms : list mode) (utu : R) (u : list R) : res (R * list R) :=
  do u1 <- select legend 1 u; do u2 <- select legend 2 u;
  do dv1 <- put (k_nact k1) (k_ele k1) u1; do dv2 <- put (k_nact k2) (k_ele k2) u2;
  do x1 <- surface k1 dv1 (o_pad o); do x2 <- surface k2 dv2 (o_pad o);
  do r <- rev_surf o (with_surfs o (fst (snd x1)) (fst (snd x2))) M ms;
  match snd r with
  | None => Raise TypeError                       (* no mode: the totals are still the number 0 *)
  | Some (g1, g2) =>
    do v1 <- back k1 (fst x1) (snd (snd x1)) g1; do v2 <- back k2 (fst x2) (snd (snd x2)) g2;
    Ok (fst r + utu * sumsq u, map (fun x => x + 2 * utu * x) (v1 ++ v2))
  end.
