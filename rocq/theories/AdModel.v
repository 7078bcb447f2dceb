(* Model of the actuator bounds given to the optimiser by the AD-EFC controller:
   falco/ctrl.py:928-957. *)
From Verif Require Import Base RBase CtrlModel.
Open Scope R_scope.

(* mp.dmk.Vmin, mp.dmk.Vmax, mp.dmk.biasMap.flatten() *)
Record limits : Type := mklim { Vmin : R; Vmax : R; bias : list R }.

(* dmklb[act_ele], dmkub[act_ele]; Vmin - (V + bias), Vmax - (V + bias) *)
Definition dm_bounds (d : dm R) (l : limits) : res (list (R * R)) :=
  if Nat.eqb (length (V d)) (length (bias l)) then
    gather (map (fun '(v, b) => (Vmin l - (v + b), Vmax l - (v + b))) (combine (V d) (bias l))) (act_ele d)
  else Raise ValueError.

(* bounds array: rows of DM 1, rows of DM 2, zeros for DMs 8 and 9 (never assigned).
   The row masks cvar.uLegend == k select consecutive rows (see init). *)
Definition ad_bounds (mp : mp_t R) (l1 l2 : limits) : res (list (R * R)) :=
  do b1 <- (if used mp 1 then dm_bounds (dm1 mp) l1 else Ok []);
  do b2 <- (if used mp 2 then dm_bounds (dm2 mp) l2 else Ok []);
  let z k d := repeat (0, 0) (if used mp k then length (act_ele d) else O) in
  Ok (b1 ++ b2 ++ z 8%Z (dm8 mp) ++ z 9%Z (dm9 mp)).

(* the limits of DM k (1 or 2) *)
Definition lims (l1 l2 : limits) (k : Z) : limits := if (k =? 1)%Z then l1 else l2.
