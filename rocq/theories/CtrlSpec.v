(* Specification vocabulary for controller vector packing. *)
From Verif Require Import Base CtrlModel.
Open Scope Z_scope.
Section Spec.
  Context {A : Type}.

  Definition get_dm (mp : mp_t A) (k : Z) : option (dm A) :=
    if k =? 1 then Some (dm1 mp) else if k =? 2 then Some (dm2 mp)
    else if k =? 8 then Some (dm8 mp) else if k =? 9 then Some (dm9 mp) else None.
  Definition get_delta (d : dDM_t A) (k : Z) : option (list A) :=
    if k =? 1 then dD1 d else if k =? 2 then dD2 d
    else if k =? 8 then dD8 d else if k =? 9 then dD9 d else None.

  (* a DM whose command has NactTotal entries and whose active list names distinct actuators *)
  Definition wf_dm (d : dm A) : Prop :=
    Z.of_nat (length (V d)) = NactTotal d /\
    NoDup (act_ele d) /\ Forall (fun a => 0 <= a < NactTotal d) (act_ele d) /\
    Nele d = Z.of_nat (length (act_ele d)).
  Definition wf_mp (mp : mp_t A) : Prop :=
    forall k d, used mp k = true -> get_dm mp k = Some d -> wf_dm d.

  (* number of control variables of DM k *)
  Definition nvars (mp : mp_t A) (k : Z) : nat :=
    if used mp k then match get_dm mp k with Some d => length (act_ele d) | None => O end else O.
  (* where the variables of DM k start in the control vector: DMs in the order 1, 2, 8, 9 *)
  Definition offset (mp : mp_t A) (k : Z) : nat :=
    Nat.add (Nat.add (if 1 <? k then nvars mp 1 else O) (if 2 <? k then nvars mp 2 else O))
      (if 8 <? k then nvars mp 8 else O).
  Definition total (mp : mp_t A) : nat := (nvars mp 1 + nvars mp 2 + nvars mp 8 + nvars mp 9)%nat.

  (* d' is d with command old + x, entry by entry *)
  Definition updated (add : A -> A -> A) (d : dm A) (x : list A) (d' : dm A) : Prop :=
    exists v, d' = set_V d v /\ length v = length (V d) /\
      forall i a b, nth_error (V d) i = Some a -> nth_error x i = Some b -> nth_error v i = Some (add a b).

  (* DM number of every control variable *)
  Definition legend (mp : mp_t A) : list Z :=
    repeat 1 (nvars mp 1) ++ repeat 2 (nvars mp 2) ++ repeat 8 (nvars mp 8) ++ repeat 9 (nvars mp 9).
End Spec.
