(* C71: a column of the control Jacobian of a Lyot-type coronagraph is the derivative of the compact model's field. *)
From Verif Require Import Base RBase StrBase CBase PropModel PropSpec OptModel OptSpec PokeModel GradModel GradSpec PokeSpec PokeProofs8 PokeProofs9.
Open Scope R_scope.

(* DM1: exact when both DMs are in pupil planes, or when the box is the whole array.  nd2: size of DM2's array. *)
Theorem C71_dm1_column_is_derivative o w I00 scale M Ein pk nd2 : poke_ready o pk -> lyot_like o -> o_use1 o = true -> 0 < w -> 0 < I00 ->
  frows M = g_Neta (o_fend o) -> fcols M = g_Nxi (o_fend o) -> pk_dead pk = false -> even_size nd2 -> (1 <= nd2 <= o_pad o)%nat ->
  (o_d1 o = 0 /\ o_d12 o = 0) \/ whole_array o pk ->
  exists fields col, precomp o w Ein nd2 = Ok fields /\ lyot_column o w I00 scale M fields false pk = Ok col /\ length col = mask_count M /\
    forall i j, (i < frows M)%nat -> (j < fcols M)%nat -> fpx M i j = true ->
      exists D, derivative (fun t => model_field (poked_by o false pk t) w I00 scale Ein i j) D /\ nth (mask_rank M i j) col (RtoC 0) = Cmult (RtoC (pk_weight pk)) D.
Proof. exact (column_dm1 o w I00 scale M Ein pk nd2). Qed.
(* DM2: exact when DM2 is in a pupil plane, whatever the distances to it, or when the box is the whole array. *)
Theorem C71_dm2_column_is_derivative o w I00 scale M Ein pk : poke_ready o pk -> lyot_like o -> o_use2 o = true -> 0 < w -> 0 < I00 ->
  frows M = g_Neta (o_fend o) -> fcols M = g_Nxi (o_fend o) -> pk_dead pk = false ->
  o_d1 o + o_d12 o = 0 \/ whole_array o pk ->
  exists fields col, precomp o w Ein (pk_nd pk) = Ok fields /\ lyot_column o w I00 scale M fields true pk = Ok col /\ length col = mask_count M /\
    forall i j, (i < frows M)%nat -> (j < fcols M)%nat -> fpx M i j = true ->
      exists D, derivative (fun t => model_field (poked_by o true pk t) w I00 scale Ein i j) D /\ nth (mask_rank M i j) col (RtoC 0) = Cmult (RtoC (pk_weight pk)) D.
Proof. exact (column_dm2 o w I00 scale M Ein pk). Qed.
(* a dead actuator has no effect on the dark hole *)
Theorem C71_dead_actuator_zero o w I00 scale M fields dm2 pk : pk_dead pk = true ->
  exists col, lyot_column o w I00 scale M fields dm2 pk = Ok col /\ length col = mask_count M /\ forall k, nth k col (RtoC 0) = RtoC 0.
Proof. exact (dead_column o w I00 scale M fields dm2 pk). Qed.
Example C71_example_pupil : poke_ready (inst Pixel 0 0) pk13 /\ lyot_like (inst Pixel 0 0) /\ o_d1 (inst Pixel 0 0) + o_d12 (inst Pixel 0 0) = 0 /\ pk_dead pk13 = false.
Proof. split; [exact pk13_ready|]. split; [unfold lyot_like; cbn; auto|]. split; [cbn; lra|reflexivity]. Qed.
Example C71_example_whole : poke_ready (inst Interpixel (1/3) (1/5)) pk24 /\ lyot_like (inst Interpixel (1/3) (1/5)) /\ whole_array (inst Interpixel (1/3) (1/5)) pk24 /\ o_d12 (inst Interpixel (1/3) (1/5)) <> 0.
Proof. split; [apply pk24_ready|]. split; [unfold lyot_like; cbn; auto|]. split; [apply pk24_ready|]. cbn. lra. Qed.
