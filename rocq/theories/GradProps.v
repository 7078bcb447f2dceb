(* C67: cost and gradient of the reverse-mode compact model (AD-EFC). *)
From Coquelicot Require Import Coquelicot.
From Verif Require Import Base RBase CBase PropModel OptModel OptSpec GradModel GradSpec GradProofs7 GradProofs8.
Open Scope R_scope.

(* the cost returned for candidate surfaces is the energy that the estimate plus the predicted change leaves in the mask *)
Theorem C67_cost_value o M b1 b2 ms : gradient_ready o -> square (o_pad o) b1 -> square (o_pad o) b2 -> frows M = g_Neta (o_fend o) -> fcols M = g_Nxi (o_fend o) -> ms <> [] -> Forall (mode_ready M) ms ->
  exists g1 g2, rev_surf o (with_surfs o b1 b2) M ms = Ok (energy_after M ms (change o (with_surfs o b1 b2)), Some (g1, g2)) /\ square (o_pad o) g1 /\ square (o_pad o) g2.
Proof. intros G B1 B2 M1 M2 H HF. destruct (rev_surf_gradient o M b1 b2 ms G B1 B2 M1 M2 H HF) as (g1 & g2 & E & S1 & S2 & _). exists g1, g2. auto. Qed.
(* at the command for which the fields were stored, the returned arrays are the gradient of the returned cost *)
Theorem C67_gradient_at_stored_command o M ms : gradient_ready o -> frows M = g_Neta (o_fend o) -> fcols M = g_Nxi (o_fend o) -> ms <> [] -> Forall (mode_ready M) ms ->
  exists c g1 g2, rev_surf o o M ms = Ok (c, Some (g1, g2)) /\ square (o_pad o) g1 /\ square (o_pad o) g2 /\
    forall d1 d2, square (o_pad o) d1 -> square (o_pad o) d2 -> is_derive (fun t => cost_of (rev_surf o (moved o d1 d2 t) M ms)) 0 (dot2 (o_pad o) g1 d1 + dot2 (o_pad o) g2 d2).
Proof. exact (rev_surf_at_zero o M ms). Qed.
(* at any other command they are the gradient of the energy in which the sensitivity of the image is that of the stored command *)
Theorem C67_gradient_uses_stored_sensitivity o M b1 b2 ms : gradient_ready o -> square (o_pad o) b1 -> square (o_pad o) b2 -> frows M = g_Neta (o_fend o) -> fcols M = g_Nxi (o_fend o) -> ms <> [] -> Forall (mode_ready M) ms ->
  exists c g1 g2, rev_surf o (with_surfs o b1 b2) M ms = Ok (c, Some (g1, g2)) /\
    forall d1 d2, square (o_pad o) d1 -> square (o_pad o) d2 ->
      is_derive (fun t => energy_after M ms (fun m i j => Cplus (change o (with_surfs o b1 b2) m i j) (change o (moved o d1 d2 t) m i j))) 0 (dot2 (o_pad o) g1 d1 + dot2 (o_pad o) g2 d2).
Proof. intros G B1 B2 M1 M2 H HF. destruct (rev_surf_gradient o M b1 b2 ms G B1 B2 M1 M2 H HF) as (g1 & g2 & E & S1 & S2 & D). eexists _, g1, g2. split; [exact E|exact D]. Qed.
(* so away from the stored command they are in general not the gradient of the returned cost *)
Theorem C67_gradient_elsewhere_refuted : exists o M ms b1 b2 d1 d2 c g1 g2, gradient_ready o /\ frows M = g_Neta (o_fend o) /\ fcols M = g_Nxi (o_fend o) /\ Forall (mode_ready M) ms /\
  square (o_pad o) b1 /\ square (o_pad o) b2 /\ square (o_pad o) d1 /\ square (o_pad o) d2 /\ rev_surf o (with_surfs o b1 b2) M ms = Ok (c, Some (g1, g2)) /\
  ~ is_derive (fun t => cost_of (rev_surf o (with_surfs o (along b1 d1 t) (along b2 d2 t)) M ms)) 0 (dot2 (o_pad o) g1 d1 + dot2 (o_pad o) g2 d2).
Proof.
  destruct frozen_wrong as (c & g1 & g2 & E & H). exists (flc11 None), M11, [m11 (0, 1)], (k11 (1/4)), (k11 0), (k11 1), (k11 0), c, g1, g2.
  split; [exact flc11_ready|]. split; [reflexivity|]. split; [reflexivity|]. split; [constructor; [apply m11_ready|constructor]|]. do 4 (split; [apply sq11|]). split; [exact E|exact H].
Qed.
(* a stop in the plane of DM2 is ignored by the gradient of DM1 *)
Theorem C67_dm2_stop_refuted : exists o M ms d1 d2 c g1 g2, well_formed o /\ o_stop2 o <> None /\ Forall (mode_ready M) ms /\ square (o_pad o) d1 /\ square (o_pad o) d2 /\
  rev_surf o o M ms = Ok (c, Some (g1, g2)) /\ ~ is_derive (fun t => cost_of (rev_surf o (moved o d1 d2 t) M ms)) 0 (dot2 (o_pad o) g1 d1 + dot2 (o_pad o) g2 d2).
Proof.
  destruct stop_wrong as (c & g1 & g2 & E & H). exists blocked, M11, [m11 (0, 1)], (k11 1), (k11 0), c, g1, g2.
  split; [apply flc11_wf|]. split; [discriminate|]. split; [constructor; [apply m11_ready|constructor]|]. do 2 (split; [apply sq11|]). split; [exact E|exact H].
Qed.
(* the hypotheses are met: a one-pixel field-stop coronagraph with an estimate of i *)
Example C67_example : gradient_ready (flc11 None) /\ Forall (mode_ready M11) [m11 (0, 1)] /\ frows M11 = g_Neta (o_fend (flc11 None)) /\ fcols M11 = g_Nxi (o_fend (flc11 None)).
Proof. split; [exact flc11_ready|]. split; [constructor; [apply m11_ready|constructor]|]. split; reflexivity. Qed.
