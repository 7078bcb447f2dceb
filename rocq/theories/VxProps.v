(* C78: columns of the control Jacobian of a vortex coronagraph (falco/model/jacobians.py: precomp, vortex).
   The unused focal-plane-mask grid of a vortex instrument (o_f3, o_fpm) only has to be well formed. *)
From Coquelicot Require Import Coquelicot.
From Verif Require Import Base RBase StrBase CBase UtilModel PropModel PropSpec OptModel OptSpec LinBase OptProofs4 GradModel GradSpec SrcSpec SrcModel PokeModel PokeSpec PokeProofs6 PokeProofs7 PokeProofs8 PokeProofs9 VxModel VxSpec VxProofs2 VxProofs3 VxProofs4.
Open Scope R_scope.

Lemma ready_dx4 o pk d : 0 < d -> poke_ready o pk -> poke_ready (with_dx4 o d) pk.
Proof. intros Hd P. destruct P as [W A B C D E F G H]. constructor; auto. destruct W. constructor; auto. Qed.
(* DM1: when both DMs are in a pupil plane, or the box is the whole array, the column is the derivative, with respect to the voltage
   of the actuator, of the field of the compact model with the vortex propagated by FFTs of nfft samples; the last MFT has the
   sampling of pupil P2, so the model is the instrument's own only if P4 has that sampling. *)
Theorem C78_dm1_column_is_derivative o w I00 q M Ein pk nd2 : poke_ready o pk -> o_use1 o = true -> 0 < w -> 0 < I00 ->
  frows M = g_Neta (o_fend o) -> fcols M = g_Nxi (o_fend o) -> pk_dead pk = false -> even_size nd2 -> (1 <= nd2 <= o_pad o)%nat -> (o_narr4 o <= nfft pk)%nat ->
  (o_d1 o = 0 /\ o_d12 o = 0) \/ whole_array o pk ->
  exists fields col, precomp o w Ein nd2 = Ok fields /\ vx_column o w I00 q M fields false pk = Ok col /\ length col = mask_count M /\
    forall i j, (i < frows M)%nat -> (j < fcols M)%nat -> fpx M i j = true ->
      exists D, derivative (fun t => vx_value (poked_by (with_dx4 o (o_dx2 o)) false pk t) w I00 (nfft pk) q Ein i j) D /\ nth (mask_rank M i j) col (RtoC 0) = Cmult (RtoC (pk_weight pk)) D.
Proof.
  intros P U Hw HI M1 M2 Dd E2 H2 N4 Hd. pose proof (wf_dx2 o (pr_wf o pk P)) as D2.
  exact (vx_column_dm1 (with_dx4 o (o_dx2 o)) w I00 q M Ein pk nd2 (ready_dx4 o pk _ D2 P) U Hw HI M1 M2 Dd E2 H2 N4 eq_refl Hd).
Qed.
(* DM2: when DM2 is in a pupil plane, whatever the distances to it, or the box is the whole array; the last MFT has the sampling of P4 *)
Theorem C78_dm2_column_is_derivative o w I00 q M Ein pk : poke_ready o pk -> o_use2 o = true -> 0 < w -> 0 < I00 ->
  frows M = g_Neta (o_fend o) -> fcols M = g_Nxi (o_fend o) -> pk_dead pk = false -> (o_narr4 o <= nfft pk)%nat ->
  o_d1 o + o_d12 o = 0 \/ whole_array o pk ->
  exists fields col, precomp o w Ein (pk_nd pk) = Ok fields /\ vx_column o w I00 q M fields true pk = Ok col /\ length col = mask_count M /\
    forall i j, (i < frows M)%nat -> (j < fcols M)%nat -> fpx M i j = true ->
      exists D, derivative (fun t => vx_value (poked_by o true pk t) w I00 (nfft pk) q Ein i j) D /\ nth (mask_rank M i j) col (RtoC 0) = Cmult (RtoC (pk_weight pk)) D.
Proof. exact (vx_column_dm2 o w I00 q M Ein pk). Qed.
Theorem C78_dead_actuator_zero o w I00 q M fields dm2 pk : pk_dead pk = true ->
  exists col, vx_column o w I00 q M fields dm2 pk = Ok col /\ length col = mask_count M /\ forall k, nth k col (RtoC 0) = RtoC 0.
Proof. intros H. unfold vx_column. rewrite H. pose proof (dead_column o w I00 false M fields dm2 pk H) as X. unfold lyot_column in X. rewrite H in X. exact X. Qed.
(* the FFTs have a power of two of samples, at least as many as the DM array and eight times the box *)
Theorem C78_fft_size pk : (1 <= pk_nd pk)%nat -> (1 <= pk_nbox pk)%nat ->
  (exists e, nfft pk = (2 ^ e)%nat) /\ (pk_nd pk <= nfft pk)%nat /\ (8 * pk_nbox pk <= nfft pk)%nat.
Proof.
  intros H1 H2. destruct (nfft_pow pk H1 H2) as (_ & A & B). split; [|auto]. unfold nfft in *. set (z := nextpow2 _) in *. exists (Z.to_nat z).
  assert (0 <= z)%Z. { destruct (Z_lt_le_dec z 0) as [L|]; auto. rewrite Z.pow_neg_r in A by auto. cbn in A. lia. }
  rewrite <- (Z2Nat.id z) at 1 by auto. apply Nat2Z.inj. rewrite Z2Nat.id by (apply Z.pow_nonneg; lia). now rewrite Nat2Z.inj_pow.
Qed.
(* the propagation through the vortex keeps the energy, whatever the charge, if the pupil array fits the FFTs *)
Theorem C78_vortex_lossless N n q E : even_size N -> even_size n -> (1 <= N <= n)%nat -> frows E = N -> fcols E = N -> fenergy (fft_vortex n q E) = fenergy E.
Proof. intros He He' H S1 S2. apply (vortex_energy N n q E); auto. split; auto. Qed.
(* without charge it turns the (padded) pupil by 180 degrees about the sample n/2 and does nothing else *)
Theorem C78_no_charge_is_rotation N n E E' i j : even_size N -> even_size n -> (1 <= N <= n)%nat -> frows E = N -> fcols E = N -> pad_cropf E n n = Ok E' -> (i < n)%nat -> (j < n)%nat ->
  fpx (fft_vortex n 0 E) i j = fpx E' ((n - i) mod n)%nat ((n - j) mod n)%nat.
Proof. intros He He' H S1 S2. apply (no_charge N n E E' i j); auto. split; auto. Qed.
Lemma nfft_16 pk : pk_nd pk = 4%nat -> pk_nbox pk = 2%nat -> nfft pk = 16%nat.
Proof.
  intros A B. unfold nfft. rewrite A, B. change (Nat.max 4 (8 * 2)) with 16%nat. unfold nextpow2. destruct (Req_EM_T (INR 16) 0) as [E|_]; [cbn in E; lra|].
  assert (L : log2 (Rabs (INR 16)) = 4). { rewrite Rabs_right by (cbn; lra). unfold log2. replace (INR 16) with (2 ^ 4) by (cbn; ring). rewrite ln_pow by lra. assert (ln 2 <> 0) by (apply Rgt_not_eq; rewrite <- ln_1; apply ln_increasing; lra). cbn [INR]. field. auto. }
  rewrite L. rewrite Zceil_IZR. reflexivity.
Qed.
Example C78_example : poke_ready (inst Interpixel (1/3) (1/5)) pk24 /\ whole_array (inst Interpixel (1/3) (1/5)) pk24 /\ nfft pk24 = 16%nat /\ (o_narr4 (inst Interpixel (1/3) (1/5)) <= nfft pk24)%nat.
Proof. split; [apply pk24_ready|]. split; [apply pk24_ready|]. rewrite (nfft_16 pk24 eq_refl eq_refl). split; [reflexivity|]. cbn. lia. Qed.
