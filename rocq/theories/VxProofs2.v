(* From the box in pupil P2 through the vortex: agreement with the whole array. *)
From Coquelicot Require Import Coquelicot.
From Verif Require Import Base RBase StrBase UtilModel UtilProofs CBase PropModel PropSpec PropProofs PropProofs2 OptModel OptSpec LinBase OptProofs OptProofs2 OptProofs3 OptProofs4 OptProofs6 OptProofs7 DiffModel DiffSpec DiffProofs2 SrcModel PokeModel PokeProofs PokeProofs2 GradModel GradSpec GradProofs GradProofs3 GradProofs4 GradProofs5 PokeSpec PokeProofs3 PokeProofs4 PokeProofs5 PokeProofs6 PokeProofs7 PokeProofs8 VxModel VxSpec VxProofs.
Open Scope R_scope.

(* ---- the size of the FFTs ---- *)
Lemma nfft_pow pk : (1 <= pk_nd pk)%nat -> (1 <= pk_nbox pk)%nat -> Nat.even (nfft pk) = true /\ (pk_nd pk <= nfft pk)%nat /\ (8 * pk_nbox pk <= nfft pk)%nat.
Proof.
  intros H1 H2. unfold nfft. set (m := Nat.max (pk_nd pk) (8 * pk_nbox pk)). assert (Hm : (8 <= m)%nat) by (unfold m; lia).
  assert (Hx : INR m <> 0) by (apply not_0_INR; lia). destruct (nextpow2_spec (INR m) Hx) as [A _]. set (z := nextpow2 (INR m)) in *. rewrite Rabs_right in A by (apply Rle_ge, pos_INR).
  assert (Hz : (1 <= z)%Z).
  { destruct (Z_lt_le_dec z 1) as [L|]; auto. exfalso. assert (B : powerRZ 2 z <= 1).
    { rewrite powerRZ_Rpower by lra. rewrite <- (Rpower_O 2) by lra. apply Rle_Rpower; [lra|]. apply IZR_le. lia. }
    assert (8 <= INR m) by (replace 8 with (INR 8) by (cbn; ring); apply le_INR; auto). lra. }
  assert (E : powerRZ 2 z = IZR (2 ^ z)). { rewrite <- (Z2Nat.id z) at 1 by lia. rewrite <- pow_powerRZ. rewrite <- (Z2Nat.id z) at 2 by lia. rewrite <- pow_IZR. reflexivity. }
  rewrite E, INR_IZR_INZ in A. apply le_IZR in A. split.
  - apply Nat.even_spec. exists (Z.to_nat (2 ^ (z - 1))). replace z with (1 + (z - 1))%Z at 1 by lia. rewrite Z.pow_add_r by lia. rewrite Z2Nat.inj_mul by lia. reflexivity.
  - split; lia.
Qed.
(* ---- the propagation through the vortex is linear ---- *)
Lemma lin_mk (n m : nat) (K : nat -> nat -> nat -> nat -> nat -> nat -> C) : lin (fun E => Ok (mkf n m (fun k l => csum (frows E) (fun i => csum (fcols E) (fun j => Cmult (fpx E i j) (K (frows E) (fcols E) k l i j)))))).
Proof.
  intros r c. right. exists n, m, (fun k l i j => K r c k l i j). intros E [S1 S2]. eexists. split; [reflexivity|]. split; [split; reflexivity|]. intros k l Hk Hl. cbn [fpx]. rewrite S1, S2. unfold apply_kernel. apply csum2_ext. intros. ring.
Qed.
Lemma lin_eq f g : (forall E, f E = g E) -> lin f -> lin g.
Proof. intros H L r c. destruct (L r c) as [[e He]|(r' & c' & K & HK)]; [left; exists e; intros; rewrite <- H; auto|right; exists r', c', K; intros E S; rewrite <- H; auto]. Qed.
Definition to_focal (n : nat) (E : field C) : res (field C) := Ok (mkf n n (focal n E)).
Definition from_focal (n : nat) (q : R) (F : field C) : res (field C) :=
  Ok (mkf n n (fun i j => Cmult (RtoC (/ (INR n * INR n))) (csum (frows F) (fun k => csum (fcols F) (fun l => Cmult (Cmult (cis (q * EstModel.atan2 (off n k) (off n l))) (fpx F k l)) (wave n (off n k) (off n l) (off n i) (off n j))))))).
Lemma from_focal_lin n q : lin (from_focal n q).
Proof.
  intros r c. right. exists n, n, (fun i j k l => Cmult (RtoC (/ (INR n * INR n))) (Cmult (cis (q * EstModel.atan2 (off n k) (off n l))) (wave n (off n k) (off n l) (off n i) (off n j)))).
  intros E [S1 S2]. eexists. split; [reflexivity|]. split; [split; reflexivity|]. intros i j Hi Hj. cbn [fpx]. rewrite S1, S2. unfold apply_kernel. rewrite <- csum_scal. apply csum_ext. intros k Hk. rewrite <- csum_scal. apply csum_ext. intros l Hl. ring.
Qed.
Lemma lin_vortex n q : lin (fun E => Ok (fft_vortex n q E)).
Proof.
  apply (lin_eq (fun E => do F <- to_focal n E; from_focal n q F)); [reflexivity|]. apply lin_bind; [|apply from_focal_lin].
  exact (lin_mk n n (fun r c k l i j => wave n (off n k) (off n l) (off r i) (off c j))).
Qed.
Definition vtail (o : optics) (w : R) (n : nat) (q : R) (EP3 : field C) : res (field C) :=
  do r <- relay (fft_vortex n q EP3) (nrel o (o_n34 o) - 1) (o_cen o); do p <- pad_cropf r (o_narr4 o) (o_narr4 o); do E <- bop Cmult (o_lyot o) p; to_Fend o w (o_fend o) E.
Definition vfin (o : optics) (w I00 : R) (n : nat) (q : R) (EP3 : field C) : res (field C) := do F <- vtail o w n q EP3; Ok (normalise I00 F).
Lemma lin_vtail o w n q : lin (vtail o w n q).
Proof.
  apply (lin_eq (fun E => do V <- Ok (fft_vortex n q E); do r <- relay V (nrel o (o_n34 o) - 1) (o_cen o); do p <- pad_cropf r (o_narr4 o) (o_narr4 o); do E <- bop Cmult (o_lyot o) p; to_Fend o w (o_fend o) E)); [reflexivity|].
  apply lin_bind; [apply lin_vortex|]. apply lin_bind; [lstep|]. apply lin_bind; [lstep|]. apply lin_bind; [lstep|apply lin_to_Fend].
Qed.
Lemma lin_vfin o w I00 n q : lin (vfin o w I00 n q). Proof. unfold vfin. apply lin_bind; [apply lin_vtail|lstep]. Qed.
Lemma vx_from_fin o w I00 n q P3 : vx_from o w I00 n q P3 = vfin o w I00 n q P3.
Proof. unfold vx_from, vfin, vtail. destruct (relay _ _ _); [|reflexivity]. cbn [rbind]. destruct (pad_cropf _ _ _); [|reflexivity]. cbn [rbind]. destruct (bop _ _ _); reflexivity. Qed.
Lemma oks_vtail o w n q E : well_formed o -> 0 < w -> oks (vtail o w n q E) (g_Neta (o_fend o)) (g_Nxi (o_fend o)).
Proof.
  intros W Hw. unfold vtail. eapply oks_bind; [apply (oks_relay _ _ _ n n); [apply wf_cen; auto|split; reflexivity]|]. intros O1 S1. eapply oks_bind; [apply oks_pad; apply wf_narr4; auto|]. intros O2 S2.
  eapply oks_bind; [apply oks_bop; [exact (wf_lyot o W)|exact S2]|]. intros O3 S3. apply oks_to_Fend; auto. apply wf_fend; auto.
Qed.
(* ---- the box ---- *)
Lemma vx_core o nd n w q ay ax m ap B D0 E : well_formed o -> even_size (o_pad o) -> even_size nd -> even_size (o_narr4 o) -> (1 <= nd <= o_pad o)%nat ->
  match o_apod o with None => True | Some (m, na) => even_size na /\ (na <= o_pad o)%nat /\ (edge o = 1%Z -> forall k, (k < na)%nat -> fpx m 0%nat k = RtoC 0 /\ fpx m k 0%nat = RtoC 0) end ->
  Nat.even n = true -> (nd <= n)%nat -> (o_narr4 o <= n)%nat ->
  0 < w -> (edge o <= ay)%Z -> (ay + Z.of_nat m <= Z.of_nat nd)%Z -> (edge o <= ax)%Z -> (ax + Z.of_nat m <= Z.of_nat nd)%Z ->
  jac_apod o nd = Ok ap -> rep (o_pad o) E D0 ->
  (forall u v, ~ ((ay - hf nd <= u < ay - hf nd + Z.of_nat m)%Z /\ (ax - hf nd <= v < ax - hf nd + Z.of_nat m)%Z) -> D0 u v = RtoC 0) ->
  shape B m m -> (forall i j, (i < m)%nat -> (j < m)%nat -> fpx B i j = D0 (ay - hf nd + Z.of_nat i)%Z (ax - hf nd + Z.of_nat j)%Z) ->
  req_field (vx_tail o w (o_dx4 o) q n nd ay ax m ap B) (do P3 <- tail1 o E; vtail o w n q P3).
Proof.
  intros W Cn Cd C4 Hnd Ha Hne Hn1 Hn4 Hw Hy1 Hy2 Hx1 Hx2 Eap RE Z0 SB VB.
  pose proof (edge_01 o) as E01. pose proof (wf_cen o W) as Hc. pose proof (wf_narr4 o W) as H4. pose proof (even_hf nd Cd) as Hhd. set (bu := (ay - hf nd)%Z) in *. set (bv := (ax - hf nd)%Z) in *.
  assert (SD : supp (edge o - hf nd) (hf nd) D0) by (intros u v N; apply Z0; lia).
  destruct (jac_apod_rep o nd W Cn Cd Hnd Ha) as (ap' & Eap' & Rap). assert (ap' = ap) by congruence. subst ap'. clear Eap'.
  destruct (tail1_rep o nd W Cn Hnd Ha D0 E RE SD) as (P3 & EP3 & R3). rewrite EP3. cbn [rbind].
  pose proof (g3_supp o nd W Hnd Ha D0 E SD) as S3. pose proof (p3_pos o W) as Hp3. pose proof (p3_even o nd Cn Hnd Ha) as Hev.
  set (G := g3 o D0) in *. unfold vx_tail, vtail.
  destruct (take_rep nd ap _ ay ax m Rap) as (T & ET & ST & VT); [lia|lia|lia|lia|]. rewrite ET. cbn [rbind].
  destruct (bop_sq Cmult T B m m ST SB) as (B' & EB' & SB' & VB'). rewrite EB'. cbn [rbind].
  assert (VB2 : forall i j, (i < m)%nat -> (j < m)%nat -> fpx B' i j = G (sg (od o (o_n23 o)) (o_cen o) (bu + Z.of_nat i)%Z) (sg (od o (o_n23 o)) (o_cen o) (bv + Z.of_nat j)%Z)).
  { intros i j Hi Hj. rewrite VB', VT, VB by auto. unfold G. rewrite <- hh_g3. unfold hh. reflexivity. }
  set (b := od o (o_n23 o)) in *. set (c := o_cen o) in *.
  destruct (put_rep nd ay ax m B') as (zf & Ez & Rz); [lia|lia|lia|lia|].
  assert (Rz' : rep nd zf (fun u v => G (sg b c u) (sg b c v))).
  { eapply rep_ext; [|exact Rz]. intros u v. unfold boxf. fold bu bv. destruct (_ && _)%bool eqn:BB.
    - repeat (apply andb_prop in BB; destruct BB as [BB ?]). repeat match goal with H : (_ && _)%bool = true |- _ => apply andb_prop in H; destruct H end. rewrite VB2 by lia. f_equal; f_equal; lia.
    - unfold G. change b with (od o (o_n23 o)). change c with (o_cen o). rewrite <- hh_g3. unfold hh. rewrite Z0; [ring|]. intros [Q1 Q2]. repeat (apply andb_false_iff in BB; destruct BB as [BB|BB]); lia. }
  assert (SH : supp (edge o - hf nd) (hf nd) (fun u v => G (sg b c u) (sg b c v))).
  { intros u v N. unfold G. change b with (od o (o_n23 o)). change c with (o_cen o). rewrite <- hh_g3. unfold hh. rewrite SD by auto. ring. }
  rewrite Ez. cbn [rbind].
  destruct (relay_supp o (o_n23 o) nd zf _ Hc Rz' (proj1 Hnd) Cd SH) as (e3 & Ee3 & Re3). fold c in Ee3. rewrite Ee3. cbn [rbind].
  assert (Re3' : rep nd e3 G). { eapply rep_ext; [|exact Re3]. intros u v. cbn beta. fold b c. now rewrite !sg_sg. }
  assert (SG : supp (edge o - hf nd) (hf nd) G). { intros u v N. pose proof (supp_sg o (o_n23 o) (hf nd) _ Hc SH u v N) as X. cbn beta in X. fold b c in X. now rewrite !sg_sg in X. }
  destruct (rep_pad nd e3 G n Re3' (proj1 Hnd) Cd) as (e3p & Ee3p & Re3p); [left; eapply supp_wide; [exact SG|lia|lia]|lia|]. rewrite Ee3p. cbn [rbind].
  pose proof (hf_le nd n Hn1) as Hle. pose proof (even_hf n Hne) as Hhn.
  destruct (ffts_value n (p3_size o) q P3 e3p G) as (O & EO & SO & FO); [lia|exact Hne|exact Hev|exact R3|exact Re3p|eapply supp_wide; [exact S3|lia|lia]|eapply supp_wide; [exact SG|lia|lia]|]. rewrite EO. cbn [rbind].
  pose proof (lin_feq _ O (fft_vortex n q P3) (lin_relay (nrel o (o_n34 o) - 1) c) FO) as RR. cbn beta in RR.
  destruct (oks_relay (fft_vortex n q P3) (nrel o (o_n34 o) - 1) c n n Hc ltac:(split; reflexivity)) as (r' & Er' & Sr'). rewrite Er' in RR |- *. destruct (relay O _ c) as [r|]; [|destruct RR]. cbn [rbind req_field] in RR |- *.
  assert (Sr : shape r n n) by (destruct RR as (R1 & R2 & _), Sr'; split; congruence).
  set (L := if Nat.ltb (o_narr4 o) n then _ else _). set (L' := do p <- pad_cropf r' (o_narr4 o) (o_narr4 o); bop Cmult (o_lyot o) p).
  assert (RL : req_field L L').
  { unfold L, L'. destruct (Nat.ltb (o_narr4 o) n) eqn:Q.
    - apply (lin_feq (fun E0 => do p <- pad_cropf E0 (o_narr4 o) (o_narr4 o); bop Cmult (o_lyot o) p)); [|exact RR]. apply lin_bind; lstep.
    - apply Nat.ltb_ge in Q. assert (N : n = o_narr4 o) by lia. 
      destruct (crop_in n n (o_lyot o) Hne Hne) as (l & El & [L1 L2] & Vl); [lia|rewrite N; exact (wf_lyot o W)|]. rewrite El. cbn [rbind].
      destruct (crop_in n n r' Hne Hne) as (p & Ep & [P1 P2] & Vp); [lia|exact Sr'|]. rewrite <- N, Ep. cbn [rbind]. destruct (wf_lyot o W) as [Y1 Y2]. destruct RR as (R1 & R2 & R3'). destruct Sr as [T1 T2].
      apply bop_req.
      + split; [congruence|]. split; [congruence|]. intros i j Hi Hj. rewrite L1 in Hi. rewrite L2 in Hj. rewrite Vl by auto. f_equal; lia.
      + split; [congruence|]. split; [congruence|]. intros i j Hi Hj. rewrite R3' by auto. rewrite T1 in Hi. rewrite T2 in Hj. rewrite Vp by auto. f_equal; lia. }
  change (req_field (do L0 <- L; to_Fend o w (o_fend o) L0) (do p <- pad_cropf r' (o_narr4 o) (o_narr4 o); do E0 <- bop Cmult (o_lyot o) p; to_Fend o w (o_fend o) E0)).
  rewrite <- bind_assoc. fold L'. apply req_bind_lin; [exact RL|apply lin_to_Fend].
Qed.
