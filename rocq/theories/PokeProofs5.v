(* The fields before and after the DMs, in the compact model and in precomp. *)
From Coquelicot Require Import Coquelicot.
From Verif Require Import Base RBase StrBase UtilModel CBase PropModel PropSpec PropProofs PropProofs2 OptModel OptSpec LinBase OptProofs OptProofs2 OptProofs3 OptProofs4 OptProofs6 OptProofs7 DiffModel DiffSpec DiffProofs2 SrcModel PokeModel PokeProofs PokeProofs2 GradModel GradSpec GradProofs GradProofs2 GradProofs3 GradProofs4 GradProofs5 PokeSpec PokeProofs3 PokeProofs4.
Open Scope R_scope.

Lemma lin_derive op (E : R -> field C) E' r c r' c' k l : lin op -> (forall t, shape (E t) r c) -> shape E' r c -> oks (op E') r' c' ->
  (forall i j, (i < r)%nat -> (j < c)%nat -> dC (fun t => fpx (E t) i j) (fpx E' i j)) -> (k < r')%nat -> (l < c')%nat -> dC (fun t => px (op (E t)) k l) (px (op E') k l).
Proof.
  intros L S S' (O & EO & [O1 O2]) D Hk Hl. destruct (L r c) as [[e H]|(r2 & c2 & K & H)]; [rewrite H in EO by auto; discriminate|].
  destruct (H E' S') as (O' & EO' & [T1 T2] & V). assert (O' = O) by congruence. subst O'. rewrite EO. cbn [px]. rewrite V by lia.
  apply (dC_ext (fun t => apply_kernel r c K (fpx (E t)) k l)).
  - intros t. destruct (H (E t) (S t)) as (Ot & EOt & _ & Vt). rewrite EOt. cbn [px]. symmetry. apply Vt; lia.
  - unfold apply_kernel. apply (dC_csum r (fun t i => csum c (fun j => Cmult (K k l i j) (fpx (E t) i j)))). intros i Hi. apply (dC_csum c (fun t j => Cmult (K k l i j) (fpx (E t) i j))). intros j Hj. apply dC_scal. auto.
Qed.
Definition nodown (o : optics) : optics :=
  mko (o_pad o) (o_rot o) (o_n12 o) (o_n23 o) (o_n34 o) (o_nend o) (o_cen o) (o_d1 o) (o_d12 o) (o_fl o) (o_lambda0 o) (o_dx2 o) (o_use1 o) (o_use2 o) (o_surf1 o) (o_surf2 o) (o_pupil o) (o_stop1 o) (o_stop2 o) (o_wfe o) (o_apod o) (o_coro o) (o_f3 o) (o_fpm o) (o_trans o) (o_charge o) (o_nbeam1 o) (o_nbeam4 o) (o_dx4 o) (o_narr4 o) (o_lyot o) (fun E => Ok E) (o_fend o) (o_eval o).
Lemma lin_tail2 o w s t : lin (tail2 o w s t).
Proof.
  unfold tail2. apply lin_bind; [|apply lin_bind; lstep]. exact (lin_compact_P3_P4 (nodown o) w s t true lin_id).
Qed.
Lemma oks_tail2 o w s t E : well_formed o -> lyot_like o -> 0 < w -> 0 < s -> shape E (p3_size o) (p3_size o) -> oks (tail2 o w s t E) (g_Neta (o_fend o)) (g_Nxi (o_fend o)).
Proof.
  intros W Co Hw Hs SE. unfold tail2. eapply oks_bind; [apply (oks_compact_P3_P4 o w s t true E (p3_size o)); auto; [intros _; left; exact Co|apply p3_pos; auto]|]. intros O SO. eapply oks_bind; [apply oks_bop; [exact (wf_lyot o W)|exact SO]|].
  intros O2 S2. apply oks_to_Fend; auto. apply wf_fend; auto.
Qed.
(* the surface seen by the light *)
Definition sz1 (o : optics) (s : field R) := surf_or_zero (o_use1 o) (o_pad o) s.
Definition sz2 (o : optics) (s : field R) := surf_or_zero (o_use2 o) (o_pad o) s.
Definition postf (o : optics) (w : R) (A : field C) (s1 : field R) : field C := mkf (o_pad o) (o_pad o) (fun i j => Cmult (fpx A i j) (flatp w (sz1 o s1) i j)).
Definition after2 (o : optics) (w : R) (st2 p12 : field C) (s2 : field R) : field C := mkf (o_pad o) (o_pad o) (fun i j => Cmult (Cmult (fpx st2 i j) (fpx p12 i j)) (flatp w (sz2 o s2) i j)).
Lemma crop_src_in n m i : Nat.even n = true -> Nat.even m = true -> (m <= n)%nat -> (i < m)%nat -> crop_src m n i = Some (n / 2 - m / 2 + i)%nat.
Proof.
  intros A B H Hi. apply Nat.even_spec in A, B. destruct A as [a ->], B as [b ->]. replace (2 * a / 2)%nat with a by (rewrite Nat.mul_comm, Nat.div_mul; lia). replace (2 * b / 2)%nat with b by (rewrite Nat.mul_comm, Nat.div_mul; lia).
  unfold crop_src. replace (Z.of_nat (2 * a) / 2)%Z with (Z.of_nat a) by (rewrite Nat2Z.inj_mul, Z.mul_comm, Z.div_mul; lia). replace (Z.of_nat (2 * b) / 2)%Z with (Z.of_nat b) by (rewrite Nat2Z.inj_mul, Z.mul_comm, Z.div_mul; lia).
  destruct (_ && _)%bool eqn:Q; [f_equal; lia|apply andb_false_iff in Q; destruct Q; lia].
Qed.
Lemma crop_in n m X : even_size n -> even_size m -> (1 <= m <= n)%nat -> shape X n n -> exists O, pad_cropf X m m = Ok O /\ shape O m m /\ forall i j, (i < m)%nat -> (j < m)%nat -> fpx O i j = fpx X (n / 2 - m / 2 + i)%nat (n / 2 - m / 2 + j)%nat.
Proof. intros A B H [S1 S2]. destruct (pad_cropf_px X m m) as (O & EO & SO & VO); [lia|lia|]. exists O. split; [exact EO|]. split; [exact SO|]. intros i j Hi Hj. rewrite VO, S1, S2, !crop_src_in by (auto; lia). reflexivity. Qed.
Lemma crop_inr n m X : even_size n -> even_size m -> (1 <= m <= n)%nat -> dims n n X -> exists O, pad_cropr X m m = Ok O /\ dims m m O /\ forall i j, (i < m)%nat -> (j < m)%nat -> fpx O i j = fpx X (n / 2 - m / 2 + i)%nat (n / 2 - m / 2 + j)%nat.
Proof. intros A B H [S1 S2]. destruct (pad_cropr_px X m m) as (O & EO & SO & VO); [lia|lia|]. exists O. split; [exact EO|]. split; [exact SO|]. intros i j Hi Hj. rewrite VO, S1, S2, !crop_src_in by (auto; lia). reflexivity. Qed.
Lemma crop_bound n m i : even_size n -> even_size m -> (m <= n)%nat -> (i < m)%nat -> (n / 2 - m / 2 + i < n)%nat.
Proof. intros A B H Hi. apply Nat.even_spec in A, B. destruct A as [a ->], B as [b ->]. replace (2 * a / 2)%nat with a by (rewrite Nat.mul_comm, Nat.div_mul; lia). replace (2 * b / 2)%nat with b by (rewrite Nat.mul_comm, Nat.div_mul; lia). lia. Qed.
Lemma bind_eq {A B} (x y : res A) (f : A -> res B) : x = y -> rbind x f = rbind y f. Proof. congruence. Qed.
Lemma front o w E nd2 : well_formed o -> 0 < w -> even_size (o_pad o) -> even_size nd2 -> (1 <= nd2 <= o_pad o)%nat -> exists A st2, shape A (o_pad o) (o_pad o) /\ shape st2 (o_pad o) (o_pad o) /\ stop_or_ones (o_pad o) (o_stop2 o) = Ok st2 /\
  (forall s1 s2, (o_use1 o = true -> square (o_pad o) s1) -> (o_use2 o = true -> square (o_pad o) s2) -> req_field (compact_EP3 (with_surfs o s1 s2) w E) (do p12 <- ptp (postf o w A s1) (o_dx2 o * INR (o_pad o)) w (o_d12 o); compact_tail o w (after2 o w st2 p12 s2))) /\
  (forall p12, ptp (postf o w A (o_surf1 o)) (o_dx2 o * INR (o_pad o)) w (o_d12 o) = Ok p12 -> exists Edm1 Edm2, precomp o w E nd2 = Ok (Edm1, Edm2) /\ feq Edm1 (postf o w A (o_surf1 o)) /\
     shape Edm2 nd2 nd2 /\ forall i j, (i < nd2)%nat -> (j < nd2)%nat -> fpx Edm2 i j = fpx (after2 o w st2 p12 (o_surf2 o)) (o_pad o / 2 - nd2 / 2 + i)%nat (o_pad o / 2 - nd2 / 2 + j)%nat).
Proof.
  intros W Hw Cn C2 H2. pose proof (wf_pad o W) as Hn. pose proof (fw_pos o W) as Hf. 
  set (n := o_pad o) in *.
  destruct (oks_pad (o_pupil o) n n Hn Hn) as (pup & Epup & Spup). destruct (oks_pad E n n Hn Hn) as (E' & EE' & SE'). destruct (oks_stop n (o_stop1 o) Hn) as (st1 & Est1 & Sst1). destruct (oks_stop n (o_stop2 o) Hn) as (st2 & Est2 & Sst2).
  destruct (oks_bop Cmult pup E' n n Spup SE') as (EP1 & EEP1 & SEP1). destruct (oks_relay EP1 (nrel o (o_n12 o)) (o_cen o) n n (wf_cen o W) SEP1) as (EP2 & EEP2 & SEP2).
  assert (X : oks (if Req_EM_T (o_d1 o) 0 then Ok EP2 else ptp EP2 (o_dx2 o * INR n) w (o_d1 o)) n n) by (destruct (Req_EM_T (o_d1 o) 0); [now apply oks_ok|apply oks_ptp; auto]). destruct X as (pre0 & Epre0 & Spre0).
  destruct (imul_sq pre0 st1 n n Spre0 Sst1) as (pre1 & Epre1 & Spre1 & Vpre1). destruct (bop_sq Cmult pre1 (ones n) n n Spre1 (ones_shape n)) as (A & EA & SA & VA).
  exists A, st2. split; [exact SA|]. split; [exact Sst2|]. split; [exact Est2|].
  assert (VA' : forall i j, (i < n)%nat -> (j < n)%nat -> fpx A i j = Cmult (fpx pre0 i j) (fpx st1 i j)) by (intros; rewrite VA, Vpre1 by auto; cbn; ring).
  split.
  - intros s1 s2 Q1 Q2. rewrite compact_EP3_eq. unfold compact_flat.
    cbn [with_surfs o_pad o_rot o_n12 o_n23 o_n34 o_nend o_cen o_d1 o_d12 o_fl o_lambda0 o_dx2 o_use1 o_use2 o_surf1 o_surf2 o_pupil o_stop1 o_stop2 o_wfe o_apod].
    change (nrel (with_surfs o s1 s2)) with (nrel o). fold n. rewrite Epup, EE', Est1, Est2. cbn [rbind]. rewrite (wf_wfe o W). cbn [andb]. rewrite EEP1. cbn [rbind]. rewrite EEP2. cbn [rbind]. rewrite Epre0. cbn [rbind]. rewrite Epre1. cbn [rbind]. rewrite EA. cbn [rbind].
    destruct (bop_sq Cmult A (phasor w (surf_or_zero (o_use1 o) n s1)) n n SA (phasor_shape w _ n s1 Q1)) as (P & EP & SP & VP). rewrite EP. cbn [rbind].
    assert (FP : feq P (postf o w A s1)). { destruct SP as [P1 P2]. split; [exact P1|]. split; [exact P2|]. intros i j Hi Hj. rewrite P1 in Hi. rewrite P2 in Hj. rewrite VP by auto. reflexivity. }
    unfold compact_DM2. cbn [with_surfs o_pad o_dx2 o_d12 o_use2 o_surf2]. fold n.
    assert (SPF : shape (postf o w A s1) n n) by (split; reflexivity). destruct (oks_ptp (postf o w A s1) (o_dx2 o * INR n) w (o_d12 o) n Hf Hw Hn SPF) as (b & Eb & Sb).
    pose proof (lin_feq (fun E0 => ptp E0 (o_dx2 o * INR n) w (o_d12 o)) P (postf o w A s1) (lin_ptp _ _ _) FP) as FAB. cbn beta in FAB. rewrite Eb in FAB |- *. destruct (ptp P (o_dx2 o * INR n) w (o_d12 o)) as [a|]; [|destruct FAB]. cbn [rbind req_field] in FAB |- *.
    assert (X : shape b n n -> req_field (do e2 <- bop Cmult st2 a; do b1 <- bop Cmult (ones n) e2; do Edm2 <- bop Cmult b1 (phasor w (surf_or_zero (o_use2 o) n s2)); compact_tail (with_surfs o s1 s2) w Edm2) (compact_tail o w (after2 o w st2 b s2))).
    { intros _. assert (Sa : shape a n n) by (destruct FAB as (F1 & F2 & _), Sb; split; congruence).
      destruct (bop_sq Cmult st2 a n n Sst2 Sa) as (e2 & -> & Se2 & Ve2). cbn [rbind]. destruct (bop_sq Cmult (ones n) e2 n n (ones_shape n) Se2) as (b1 & -> & Sb1 & Vb1). cbn [rbind].
      destruct (bop_sq Cmult b1 (phasor w (surf_or_zero (o_use2 o) n s2)) n n Sb1 (phasor_shape w _ n s2 Q2)) as (U & -> & SU & VU). cbn [rbind]. change (compact_tail (with_surfs o s1 s2) w) with (compact_tail o w).
      apply lin_feq; [apply lin_compact_tail|]. destruct SU as [U1 U2]. split; [exact U1|]. split; [exact U2|]. intros i j Hi Hj. rewrite U1 in Hi. rewrite U2 in Hj. rewrite VU, Vb1, Ve2 by auto. destruct FAB as (F1 & F2 & F3). destruct Sa as [Sa1 Sa2].
      rewrite F3 by congruence. cbn. unfold flatp, sz2. cbn. fold n. ring. }
    apply X. exact Sb.
  - intros p12 Ep12. unfold precomp. fold n. rewrite Epup, EE'. cbn [rbind].
    destruct (wf_surf o W) as [F1 F2]. fold n in F1, F2.
    assert (JS : forall use s, (use = true -> frows s = n /\ fcols s = n) -> exists s', jac_surf use n s = Ok s' /\ dims n n s' /\ forall i j, (i < n)%nat -> (j < n)%nat -> fpx s' i j = fpx (surf_or_zero use n s) i j).
    { intros use s Q. unfold jac_surf. destruct use; [|eexists; split; [reflexivity|]; split; [split; reflexivity|reflexivity]]. destruct (Q eq_refl) as [Q1 Q2]. destruct (pad_cropr_px s n n Hn Hn) as (s' & Es' & Ss' & Vs'). exists s'. split; [exact Es'|]. split; [exact Ss'|].
      intros i j Hi Hj. rewrite Vs', Q1, Q2, !crop_src_same by auto. reflexivity. }
    destruct (JS _ _ F1) as (s1 & -> & [Ss11 Ss12] & Vs1). destruct (JS _ _ F2) as (s2 & -> & [Ss21 Ss22] & Vs2). rewrite Est1, Est2. cbn [rbind]. rewrite (wf_wfe o W). cbn [andb]. rewrite EEP1. cbn [rbind]. rewrite EEP2. cbn [rbind]. rewrite Epre0. cbn [rbind].
    destruct (bop_sq Cmult (ones n) st1 n n (ones_shape n) Sst1) as (k1 & -> & Sk1 & Vk1). cbn [rbind]. destruct (bop_sq Cmult k1 (phasor w s1) n n Sk1 (conj Ss11 Ss12)) as (k2 & -> & Sk2 & Vk2). cbn [rbind].
    destruct (imul_sq pre0 k2 n n Spre0 Sk2) as (Edm1 & -> & SEd1 & VEd1). cbn [rbind].
    assert (FE : feq Edm1 (postf o w A (o_surf1 o))). { destruct SEd1 as [P1 P2]. split; [exact P1|]. split; [exact P2|]. intros i j Hi Hj. rewrite P1 in Hi. rewrite P2 in Hj. rewrite VEd1, Vk2, Vk1 by auto. cbn. rewrite VA' by auto. unfold flatp, sz1. fold n. rewrite Vs1 by auto. ring. }
    assert (SQ : shape (ones n) n n) by apply ones_shape.
    destruct (crop_in n nd2 st2 Cn C2 H2 Sst2) as (st2p & -> & Sst2p & Vst2p). destruct (crop_in n nd2 (ones n) Cn C2 H2 SQ) as (wfp & -> & Swfp & Vwfp). cbn [rbind].
    pose proof (lin_feq (fun E0 => ptp E0 (o_dx2 o * INR n) w (o_d12 o)) Edm1 _ (lin_ptp _ _ _) FE) as RA. cbn beta in RA. rewrite Ep12 in RA. replace (INR n * o_dx2 o) with (o_dx2 o * INR n) by ring.
    destruct (ptp Edm1 (o_dx2 o * INR n) w (o_d12 o)) as [q|] eqn:Eq; [|destruct RA]. cbn [req_field rbind] in RA |- *.
    assert (Sq : shape q n n). { apply ptp_shape in Eq. destruct SEd1, Eq. split; congruence. }
    destruct (crop_in n nd2 q Cn C2 H2 Sq) as (inc0 & -> & Sinc0 & Vinc0). cbn [rbind]. destruct (pad_crop_same inc0 nd2 nd2) as (inc & -> & Sinc & Finc); [lia|lia|auto|]. cbn [rbind].
    destruct (crop_inr n nd2 s2 Cn C2 H2 (conj Ss21 Ss22)) as (s2p & -> & [Ss2p1 Ss2p2] & Vs2p). cbn [rbind].
    destruct (bop_sq Cmult st2p wfp nd2 nd2 Sst2p Swfp) as (x1 & -> & Sx1 & Vx1). cbn [rbind]. destruct (bop_sq Cmult x1 inc nd2 nd2 Sx1 Sinc) as (x2 & -> & Sx2 & Vx2). cbn [rbind].
    destruct (bop_sq Cmult x2 (phasor w s2p) nd2 nd2 Sx2 (conj Ss2p1 Ss2p2)) as (x3 & -> & Sx3 & Vx3). cbn [rbind].
    exists Edm1, x3. split; [reflexivity|]. split; [exact FE|]. split; [exact Sx3|]. intros i j Hi Hj. rewrite Vx3, Vx2, Vx1, Vst2p, Vwfp by auto. destruct Finc as (G1 & G2 & G3). destruct Sinc as [I1 I2]. rewrite G3, Vinc0 by congruence.
    pose proof (crop_bound n nd2 i Cn C2 (proj2 H2) Hi) as Bi. pose proof (crop_bound n nd2 j Cn C2 (proj2 H2) Hj) as Bj.
    destruct RA as (R1 & R2 & R3). destruct Sq as [Q1 Q2]. rewrite R3 by congruence. cbn [ones fpx phasor fmap after2 frows fcols]. rewrite Vs2p, Vs2 by auto. unfold flatp, sz2. fold n. ring.
Qed.
