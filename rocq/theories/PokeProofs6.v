(* The field of a poke inside the box, from the poked DM to pupil P2. *)
From Verif Require Import Base RBase StrBase UtilModel CBase PropModel PropSpec PropProofs PropProofs2 OptModel OptSpec LinBase OptProofs OptProofs2 OptProofs3 OptProofs4 OptProofs6 OptProofs7 DiffModel DiffSpec DiffProofs2 SrcModel PokeModel PokeProofs PokeProofs2 GradModel GradSpec GradProofs GradProofs4 PokeSpec PokeProofs3 PokeProofs4 PokeProofs5.
Open Scope R_scope.

(* first row (column) of the box, in the DM array and in the padded array *)
Definition ay_ (pk : poked) : Z := box_start (pk_lly pk) (pk_nas pk) (pk_nbox pk).
Definition ax_ (pk : poked) : Z := box_start (pk_llx pk) (pk_nas pk) (pk_nbox pk).
Definition qy_ (o : optics) (pk : poked) : nat := (o_pad o / 2 - pk_nd pk / 2 + Z.to_nat (ay_ pk))%nat.
Definition qx_ (o : optics) (pk : poked) : nat := (o_pad o / 2 - pk_nd pk / 2 + Z.to_nat (ax_ pk))%nat.
Definition part {A} (o : optics) (pk : poked) (X T : field A) : Prop :=
  frows T = pk_nas pk /\ fcols T = pk_nas pk /\ forall i j, (i < pk_nas pk)%nat -> (j < pk_nas pk)%nat -> fpx T i j = fpx X (qy_ o pk + i)%nat (qx_ o pk + j)%nat.
Lemma box_pos o pk : poke_ready o pk -> (edge o <= ay_ pk)%Z /\ (ay_ pk + Z.of_nat (pk_nas pk) <= Z.of_nat (pk_nd pk))%Z /\ (edge o <= ax_ pk)%Z /\ (ax_ pk + Z.of_nat (pk_nas pk) <= Z.of_nat (pk_nd pk))%Z /\ (0 <= edge o)%Z /\ (1 <= pk_nas pk)%nat.
Proof.
  intros P. destruct (pr_in o pk P) as [[X1 X2] [Y1 Y2]]. destruct (pr_box o pk P) as [[B1 B2] B3]. unfold ay_, ax_. rewrite !box_start_eq by auto. cbn zeta in *. pose proof (edge_01 o). repeat split; try lia.
Qed.
Lemma half_le o pk : poke_ready o pk -> forall i, (i < pk_nd pk)%nat -> (o_pad o / 2 - pk_nd pk / 2 + i < o_pad o)%nat.
Proof. intros P i Hi. destruct (pr_even o pk P) as (A & B & _). apply crop_bound; auto. apply (pr_nd o pk P). Qed.
Lemma q_bound o pk : poke_ready o pk -> forall i, (i < pk_nas pk)%nat -> (qy_ o pk + i < o_pad o)%nat /\ (qx_ o pk + i < o_pad o)%nat.
Proof.
  intros P i Hi. destruct (box_pos o pk P) as (A1 & A2 & A3 & A4 & A5 & A6). unfold qy_, qx_.
  pose proof (half_le o pk P (Z.to_nat (ay_ pk) + i)%nat ltac:(lia)). pose proof (half_le o pk P (Z.to_nat (ax_ pk) + i)%nat ltac:(lia)). lia.
Qed.
Lemma take_part {A} o pk (X O : field A) : poke_ready o pk -> frows O = pk_nd pk -> fcols O = pk_nd pk -> (forall i j, (i < pk_nd pk)%nat -> (j < pk_nd pk)%nat -> fpx O i j = fpx X (o_pad o / 2 - pk_nd pk / 2 + i)%nat (o_pad o / 2 - pk_nd pk / 2 + j)%nat) ->
  exists T, take_box O (ay_ pk) (ax_ pk) (pk_nas pk) = Ok T /\ part o pk X T.
Proof.
  intros P S1 S2 V. destruct (box_pos o pk P) as (A1 & A2 & A3 & A4 & A5 & A6). unfold take_box. rewrite S1, S2, !box_ok_in by lia. cbn [andb]. eexists. split; [reflexivity|]. split; [reflexivity|]. split; [reflexivity|].
  intros i j Hi Hj. cbn [fpx]. rewrite !ixv_in by lia. rewrite V by lia. unfold qy_, qx_. f_equal; lia.
Qed.
Lemma part_shape o pk X T : part o pk X T -> shape T (pk_nas pk) (pk_nas pk). Proof. intros (A & B & _). split; auto. Qed.
(* the influence function in the padded box *)
Lemma inf_box o pk r : poke_ready o pk -> (forall i j, fpx r i j = pk_vtoh pk * fpx (pk_inf pk) i j) -> frows r = pk_nbox pk -> fcols r = pk_nbox pk ->
  exists p, pad_cropr r (pk_nas pk) (pk_nas pk) = Ok p /\ part o pk (poke_surface (o_pad o) pk) p.
Proof.
  intros P Vr R1 R2. destruct (box_pos o pk P) as (A1 & A2 & A3 & A4 & A5 & A6). destruct (pr_box o pk P) as [[B1 B2] B3]. destruct (pr_even o pk P) as (En & Ed & _). destruct (pr_nd o pk P) as [D1 D2].
  destruct (pad_cropr_px r (pk_nas pk) (pk_nas pk) A6 A6) as (p & Ep & [P1 P2] & Vp). exists p. split; [exact Ep|]. split; [exact P1|]. split; [exact P2|]. intros i j Hi Hj.
  rewrite Vp, R1, R2 by auto. cbn [poke_surface fpx]. 
  pose proof (even_hf _ En) as Hn. pose proof (even_hf _ Ed) as Hd. apply Nat.even_spec in B3. destruct B3 as [d Hdd].
  assert (Q : forall ll a, a = box_start ll (pk_nas pk) (pk_nbox pk) -> (0 <= a)%Z -> forall k, (Z.of_nat (o_pad o / 2 - pk_nd pk / 2 + Z.to_nat a + k) - (Z.of_nat (o_pad o) / 2 - Z.of_nat (pk_nd pk) / 2) - ll = Z.of_nat k - Z.of_nat d)%Z).
  { intros ll a -> Ha k. rewrite box_start_eq in * by (auto; apply Nat.even_spec; exists d; auto). replace (Z.of_nat (pk_nas pk) - Z.of_nat (pk_nbox pk))%Z with (Z.of_nat d * 2)%Z in * by lia. rewrite Z.div_mul in * by lia.
    assert (pk_nd pk / 2 <= o_pad o / 2)%nat by (apply Nat.div_le_mono; lia). rewrite !Nat2Z.inj_add, Nat2Z.inj_sub, !Nat2Z.inj_div, Z2Nat.id by lia. change (Z.of_nat 2) with 2%Z. lia. }
  unfold qy_, qx_. rewrite (Q (pk_lly pk) (ay_ pk) eq_refl) by lia. rewrite (Q (pk_llx pk) (ax_ pk) eq_refl) by lia.
  assert (K : forall k, crop_src (pk_nas pk) (pk_nbox pk) k = if ((0 <=? Z.of_nat k - Z.of_nat d) && (Z.of_nat k - Z.of_nat d <? Z.of_nat (pk_nbox pk)))%Z then Some (Z.to_nat (Z.of_nat k - Z.of_nat d)) else None).
  { intros k. unfold crop_src. replace (Z.of_nat (pk_nas pk)) with (Z.of_nat (pk_nbox pk) + Z.of_nat d * 2)%Z by lia. rewrite Z.div_add by lia. replace (Z.of_nat (pk_nbox pk) / 2 + (Z.of_nat k - (Z.of_nat (pk_nbox pk) / 2 + Z.of_nat d)))%Z with (Z.of_nat k - Z.of_nat d)%Z by lia. reflexivity. }
  rewrite !K. rewrite <- !andb_assoc. destruct (0 <=? Z.of_nat i - Z.of_nat d)%Z; cbn [andb]; [|reflexivity]. destruct (_ <? _)%Z; cbn [andb]; [|reflexivity].
  destruct (0 <=? Z.of_nat j - Z.of_nat d)%Z; cbn [andb]; [|reflexivity]. destruct (_ <? _)%Z; [apply Vr|reflexivity].
Qed.
Definition inbox (o : optics) (pk : poked) (i j : nat) : Prop := (qy_ o pk <= i < qy_ o pk + pk_nas pk)%nat /\ (qx_ o pk <= j < qx_ o pk + pk_nas pk)%nat.
Lemma poke_out o pk i j : poke_ready o pk -> ~ inbox o pk i j -> fpx (poke_surface (o_pad o) pk) i j = 0.
Proof.
  intros P N. destruct (box_pos o pk P) as (A1 & A2 & A3 & A4 & A5 & A6). destruct (pr_box o pk P) as [[B1 B2] B3]. destruct (pr_nd o pk P) as [D1 D2].
  cbn [poke_surface fpx]. destruct (_ && _)%bool eqn:Q; [|reflexivity]. exfalso. apply N. clear N. repeat (apply andb_prop in Q; destruct Q as [Q ?]).
  assert (pk_nd pk / 2 <= o_pad o / 2)%nat by (apply Nat.div_le_mono; lia). assert (HZ : (Z.of_nat (o_pad o) / 2 - Z.of_nat (pk_nd pk) / 2)%Z = Z.of_nat (o_pad o / 2 - pk_nd pk / 2)) by (rewrite Nat2Z.inj_sub, !Nat2Z.inj_div by lia; reflexivity).
  rewrite HZ in *. unfold inbox, qy_, qx_, ay_, ax_ in *. rewrite !box_start_eq in * by auto. apply Nat.even_spec in B3. destruct B3 as [d Hdd]. replace (Z.of_nat (pk_nas pk) - Z.of_nat (pk_nbox pk))%Z with (Z.of_nat d * 2)%Z in * by lia. rewrite !Z.div_mul in * by lia. lia.
Qed.
(* derivative of the field after the poked DM *)
Definition dpost (o : optics) (w : R) (pk : poked) (P : field C) : field C := mkf (o_pad o) (o_pad o) (fun i j => Cmult (Cmult (ik w) (RtoC (fpx (poke_surface (o_pad o) pk) i j))) (fpx P i j)).
Definition boxed (o : optics) (pk : poked) (X B : field C) : Prop :=
  shape X (o_pad o) (o_pad o) /\ part o pk X B /\ forall i j, (i < o_pad o)%nat -> (j < o_pad o)%nat -> ~ inbox o pk i j -> fpx X i j = RtoC 0.
Lemma whole_q o pk : poke_ready o pk -> whole_array o pk -> qy_ o pk = 0%nat /\ qx_ o pk = 0%nat.
Proof.
  intros P (W1 & W2 & W3 & W4 & W5). destruct (pr_box o pk P) as [[B1 B2] B3]. unfold qy_, qx_, ay_, ax_. rewrite !box_start_eq by auto. rewrite W4, W5, W2, Z.sub_diag. cbn. lia.
Qed.
Lemma whole_part o pk X T : poke_ready o pk -> whole_array o pk -> shape X (o_pad o) (o_pad o) -> part o pk X T -> feq T X.
Proof.
  intros P Wh [X1 X2] (T1 & T2 & V). destruct (whole_q o pk P Wh) as [Q1 Q2]. destruct Wh as (W1 & _). split; [congruence|]. split; [congruence|]. intros i j Hi Hj. rewrite V, Q1, Q2 by congruence. reflexivity.
Qed.
Lemma whole_boxed o pk X B : poke_ready o pk -> whole_array o pk -> shape X (o_pad o) (o_pad o) -> feq B X -> boxed o pk X B.
Proof.
  intros P Wh SX (F1 & F2 & F3). destruct (whole_q o pk P Wh) as [Q1 Q2]. destruct Wh as (W1 & _). destruct SX as [X1 X2]. split; [split; auto|]. split.
  - split; [congruence|]. split; [congruence|]. intros i j Hi Hj. rewrite Q1, Q2. apply F3; lia.
  - intros i j Hi Hj N. exfalso. apply N. unfold inbox. rewrite Q1, Q2. lia.
Qed.
Lemma ik_0 w z : Cmult (Cmult (ik w) (RtoC 0)) z = RtoC 0. Proof. ring. Qed.
Lemma box1 o w pk A st2 Edm1 : poke_ready o pk -> 0 < w -> shape st2 (o_pad o) (o_pad o) -> stop_or_ones (o_pad o) (o_stop2 o) = Ok st2 -> feq Edm1 (postf o w A (o_surf1 o)) ->
  (o_d1 o = 0 /\ o_d12 o = 0) \/ whole_array o pk -> let fw := o_dx2 o * INR (o_pad o) in
  exists B b X, box_dm1 o w Edm1 pk (ay_ pk) (ax_ pk) = Ok B /\ ptp (dpost o w pk (postf o w A (o_surf1 o))) fw w (o_d12 o) = Ok b /\ ptp (after2 o w st2 b (o_surf2 o)) fw w (- (o_d1 o + o_d12 o)) = Ok X /\ boxed o pk X B.
Proof.
  intros P Hw Sst2 Est2 FE Hd fw. pose proof (pr_wf o pk P) as W. pose proof (wf_pad o W) as Hn. pose proof (fw_pos o W) as Hf. destruct (pr_even o pk P) as (En & Ed & _). pose proof (pr_nd o pk P) as Hnd. destruct (box_pos o pk P) as (A1 & A2 & A3 & A4 & A5 & A6).
  set (n := o_pad o) in *. set (nd := pk_nd pk) in *. set (m := pk_nas pk) in *. set (PF := postf o w A (o_surf1 o)) in *.
  assert (Hfm : 0 < o_dx2 o * INR m) by (apply Rmult_lt_0_compat; [apply wf_dx2; auto|apply lt_0_INR; lia]).
  assert (SE1 : shape Edm1 n n) by (destruct FE as (F1 & F2 & _); split; auto).
  destruct (wf_surf o W) as [_ F2]. fold n in F2.
  unfold box_dm1. fold n nd m.
  assert (JS : exists s2n s2, jac_surf (o_use2 o) n (o_surf2 o) = Ok s2n /\ jac_surf (o_use2 o) nd s2n = Ok s2 /\ dims nd nd s2 /\ forall i j, (i < nd)%nat -> (j < nd)%nat -> fpx s2 i j = fpx (sz2 o (o_surf2 o)) (n / 2 - nd / 2 + i)%nat (n / 2 - nd / 2 + j)%nat).
  { unfold jac_surf, sz2. destruct (o_use2 o); [|eexists; eexists; split; [reflexivity|]; split; [reflexivity|]; split; [split; reflexivity|]; reflexivity].
    destruct (F2 eq_refl) as [X1 X2]. destruct (pad_cropr_px (o_surf2 o) n n Hn Hn) as (s2n & Es2n & Ss2n & Vs2n). destruct (crop_inr n nd s2n En Ed Hnd Ss2n) as (s2 & Es2 & Ss2 & Vs2). exists s2n, s2. split; [exact Es2n|]. split; [exact Es2|]. split; [exact Ss2|].
    intros i j Hi Hj. rewrite Vs2 by auto. cbn [surf_or_zero]. rewrite Vs2n, X1, X2, !crop_src_same by (apply crop_bound; auto; lia). reflexivity. }
  destruct JS as (s2n & s2 & -> & Js2 & [Ss21 Ss22] & Vs2). cbn [rbind]. rewrite Est2. cbn [rbind]. rewrite Js2. cbn [rbind].
  assert (ST : exists st, stop_or_ones nd (match o_stop2 o with Some _ => Some st2 | None => None end) = Ok st /\ shape st nd nd /\ forall i j, (i < nd)%nat -> (j < nd)%nat -> fpx st i j = fpx st2 (n / 2 - nd / 2 + i)%nat (n / 2 - nd / 2 + j)%nat).
  { destruct (o_stop2 o) as [mm|] eqn:Q; cbn [stop_or_ones].
    - destruct (crop_in n nd st2 En Ed Hnd Sst2) as (st & Est & Sst & Vst). exists st. auto.
    - cbn in Est2. injection Est2 as <-. exists (ones nd). split; [reflexivity|]. split; [apply ones_shape|]. reflexivity. }
  destruct ST as (st & -> & [Sst1 Sst2'] & Vst). cbn [rbind]. destruct (crop_in n nd Edm1 En Ed Hnd SE1) as (e1p & -> & [Se1 Se2] & Ve1). cbn [rbind]. destruct (crop_in n nd (ones n) En Ed Hnd (ones_shape n)) as (wfp & -> & [Sw1 Sw2] & Vwf). cbn [rbind].
  destruct (inf_box o pk (rscal_f (pk_vtoh pk) (pk_inf pk)) P) as (p & Ep & Pp); [reflexivity|apply (proj1 (pr_inf o pk P))|apply (proj2 (pr_inf o pk P))|]. fold m in Ep. rewrite Ep. cbn [rbind].
  destruct (take_part o pk Edm1 e1p P Se1 Se2 Ve1) as (e1 & Ee1 & Pe1). fold m in Ee1. rewrite Ee1. cbn [rbind].
  set (ip := fmap (fun r : R => Cmult (ik w) (RtoC r)) p). assert (Sip : shape ip m m) by (destruct Pp as (X1 & X2 & _); split; auto).
  destruct (bop_sq Cmult ip e1 m m Sip (part_shape _ _ _ _ Pe1)) as (a & -> & Sa & Va). cbn [rbind].
  assert (Pa : part o pk (dpost o w pk PF) a).
  { destruct Sa as [Sa1 Sa2]. split; [exact Sa1|]. split; [exact Sa2|]. fold m. intros i j Hi Hj. rewrite Va by auto. destruct Pe1 as (_ & _ & V1). destruct Pp as (_ & _ & V2). fold m in V1, V2. rewrite V1 by auto. cbn [ip fmap fpx dpost]. rewrite V2 by auto.
    destruct (q_bound o pk P i Hi) as [Q1 _]. destruct (q_bound o pk P j Hj) as [_ Q2]. fold n in Q1, Q2. destruct SE1 as [Z1 Z2]. destruct FE as (_ & _ & F3). rewrite F3 by congruence. reflexivity. }
  destruct (take_part o pk (ones n) wfp P Sw1 Sw2 Vwf) as (wf & Ewf & Pwf). fold m in Ewf. destruct (take_part o pk st2 st P Sst1 Sst2' Vst) as (sb & Esb & Psb). fold m in Esb. destruct (take_part o pk (sz2 o (o_surf2 o)) s2 P Ss21 Ss22 Vs2) as (ub & Eub & Pub). fold m in Eub.
  rewrite Ewf, Esb, Eub.
  assert (BB : forall b0 X0, shape b0 m m -> part o pk X0 b0 -> exists c1 c2 c3, bop Cmult b0 wf = Ok c1 /\ bop Cmult c1 sb = Ok c2 /\ bop Cmult c2 (phasor w ub) = Ok c3 /\ part o pk (after2 o w st2 X0 (o_surf2 o)) c3).
  { intros b0 X0 Sb0 (_ & _ & Vb0). destruct (bop_sq Cmult b0 wf m m Sb0 (part_shape _ _ _ _ Pwf)) as (c1 & E1 & S1 & V1). destruct (bop_sq Cmult c1 sb m m S1 (part_shape _ _ _ _ Psb)) as (c2 & E2 & S2 & V2).
    assert (SU : shape (phasor w ub) m m) by (destruct Pub as (X1 & X2 & _); split; auto).
    destruct (bop_sq Cmult c2 (phasor w ub) m m S2 SU) as (c3 & E3 & [S31 S32] & V3). exists c1, c2, c3. split; [exact E1|]. split; [exact E2|]. split; [exact E3|]. split; [exact S31|]. split; [exact S32|]. fold m. intros i j Hi Hj. rewrite V3, V2, V1 by auto.
    destruct Pwf as (_ & _ & U1). destruct Psb as (_ & _ & U2). destruct Pub as (_ & _ & U3). fold m in U1, U2, U3, Vb0. rewrite U1, U2, Vb0 by auto. cbn [phasor fmap fpx ones after2]. rewrite U3 by auto. unfold flatp. ring. }
  assert (SD : shape (dpost o w pk PF) n n) by (split; reflexivity).
  destruct Hd as [[D1 D12]|Wh].
  - rewrite D1, D12. rewrite !ptp_0 by auto. cbn [rbind]. destruct (BB a (dpost o w pk PF) Sa Pa) as (c1 & c2 & c3 & Ec1 & Ec2 & Ec3 & Pc). cbn [rbind]. rewrite Ec1. cbn [rbind]. rewrite Ec2. cbn [rbind]. rewrite Ec3. cbn [rbind]. 
    replace (-1 * (0 + 0)) with 0 by ring. replace (- (0 + 0)) with 0 by ring. rewrite !ptp_0 by auto.
    exists c3, (dpost o w pk PF), (after2 o w st2 (dpost o w pk PF) (o_surf2 o)). split; [reflexivity|]. split; [reflexivity || (apply ptp_0; auto)|]. split; [reflexivity || (apply ptp_0; auto)|]. split; [split; reflexivity|]. split; [exact Pc|]. intros i j Hi Hj N. cbn [after2 fpx dpost]. rewrite poke_out by auto. rewrite ik_0. ring.
  - pose proof Wh as (W1 & W2 & W3 & W4 & W5). fold m n in W1.
    destruct (oks_ptp (dpost o w pk PF) fw w (o_d12 o) n Hf Hw Hn SD) as (b & Eb & Sb). assert (SX : shape (after2 o w st2 b (o_surf2 o)) n n) by (split; reflexivity).
    destruct (oks_ptp _ fw w (- (o_d1 o + o_d12 o)) n Hf Hw Hn SX) as (X & EX & SX').
    pose proof (whole_part o pk _ a P Wh SD Pa) as Fa. pose proof (lin_feq (fun E0 => ptp E0 fw w (o_d12 o)) a _ (lin_ptp _ _ _) Fa) as RA. cbn beta in RA. rewrite Eb in RA.
    rewrite W1. fold fw. destruct (ptp a fw w (o_d12 o)) as [b0|] eqn:Eb0; [|destruct RA]. cbn [req_field rbind] in RA |- *.
    assert (Sb0 : shape b0 m m) by (destruct RA as (R1 & R2 & _), Sb; split; congruence). 
    assert (Pb : part o pk b b0). { destruct (whole_boxed o pk b b0 P Wh Sb RA) as (_ & PB & _). exact PB. }
    destruct (BB b0 b Sb0 Pb) as (c1 & c2 & c3 & Ec1 & Ec2 & Ec3 & Pc). cbn [rbind]. rewrite Ec1. cbn [rbind]. rewrite Ec2. cbn [rbind]. rewrite Ec3. cbn [rbind].
    pose proof (whole_part o pk _ c3 P Wh SX Pc) as Fc. pose proof (lin_feq (fun E0 => ptp E0 fw w (- (o_d1 o + o_d12 o))) c3 _ (lin_ptp _ _ _) Fc) as RC. cbn beta in RC. rewrite EX in RC.
    replace (-1 * (o_d12 o + o_d1 o)) with (- (o_d1 o + o_d12 o)) by ring. destruct (ptp c3 fw w (- (o_d1 o + o_d12 o))) as [B|]; [|destruct RC]. cbn [req_field] in RC.
    exists B, b, X. split; [reflexivity|]. split; [exact Eb|]. split; [exact EX|]. apply whole_boxed; auto.
Qed.
Lemma box2 o w pk st2 p12 Edm2 : poke_ready o pk -> 0 < w -> shape Edm2 (pk_nd pk) (pk_nd pk) -> let U := after2 o w st2 p12 (o_surf2 o) in
  (forall i j, (i < pk_nd pk)%nat -> (j < pk_nd pk)%nat -> fpx Edm2 i j = fpx U (o_pad o / 2 - pk_nd pk / 2 + i)%nat (o_pad o / 2 - pk_nd pk / 2 + j)%nat) ->
  o_d1 o + o_d12 o = 0 \/ whole_array o pk -> let fw := o_dx2 o * INR (o_pad o) in
  exists B X, box_dm2 o w Edm2 pk (ay_ pk) (ax_ pk) = Ok B /\ ptp (dpost o w pk U) fw w (- (o_d1 o + o_d12 o)) = Ok X /\ boxed o pk X B.
Proof.
  intros P Hw [S1 S2] U V Hd fw. pose proof (pr_wf o pk P) as W. pose proof (wf_pad o W) as Hn. pose proof (fw_pos o W) as Hf. destruct (box_pos o pk P) as (A1 & A2 & A3 & A4 & A5 & A6). pose proof (pr_inf o pk P) as Hinf.
  set (n := o_pad o) in *. set (m := pk_nas pk) in *.
  assert (Hfm : 0 < o_dx2 o * INR m) by (apply Rmult_lt_0_compat; [apply wf_dx2; auto|apply lt_0_INR; lia]).
  unfold box_dm2. fold m.
  destruct (inf_box o pk (rscal_f (pk_vtoh pk) (pk_inf pk)) P) as (p' & Ep' & _ & _ & Vp'); [reflexivity|apply (proj1 Hinf)|apply (proj2 Hinf)|]. fold m in Ep', Vp'.
  destruct (pad_cropr_px (rscal_f (pk_vtoh pk) (pk_inf pk)) m m A6 A6) as (p1 & Ep1 & Sp1 & Vp1). assert (p1 = p') by congruence. subst p1.
  destruct (pad_cropr_px (pk_inf pk) m m A6 A6) as (p & Ep & [Sp01 Sp02] & Vp). rewrite Ep. cbn [rbind].
  assert (Vv : forall i j, (i < m)%nat -> (j < m)%nat -> pk_vtoh pk * fpx p i j = fpx (poke_surface n pk) (qy_ o pk + i)%nat (qx_ o pk + j)%nat).
  { intros i j Hi Hj. unfold n. rewrite <- Vp' by auto. rewrite Vp, Vp1 by auto. cbn [rscal_f frows fcols fpx]. destruct (crop_src m (frows (pk_inf pk)) i); [|ring]. destruct (crop_src m (fcols (pk_inf pk)) j); ring. }
  destruct (take_part o pk U Edm2 P S1 S2 V) as (e2 & Ee2 & Pe2). fold m in Ee2. rewrite Ee2. cbn [rbind].
  set (ip := fmap (fun r : R => Cmult (Cmult (RtoC (pk_vtoh pk)) (ik w)) (RtoC r)) p). assert (Sip : shape ip m m) by (split; auto).
  destruct (bop_sq Cmult ip e2 m m Sip (part_shape _ _ _ _ Pe2)) as (a & -> & [Sa1 Sa2] & Va). cbn [rbind].
  assert (Pa : part o pk (dpost o w pk U) a).
  { split; [exact Sa1|]. split; [exact Sa2|]. fold m. intros i j Hi Hj. rewrite Va by auto. destruct Pe2 as (_ & _ & V1). fold m in V1. rewrite V1 by auto. cbn [ip fmap fpx dpost]. fold n. rewrite <- Vv by auto. rewrite RtoC_mult. ring. }
  assert (SD : shape (dpost o w pk U) n n) by (split; reflexivity).
  destruct Hd as [D|Wh].
  - replace (-1 * (o_d12 o + o_d1 o)) with 0 by lra. rewrite D, Ropp_0. rewrite ptp_0 by auto. exists a, (dpost o w pk U). split; [reflexivity|]. split; [apply ptp_0; auto|]. split; [exact SD|]. split; [exact Pa|].
    intros i j Hi Hj N. cbn [fpx dpost]. rewrite poke_out by auto. apply ik_0.
  - pose proof Wh as (W1 & _). fold m n in W1. destruct (oks_ptp _ fw w (- (o_d1 o + o_d12 o)) n Hf Hw Hn SD) as (X & EX & SX').
    pose proof (whole_part o pk _ a P Wh SD Pa) as Fc. pose proof (lin_feq (fun E0 => ptp E0 fw w (- (o_d1 o + o_d12 o))) a _ (lin_ptp _ _ _) Fc) as RC. cbn beta in RC. rewrite EX in RC. rewrite W1. fold fw.
    replace (-1 * (o_d12 o + o_d1 o)) with (- (o_d1 o + o_d12 o)) by ring. destruct (ptp a fw w (- (o_d1 o + o_d12 o))) as [B|]; [|destruct RC]. cbn [req_field] in RC.
    exists B, X. split; [reflexivity|]. split; [exact EX|]. apply whole_boxed; auto.
Qed.
