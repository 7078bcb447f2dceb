(* A column of the control Jacobian of a vortex coronagraph is the derivative of the field propagated with FFTs. *)
From Coquelicot Require Import Coquelicot.
From Verif Require Import Base RBase StrBase UtilModel CBase PropModel PropSpec PropProofs PropProofs2 OptModel OptSpec LinBase OptProofs OptProofs2 OptProofs3 OptProofs4 OptProofs6 OptProofs7 DiffModel DiffSpec DiffProofs2 SrcModel PokeModel PokeProofs PokeProofs2 GradModel GradSpec GradProofs GradProofs3 GradProofs4 GradProofs5 PokeSpec PokeProofs3 PokeProofs4 PokeProofs5 PokeProofs6 PokeProofs7 PokeProofs8 VxModel VxSpec VxProofs VxProofs2.
Open Scope R_scope.

Lemma vx_image_core o w q n pk X B ap : poke_ready o pk -> 0 < w -> Nat.even n = true -> (pk_nd pk <= n)%nat -> (o_narr4 o <= n)%nat -> boxed o pk X B ->
  jac_apod o (pk_nd pk) = Ok ap -> req_field (vx_tail o w (o_dx4 o) q n (pk_nd pk) (ay_ pk) (ax_ pk) (pk_nas pk) ap B) (do P3 <- tail1 o X; vtail o w n q P3).
Proof.
  intros P Hw He1 He2 He3 (SX & (B1 & B2 & VB) & Z) Eap. destruct (box_pos o pk P) as (A1 & A2 & A3 & A4 & A5 & A6). destruct (pr_even o pk P) as (En & Ed & E4). pose proof (pr_nd o pk P) as Hnd. pose proof (even_hf _ En) as Hn. pose proof (even_hf _ Ed) as Hdd.
  assert (HZ : Z.of_nat (o_pad o / 2 - pk_nd pk / 2) = (hf (o_pad o) - hf (pk_nd pk))%Z). { assert (pk_nd pk / 2 <= o_pad o / 2)%nat by (apply Nat.div_le_mono; lia). rewrite Nat2Z.inj_sub, !Nat2Z.inj_div by lia. reflexivity. }
  apply (vx_core o (pk_nd pk) n w q (ay_ pk) (ax_ pk) (pk_nas pk) ap B (boxf (- hf (o_pad o)) (- hf (o_pad o)) (o_pad o) (fpx X)) X); auto; try apply (pr_wf o pk P); try apply (pr_apod o pk P).
  - split; [exact SX|]. intros i j Hi Hj. unfold boxf. destruct (_ && _)%bool eqn:Q; [f_equal; lia|]. exfalso. repeat (apply andb_false_iff in Q; destruct Q as [Q|Q]); lia.
  - intros u v N. unfold boxf. destruct (_ && _)%bool eqn:Q; [|reflexivity]. repeat (apply andb_prop in Q; destruct Q as [Q ?]). repeat match goal with H : (_ && _)%bool = true |- _ => apply andb_prop in H; destruct H end.
    apply Z; [lia|lia|]. unfold inbox, qy_, qx_. lia.
  - split; auto.
  - intros i j Hi Hj. rewrite VB by auto. unfold boxf. destruct (q_bound o pk P i Hi) as [Q1 _]. destruct (q_bound o pk P j Hj) as [_ Q2]. unfold qy_ in *. unfold qx_ in *. destruct (_ && _)%bool eqn:Q; [f_equal; lia|]. exfalso. repeat (apply andb_false_iff in Q; destruct Q as [Q|Q]); lia.
Qed.
Lemma vx_image_ok o w q pk fields (dm2 : bool) B X : poke_ready o pk -> 0 < w -> (o_narr4 o <= nfft pk)%nat -> (dm2 = false -> o_dx4 o = o_dx2 o) ->
  (if dm2 then box_dm2 o w (snd fields) pk (ay_ pk) (ax_ pk) else box_dm1 o w (fst fields) pk (ay_ pk) (ax_ pk)) = Ok B -> boxed o pk X B ->
  req_field (vx_image o w q fields dm2 pk) (do P3 <- tail1 o X; vtail o w (nfft pk) q P3).
Proof.
  intros P Hw H4 Hdx EB HB. destruct (pr_even o pk P) as (En & Ed & E4). pose proof (pr_nd o pk P) as Hnd. destruct (pr_box o pk P) as [[Hb _] _]. destruct (nfft_pow pk) as (N1 & N2 & _); [lia|lia|].
  unfold vx_image. destruct (jac_apod_rep o (pk_nd pk) (pr_wf o pk P) En Ed Hnd (pr_apod o pk P)) as (ap & Eap & _). rewrite Eap. cbn [rbind]. fold (ay_ pk) (ax_ pk). rewrite EB. cbn [rbind].
  replace (if dm2 then o_dx4 o else o_dx2 o) with (o_dx4 o) by (destruct dm2; auto). apply vx_image_core; auto.
Qed.
Lemma vx_field_eq o w I00 n q E : vx_field o w I00 n q E = do P3 <- compact_EP3 o w E; vx_from o w I00 n q P3.
Proof. unfold vx_field, compact_EP3. destruct (compact_to_P3 o w E); reflexivity. Qed.
(* from the image of the poke to the column *)
Lemma vx_column_ok o w I00 cq M fields dm2 pk X P3 : poke_ready o pk -> 0 < w -> 0 < I00 -> frows M = g_Neta (o_fend o) -> fcols M = g_Nxi (o_fend o) -> pk_dead pk = false ->
  req_field (vx_image o w cq fields dm2 pk) (do P3 <- tail1 o X; vtail o w (nfft pk) cq P3) -> tail1 o X = Ok P3 -> shape P3 (p3_size o) (p3_size o) ->
  exists col, vx_column o w I00 cq M fields dm2 pk = Ok col /\ length col = mask_count M /\ forall i j, (i < frows M)%nat -> (j < fcols M)%nat -> fpx M i j = true ->
    (mask_rank M i j < length col)%nat /\ nth (mask_rank M i j) col (RtoC 0) = Cmult (RtoC (pk_weight pk)) (px (vfin o w I00 (nfft pk) cq P3) i j).
Proof.
  intros P Hw HI M1 M2 Dd R EX SP3. rewrite EX in R. cbn [rbind] in R. destruct (oks_vtail o w (nfft pk) cq P3 (pr_wf o pk P) Hw) as (F & EF & [F1 F2]). rewrite EF in R.
  unfold vx_column. rewrite Dd. destruct (vx_image o w cq fields dm2 pk) as [G|]; [|destruct R]. destruct R as (R1 & R2 & R3). cbn [rbind]. destruct (gather_ok M G) as (g & -> & Lg & Vg); [congruence|congruence|]. cbn [rbind].
  eexists. split; [reflexivity|]. rewrite map_length. split; [exact Lg|]. intros i j Hi Hj HM. destruct (Vg i j Hi Hj HM) as [Q1 Q2]. split; [rewrite Lg; exact Q1|]. rewrite (nth_map_in _ _ _ (RtoC 0)) by (rewrite Lg; exact Q1). rewrite Q2, R3 by congruence.
  unfold vfin. rewrite EF. cbn [rbind px]. unfold normalise. destruct (Req_EM_T I00 0); [lra|]. cbn [fmap fpx]. ring.
Qed.
Lemma vx_column_dm1 o w I00 cq M Ein pk nd2 : poke_ready o pk -> o_use1 o = true -> 0 < w -> 0 < I00 -> frows M = g_Neta (o_fend o) -> fcols M = g_Nxi (o_fend o) -> pk_dead pk = false -> even_size nd2 -> (1 <= nd2 <= o_pad o)%nat ->
  (o_narr4 o <= nfft pk)%nat -> o_dx4 o = o_dx2 o -> (o_d1 o = 0 /\ o_d12 o = 0) \/ whole_array o pk ->
  exists fields col, precomp o w Ein nd2 = Ok fields /\ vx_column o w I00 cq M fields false pk = Ok col /\ length col = mask_count M /\
    forall i j, (i < frows M)%nat -> (j < fcols M)%nat -> fpx M i j = true -> exists D, derivative (fun t => vx_value (poked_by o false pk t) w I00 (nfft pk) cq Ein i j) D /\ nth (mask_rank M i j) col (RtoC 0) = Cmult (RtoC (pk_weight pk)) D.
Proof.
  intros P U1 Hw HI M1 M2 Dd E2 H2 N4 Dx Hd. pose proof (pr_wf o pk P) as W. pose proof (wf_pad o W) as Hn. pose proof (fw_pos o W) as Hf. destruct (pr_even o pk P) as (En & _).
  destruct (front o w Ein nd2 W Hw En E2 H2) as (A & st2 & SA & S2 & Est2 & FR & PC).
  assert (SPF : forall s1, shape (postf o w A s1) (o_pad o) (o_pad o)) by (intros; split; reflexivity).
  destruct (oks_ptp (postf o w A (o_surf1 o)) _ w (o_d12 o) _ Hf Hw Hn (SPF _)) as (p12 & Ep12 & Sp12). destruct (PC p12 Ep12) as (Edm1 & Edm2 & EPC & FE & _).
  destruct (box1 o w pk A st2 Edm1 P Hw S2 Est2 FE Hd) as (B & b & X & EB & Eb & EX & HB). exists (Edm1, Edm2).
  pose proof (vx_image_ok o w cq pk (Edm1, Edm2) false B X P Hw N4 (fun _ => Dx) EB HB) as R. destruct (oks_tail1 o X W (proj1 HB)) as (P3 & EP3 & SP3).
  destruct (vx_column_ok o w I00 cq M (Edm1, Edm2) false pk X P3 P Hw HI M1 M2 Dd R EP3 SP3) as (col & EC & LC & VC). exists col. split; [exact EPC|]. split; [exact EC|]. split; [exact LC|]. intros i j Hi Hj HM. destruct (VC i j Hi Hj HM) as [_ V]. clear VC.
  set (op := fun Q => do P <- compact_DM2 o w st2 Q; vfin o w I00 (nfft pk) cq P).
  set (DP := dpost o w pk (postf o w A (o_surf1 o))) in *.
  exists (px (op DP) i j).
  assert (ODP : req_field (op DP) (vfin o w I00 (nfft pk) cq P3)).
  { unfold op. pose proof (dm2_after o w st2 DP W S2 ltac:(split; reflexivity)) as Q. rewrite Eb in Q. cbn [rbind] in Q. rewrite (tail_eq o w _ W Hw), EX in Q. cbn [rbind] in Q. rewrite EP3 in Q.
    destruct (compact_DM2 o w st2 DP) as [P3'|]; [|destruct Q]. cbn [req_field rbind] in Q |- *. apply lin_feq; [apply lin_vfin|exact Q]. }
  assert (OKF : forall Q, shape Q (p3_size o) (p3_size o) -> oks (vfin o w I00 (nfft pk) cq Q) (frows M) (fcols M)).
  { intros Q SQ. unfold vfin. rewrite M1, M2. eapply oks_bind; [apply oks_vtail; auto|]. intros O SO. apply oks_ok. apply normalise_shape. exact SO. }
  split.
  2:{ rewrite V. f_equal. symmetry. eapply px_req; [exact ODP|apply OKF; exact SP3|auto|auto]. }
  set (su := fun x => along (o_surf1 o) (poke_surface (o_pad o) pk) x).
  assert (OKD : forall Q, shape Q (o_pad o) (o_pad o) -> oks (op Q) (frows M) (fcols M)).
  { intros Q SQ. unfold op. destruct (oks_ptp Q _ w (o_d12 o) _ Hf Hw Hn SQ) as (b0 & Eb0 & Sb0). pose proof (dm2_after o w st2 Q W S2 SQ) as QQ. rewrite Eb0 in QQ. cbn [rbind] in QQ.
    destruct (oks_compact_tail o w (after2 o w st2 b0 (o_surf2 o)) W Hw ltac:(split; reflexivity)) as (q & Eq & [Sq1 Sq2]). rewrite Eq in QQ. destruct (compact_DM2 o w st2 Q) as [q'|]; [|destruct QQ]. cbn [rbind]. apply OKF. destruct QQ as (Q1 & Q2 & _). split; congruence. }
  apply (dC_ext (fun x => px (op (postf o w A (su x))) i j)).
  - intros x. unfold vx_value, poked_by. cbn [su]. fold (su x). change (match vx_field (with_surfs o (su x) (o_surf2 o)) w I00 (nfft pk) cq Ein with Ok F => fpx F i j | Raise _ => RtoC 0 end) with (px (vx_field (with_surfs o (su x) (o_surf2 o)) w I00 (nfft pk) cq Ein) i j).
    rewrite vx_field_eq.
    symmetry. eapply px_req; [|apply (OKD (postf o w A (su x)) (SPF _))|auto|auto]. unfold op.
    destruct (wf_surf o W) as [FF1 FF2]. destruct (FF1 U1) as [G1 G2].
    assert (Q : req_field (compact_EP3 (with_surfs o (su x) (o_surf2 o)) w Ein) (compact_DM2 o w st2 (postf o w A (su x)))).
    { eapply req_trans; [apply FR; [intros _; split; [exact G1|exact G2]|exact FF2]|]. apply req_sym. apply dm2_after; auto. }
    destruct (compact_EP3 (with_surfs o (su x) (o_surf2 o)) w Ein) as [q|], (compact_DM2 o w st2 (postf o w A (su x))) as [q'|]; try destruct Q as [].
    + cbn [rbind]. change (vx_from (with_surfs o (su x) (o_surf2 o)) w I00 (nfft pk) cq q) with (vx_from o w I00 (nfft pk) cq q). rewrite vx_from_fin. apply lin_feq; [apply lin_vfin|split; auto].
    + reflexivity.
  - apply (lin_derive op (fun x => postf o w A (su x)) DP (o_pad o) (o_pad o) (frows M) (fcols M)); auto.
    + unfold op. apply lin_bind; [apply lin_compact_DM2|apply lin_vfin].
    + split; reflexivity.
    + apply OKD. split; reflexivity.
    + intros k l Hk Hl. cbn [postf DP dpost fpx]. unfold sz1. rewrite U1. cbn [surf_or_zero]. eapply dC_eq; [apply dC_scal; apply dC_flatp; exact Hw|]. rewrite ik_kk. ring.
Qed.
Lemma vx_column_dm2 o w I00 cq M Ein pk : poke_ready o pk -> o_use2 o = true -> 0 < w -> 0 < I00 -> frows M = g_Neta (o_fend o) -> fcols M = g_Nxi (o_fend o) -> pk_dead pk = false ->
  (o_narr4 o <= nfft pk)%nat -> o_d1 o + o_d12 o = 0 \/ whole_array o pk ->
  exists fields col, precomp o w Ein (pk_nd pk) = Ok fields /\ vx_column o w I00 cq M fields true pk = Ok col /\ length col = mask_count M /\
    forall i j, (i < frows M)%nat -> (j < fcols M)%nat -> fpx M i j = true -> exists D, derivative (fun t => vx_value (poked_by o true pk t) w I00 (nfft pk) cq Ein i j) D /\ nth (mask_rank M i j) col (RtoC 0) = Cmult (RtoC (pk_weight pk)) D.
Proof.
  intros P U2 Hw HI M1 M2 Dd N4 Hd. pose proof (pr_wf o pk P) as W. pose proof (wf_pad o W) as Hn. pose proof (fw_pos o W) as Hf. destruct (pr_even o pk P) as (En & Ed & _).
  destruct (front o w Ein (pk_nd pk) W Hw En Ed (pr_nd o pk P)) as (A & st2 & SA & S2 & Est2 & FR & PC).
  assert (SPF : forall s1, shape (postf o w A s1) (o_pad o) (o_pad o)) by (intros; split; reflexivity).
  destruct (oks_ptp (postf o w A (o_surf1 o)) _ w (o_d12 o) _ Hf Hw Hn (SPF _)) as (p12 & Ep12 & Sp12). destruct (PC p12 Ep12) as (Edm1 & Edm2 & EPC & _ & SE2 & VE2).
  destruct (box2 o w pk st2 p12 Edm2 P Hw SE2 VE2 Hd) as (B & X & EB & EX & HB). exists (Edm1, Edm2).
  pose proof (vx_image_ok o w cq pk (Edm1, Edm2) true B X P Hw N4 ltac:(discriminate) EB HB) as R. destruct (oks_tail1 o X W (proj1 HB)) as (P3 & EP3 & SP3).
  destruct (vx_column_ok o w I00 cq M (Edm1, Edm2) true pk X P3 P Hw HI M1 M2 Dd R EP3 SP3) as (col & EC & LC & VC). exists col. split; [exact EPC|]. split; [exact EC|]. split; [exact LC|]. intros i j Hi Hj HM. destruct (VC i j Hi Hj HM) as [_ V]. clear VC.
  set (op := fun Q => do P <- compact_tail o w Q; vfin o w I00 (nfft pk) cq P).
  set (DP := dpost o w pk (after2 o w st2 p12 (o_surf2 o))) in *.
  exists (px (op DP) i j).
  assert (ODP : op DP = vfin o w I00 (nfft pk) cq P3). { unfold op. rewrite (tail_eq o w _ W Hw), EX. cbn [rbind]. rewrite EP3. reflexivity. }
  assert (OKF : forall Q, shape Q (p3_size o) (p3_size o) -> oks (vfin o w I00 (nfft pk) cq Q) (frows M) (fcols M)).
  { intros Q SQ. unfold vfin. rewrite M1, M2. eapply oks_bind; [apply oks_vtail; auto|]. intros O SO. apply oks_ok. apply normalise_shape. exact SO. }
  split.
  2:{ rewrite V, ODP. reflexivity. }
  set (su := fun x => along (o_surf2 o) (poke_surface (o_pad o) pk) x).
  assert (OKD : forall Q, shape Q (o_pad o) (o_pad o) -> oks (op Q) (frows M) (fcols M)).
  { intros Q SQ. unfold op. eapply oks_bind; [apply oks_compact_tail; auto|]. exact OKF. }
  apply (dC_ext (fun x => px (op (after2 o w st2 p12 (su x))) i j)).
  - intros x. unfold vx_value, poked_by. fold (su x). change (match vx_field (with_surfs o (o_surf1 o) (su x)) w I00 (nfft pk) cq Ein with Ok F => fpx F i j | Raise _ => RtoC 0 end) with (px (vx_field (with_surfs o (o_surf1 o) (su x)) w I00 (nfft pk) cq Ein) i j).
    rewrite vx_field_eq.
    symmetry. eapply px_req; [|apply (OKD (after2 o w st2 p12 (su x)) ltac:(split; reflexivity))|auto|auto]. unfold op.
    destruct (wf_surf o W) as [FF1 FF2]. destruct (FF2 U2) as [G1 G2].
    assert (Q : req_field (compact_EP3 (with_surfs o (o_surf1 o) (su x)) w Ein) (compact_tail o w (after2 o w st2 p12 (su x)))).
    { eapply req_trans; [apply FR; [exact FF1|intros _; split; [exact G1|exact G2]]|]. rewrite Ep12. cbn [rbind]. apply req_refl. }
    destruct (compact_EP3 (with_surfs o (o_surf1 o) (su x)) w Ein) as [q|], (compact_tail o w (after2 o w st2 p12 (su x))) as [q'|]; try destruct Q as [].
    + cbn [rbind]. change (vx_from (with_surfs o (o_surf1 o) (su x)) w I00 (nfft pk) cq q) with (vx_from o w I00 (nfft pk) cq q). rewrite vx_from_fin. apply lin_feq; [apply lin_vfin|split; auto].
    + reflexivity.
  - apply (lin_derive op (fun x => after2 o w st2 p12 (su x)) DP (o_pad o) (o_pad o) (frows M) (fcols M)); auto.
    + unfold op. apply lin_bind; [apply lin_compact_tail|apply lin_vfin].
    + intros; split; reflexivity.
    + split; reflexivity.
    + apply OKD. split; reflexivity.
    + intros k l Hk Hl. cbn [after2 DP dpost fpx]. unfold sz2. rewrite U2. cbn [surf_or_zero]. eapply dC_eq; [apply dC_scal; apply dC_flatp; exact Hw|]. rewrite ik_kk. ring.
Qed.
