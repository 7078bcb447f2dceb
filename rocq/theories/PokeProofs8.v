(* A column of the control Jacobian is the derivative of the model field. *)
From Coquelicot Require Import Coquelicot.
From Verif Require Import Base RBase StrBase UtilModel CBase PropModel PropSpec PropProofs PropProofs2 OptModel OptSpec LinBase OptProofs OptProofs2 OptProofs3 OptProofs4 OptProofs6 OptProofs7 DiffModel DiffSpec DiffProofs2 SrcModel PokeModel PokeProofs PokeProofs2 GradModel GradSpec GradProofs GradProofs3 GradProofs4 GradProofs5 PokeSpec PokeProofs3 PokeProofs4 PokeProofs5 PokeProofs6 PokeProofs7.
Open Scope R_scope.

Lemma tail_eq o w E : well_formed o -> 0 < w -> compact_tail o w E = do X <- ptp E (o_dx2 o * INR (o_pad o)) w (- (o_d1 o + o_d12 o)); tail1 o X.
Proof.
  intros W Hw. unfold compact_tail. destruct (Req_EM_T (o_d1 o + o_d12 o) 0) as [Z|_]; [|reflexivity]. rewrite Z, Ropp_0, ptp_0 by (auto; apply fw_pos; auto). reflexivity.
Qed.
Lemma take_ax_ok o (l : list R) a nd m : length l = nd -> Nat.even nd = true -> (forall k, (k < nd)%nat -> nth k l 0 = coord nd (o_dx2 o) (o_cen o) k) -> (0 <= a)%Z -> (a + Z.of_nat m <= Z.of_nat nd)%Z ->
  exists x, take_ax l a m = Ok x /\ forall i, (i < m)%nat -> x i = (IZR (a - hf nd + Z.of_nat i) + dlt (o_cen o)) * o_dx2 o.
Proof.
  intros L He V H1 H2. unfold take_ax. rewrite L, box_ok_in by auto. eexists. split; [reflexivity|]. intros i Hi. cbn beta. rewrite ixv_in by lia. rewrite V by lia. rewrite coord_hf by auto. replace (Z.of_nat (Z.to_nat (a + Z.of_nat i)) - hf nd)%Z with (a - hf nd + Z.of_nat i)%Z by lia. reflexivity.
Qed.
Lemma image_core o w s t pk X B y x ap : poke_ready o pk -> lyot_like o -> 0 < w -> 0 < s -> boxed o pk X B ->
  (forall i, (i < pk_nas pk)%nat -> y i = (IZR (ay_ pk - hf (pk_nd pk) + Z.of_nat i) + dlt (o_cen o)) * o_dx2 o) -> (forall i, (i < pk_nas pk)%nat -> x i = (IZR (ax_ pk - hf (pk_nd pk) + Z.of_nat i) + dlt (o_cen o)) * o_dx2 o) ->
  jac_apod o (pk_nd pk) = Ok ap -> req_field (jac_tail o w s t (pk_nd pk) (ay_ pk) (ax_ pk) (pk_nas pk) y x ap B) (do P3 <- tail1 o X; tail2 o w s t P3).
Proof.
  intros P LY Hw Hs (SX & (B1 & B2 & VB) & Z) Vy Vx Eap. destruct (box_pos o pk P) as (A1 & A2 & A3 & A4 & A5 & A6). destruct (pr_even o pk P) as (En & Ed & E4). pose proof (pr_nd o pk P) as Hnd. pose proof (even_hf _ En) as Hn. pose proof (even_hf _ Ed) as Hdd.
  assert (HZ : Z.of_nat (o_pad o / 2 - pk_nd pk / 2) = (hf (o_pad o) - hf (pk_nd pk))%Z). { assert (pk_nd pk / 2 <= o_pad o / 2)%nat by (apply Nat.div_le_mono; lia). rewrite Nat2Z.inj_sub, !Nat2Z.inj_div by lia. reflexivity. }
  apply (jac_core o (pk_nd pk) w s t (ay_ pk) (ax_ pk) (pk_nas pk) y x ap B (boxf (- hf (o_pad o)) (- hf (o_pad o)) (o_pad o) (fpx X)) X); auto; try apply (pr_wf o pk P); try apply (pr_apod o pk P).
  - split; [exact SX|]. intros i j Hi Hj. unfold boxf. destruct (_ && _)%bool eqn:Q; [f_equal; lia|]. exfalso. repeat (apply andb_false_iff in Q; destruct Q as [Q|Q]); lia.
  - intros u v N. unfold boxf. destruct (_ && _)%bool eqn:Q; [|reflexivity]. repeat (apply andb_prop in Q; destruct Q as [Q ?]). repeat match goal with H : (_ && _)%bool = true |- _ => apply andb_prop in H; destruct H end.
    apply Z; [lia|lia|]. unfold inbox, qy_, qx_. lia.
  - split; auto.
  - intros i j Hi Hj. rewrite VB by auto. unfold boxf. destruct (q_bound o pk P i Hi) as [Q1 _]. destruct (q_bound o pk P j Hj) as [_ Q2]. unfold qy_ in *. unfold qx_ in *. destruct (_ && _)%bool eqn:Q; [f_equal; lia|]. exfalso. repeat (apply andb_false_iff in Q; destruct Q as [Q|Q]); lia.
Qed.
Lemma image_ok o w sc pk fields (dm2 : bool) B X s t : poke_ready o pk -> lyot_like o -> 0 < w -> fpm_scale o w sc = Ok s -> 0 < s -> compact_trans o = Ok t ->
  (if dm2 then box_dm2 o w (snd fields) pk (ay_ pk) (ax_ pk) else box_dm1 o w (fst fields) pk (ay_ pk) (ax_ pk)) = Ok B -> boxed o pk X B ->
  req_field (lyot_image o w sc fields dm2 pk) (do P3 <- tail1 o X; tail2 o w s t P3).
Proof.
  intros P LY Hw Es Hs Et EB HB. destruct (box_pos o pk P) as (A1 & A2 & A3 & A4 & A5 & A6). destruct (pr_even o pk P) as (En & Ed & E4). pose proof (pr_nd o pk P) as Hnd.
  unfold lyot_image. rewrite Es, Et. cbn [rbind]. destruct (jac_apod_rep o (pk_nd pk) (pr_wf o pk P) En Ed Hnd (pr_apod o pk P)) as (ap & Eap & _). rewrite Eap. cbn [rbind]. fold (ay_ pk) (ax_ pk).
  destruct (pr_x o pk P) as [X1 X2]. destruct (pr_y o pk P) as [Y1 Y2].
  destruct (take_ax_ok o (pk_x pk) (ax_ pk) (pk_nd pk) (pk_nas pk) X1 Ed X2) as (x & -> & Vx); [lia|lia|]. destruct (take_ax_ok o (pk_y pk) (ay_ pk) (pk_nd pk) (pk_nas pk) Y1 Ed Y2) as (y & -> & Vy); [lia|lia|]. cbn [rbind].
  rewrite EB. cbn [rbind]. apply image_core; auto.
Qed.
Lemma dm2_after o w st2 P : well_formed o -> shape st2 (o_pad o) (o_pad o) -> shape P (o_pad o) (o_pad o) -> req_field (compact_DM2 o w st2 P) (do p12 <- ptp P (o_dx2 o * INR (o_pad o)) w (o_d12 o); compact_tail o w (after2 o w st2 p12 (o_surf2 o))).
Proof.
  intros W S2 SP. destruct (wf_surf o W) as [_ F2]. unfold compact_DM2. destruct (ptp P _ w (o_d12 o)) as [b|e] eqn:Eb; [|reflexivity]. cbn [rbind]. assert (Sb : shape b (o_pad o) (o_pad o)) by (apply ptp_shape in Eb; destruct SP, Eb; split; congruence).
  destruct (bop_sq Cmult st2 b _ _ S2 Sb) as (e2 & -> & Se2 & Ve2). cbn [rbind]. destruct (bop_sq Cmult (ones (o_pad o)) e2 _ _ (ones_shape _) Se2) as (b1 & -> & Sb1 & Vb1). cbn [rbind].
  destruct (bop_sq Cmult b1 (phasor w (surf_or_zero (o_use2 o) (o_pad o) (o_surf2 o))) _ _ Sb1 (phasor_shape w _ _ _ F2)) as (U & -> & [U1 U2] & VU). cbn [rbind].
  apply lin_feq; [apply lin_compact_tail|]. split; [exact U1|]. split; [exact U2|]. intros i j Hi Hj. rewrite U1 in Hi. rewrite U2 in Hj. rewrite VU, Vb1, Ve2 by auto. cbn [ones fpx phasor fmap after2]. unfold flatp, sz2. ring.
Qed.
Definition fin o w s t I00 P3 : res (field C) := do F <- tail2 o w s t P3; Ok (normalise I00 F).
Lemma lin_fin o w s t I00 : lin (fin o w s t I00). Proof. unfold fin. apply lin_bind; [apply lin_tail2|lstep]. Qed.
Lemma from_fin o w s t I00 P3 : 0 < I00 -> compact_from o w I00 false true t s P3 = fin o w s t I00 P3.
Proof.
  intros H. unfold compact_from, fin, tail2. destruct (Req_EM_T I00 0); [lra|]. rewrite bind_assoc. destruct (compact_P3_to_P4 o w s t true P3); [|reflexivity]. cbn [rbind]. rewrite bind_assoc. reflexivity.
Qed.
Lemma oks_tail1 o E : well_formed o -> shape E (o_pad o) (o_pad o) -> oks (tail1 o E) (p3_size o) (p3_size o).
Proof.
  intros W SE. unfold tail1. eapply oks_bind; [apply oks_relay; [apply wf_cen; auto|exact SE]|]. intros O SO. pose proof (wf_apod o W) as WA. unfold p3_size. destruct (o_apod o) as [[m na]|]; [|now apply oks_ok]. destruct WA as (H1 & H2 & H3).
  eapply oks_bind; [apply oks_pad; auto|]. intros O2 S2. apply oks_bop; [split; auto|exact S2].
Qed.
Lemma px_req x y r c i j : req_field x y -> oks y r c -> (i < r)%nat -> (j < c)%nat -> px x i j = px y i j.
Proof. intros H (O & -> & [S1 S2]) Hi Hj. destruct x as [a|]; [|destruct H]. destruct H as (H1 & H2 & H3). cbn [px]. apply H3; congruence. Qed.
Lemma ik_kk w d : Cmult (ik w) (RtoC d) = (0, kk w * d). Proof. unfold ik, kk. apply injective_projections; cbn; ring. Qed.
Lemma nth_map_in {A B} (f : A -> B) l k d d' : (k < length l)%nat -> nth k (map f l) d' = f (nth k l d).
Proof. intros H. rewrite (nth_indep (map f l) d' (f d)) by (rewrite map_length; auto). apply map_nth. Qed.
(* from the image of the poke to the column *)
Lemma column_ok o w I00 sc M fields dm2 pk X P3 s t : poke_ready o pk -> lyot_like o -> 0 < w -> 0 < I00 -> 0 < s -> frows M = g_Neta (o_fend o) -> fcols M = g_Nxi (o_fend o) -> pk_dead pk = false ->
  req_field (lyot_image o w sc fields dm2 pk) (do P3 <- tail1 o X; tail2 o w s t P3) -> tail1 o X = Ok P3 -> shape P3 (p3_size o) (p3_size o) ->
  exists col, lyot_column o w I00 sc M fields dm2 pk = Ok col /\ length col = mask_count M /\ forall i j, (i < frows M)%nat -> (j < fcols M)%nat -> fpx M i j = true ->
    (mask_rank M i j < length col)%nat /\ nth (mask_rank M i j) col (RtoC 0) = Cmult (RtoC (pk_weight pk)) (px (fin o w s t I00 P3) i j).
Proof.
  intros P LY Hw HI Hs M1 M2 Dd R EX SP3. rewrite EX in R. cbn [rbind] in R. destruct (oks_tail2 o w s t P3 (pr_wf o pk P) LY Hw Hs SP3) as (F & EF & [F1 F2]). rewrite EF in R.
  unfold lyot_column. rewrite Dd. destruct (lyot_image o w sc fields dm2 pk) as [G|]; [|destruct R]. destruct R as (R1 & R2 & R3). cbn [rbind]. destruct (gather_ok M G) as (g & -> & Lg & Vg); [congruence|congruence|]. cbn [rbind].
  eexists. split; [reflexivity|]. rewrite map_length. split; [exact Lg|]. intros i j Hi Hj HM. destruct (Vg i j Hi Hj HM) as [Q1 Q2]. split; [rewrite Lg; exact Q1|]. rewrite (nth_map_in _ _ _ (RtoC 0)) by (rewrite Lg; exact Q1). rewrite Q2, R3 by congruence.
  unfold fin. rewrite EF. cbn [rbind px]. unfold normalise. destruct (Req_EM_T I00 0); [lra|]. cbn [fmap fpx]. ring.
Qed.
Lemma column_dm1 o w I00 sc M Ein pk nd2 : poke_ready o pk -> lyot_like o -> o_use1 o = true -> 0 < w -> 0 < I00 -> frows M = g_Neta (o_fend o) -> fcols M = g_Nxi (o_fend o) -> pk_dead pk = false -> even_size nd2 -> (1 <= nd2 <= o_pad o)%nat ->
  (o_d1 o = 0 /\ o_d12 o = 0) \/ whole_array o pk ->
  exists fields col, precomp o w Ein nd2 = Ok fields /\ lyot_column o w I00 sc M fields false pk = Ok col /\ length col = mask_count M /\
    forall i j, (i < frows M)%nat -> (j < fcols M)%nat -> fpx M i j = true -> exists D, derivative (fun t => model_field (poked_by o false pk t) w I00 sc Ein i j) D /\ nth (mask_rank M i j) col (RtoC 0) = Cmult (RtoC (pk_weight pk)) D.
Proof.
  intros P LY U1 Hw HI M1 M2 Dd E2 H2 Hd. pose proof (pr_wf o pk P) as W. pose proof (wf_pad o W) as Hn. pose proof (fw_pos o W) as Hf. destruct (pr_even o pk P) as (En & _).
  destruct (front o w Ein nd2 W Hw En E2 H2) as (A & st2 & SA & S2 & Est2 & FR & PC). destruct (scale_pos o w sc W Hw) as (s & Es & Hs). destruct (oks_trans o W) as (t & Et).
  assert (SPF : forall s1, shape (postf o w A s1) (o_pad o) (o_pad o)) by (intros; split; reflexivity).
  destruct (oks_ptp (postf o w A (o_surf1 o)) _ w (o_d12 o) _ Hf Hw Hn (SPF _)) as (p12 & Ep12 & Sp12). destruct (PC p12 Ep12) as (Edm1 & Edm2 & EPC & FE & _).
  destruct (box1 o w pk A st2 Edm1 P Hw S2 Est2 FE Hd) as (B & b & X & EB & Eb & EX & HB). exists (Edm1, Edm2).
  pose proof (image_ok o w sc pk (Edm1, Edm2) false B X s t P LY Hw Es Hs Et EB HB) as R. destruct (oks_tail1 o X W (proj1 HB)) as (P3 & EP3 & SP3).
  destruct (column_ok o w I00 sc M (Edm1, Edm2) false pk X P3 s t P LY Hw HI Hs M1 M2 Dd R EP3 SP3) as (col & EC & LC & VC). exists col. split; [exact EPC|]. split; [exact EC|]. split; [exact LC|]. intros i j Hi Hj HM. destruct (VC i j Hi Hj HM) as [_ V]. clear VC.
  set (op := fun Q => do P <- compact_DM2 o w st2 Q; fin o w s t I00 P).
  set (DP := dpost o w pk (postf o w A (o_surf1 o))) in *.
  exists (px (op DP) i j).
  assert (ODP : req_field (op DP) (fin o w s t I00 P3)).
  { unfold op. pose proof (dm2_after o w st2 DP W S2 ltac:(split; reflexivity)) as Q. rewrite Eb in Q. cbn [rbind] in Q. rewrite (tail_eq o w _ W Hw), EX in Q. cbn [rbind] in Q. rewrite EP3 in Q.
    destruct (compact_DM2 o w st2 DP) as [P3'|]; [|destruct Q]. cbn [req_field rbind] in Q |- *. apply lin_feq; [apply lin_fin|exact Q]. }
  assert (OKF : forall Q, shape Q (p3_size o) (p3_size o) -> oks (fin o w s t I00 Q) (frows M) (fcols M)).
  { intros Q SQ. unfold fin. rewrite M1, M2. eapply oks_bind; [apply oks_tail2; auto; exact LY|]. intros O SO. apply oks_ok. apply normalise_shape. exact SO. }
  split.
  2:{ rewrite V. f_equal. symmetry. eapply px_req; [exact ODP|apply OKF; exact SP3|auto|auto]. }
  set (su := fun x => along (o_surf1 o) (poke_surface (o_pad o) pk) x).
  assert (OKD : forall Q, shape Q (o_pad o) (o_pad o) -> oks (op Q) (frows M) (fcols M)).
  { intros Q SQ. unfold op. destruct (oks_ptp Q _ w (o_d12 o) _ Hf Hw Hn SQ) as (b0 & Eb0 & Sb0). pose proof (dm2_after o w st2 Q W S2 SQ) as QQ. rewrite Eb0 in QQ. cbn [rbind] in QQ.
    destruct (oks_compact_tail o w (after2 o w st2 b0 (o_surf2 o)) W Hw ltac:(split; reflexivity)) as (q & Eq & [Sq1 Sq2]). rewrite Eq in QQ. destruct (compact_DM2 o w st2 Q) as [q'|]; [|destruct QQ]. cbn [rbind]. apply OKF. destruct QQ as (Q1 & Q2 & _). split; congruence. }
  apply (dC_ext (fun x => px (op (postf o w A (su x))) i j)).
  - intros x. unfold model_field, poked_by. cbn [su]. fold (su x). change (match compact_field (with_surfs o (su x) (o_surf2 o)) w I00 false sc true Ein with Ok F => fpx F i j | Raise _ => RtoC 0 end) with (px (compact_field (with_surfs o (su x) (o_surf2 o)) w I00 false sc true Ein) i j).
    rewrite compact_field_eq. change (compact_trans (with_surfs o (su x) (o_surf2 o))) with (compact_trans o). change (fpm_scale (with_surfs o (su x) (o_surf2 o)) w sc) with (fpm_scale o w sc). rewrite Et, Es. cbn [rbind].
    symmetry. eapply px_req; [|apply (OKD (postf o w A (su x)) (SPF _))|auto|auto]. unfold op.
    destruct (wf_surf o W) as [FF1 FF2]. destruct (FF1 U1) as [G1 G2].
    assert (Q : req_field (compact_EP3 (with_surfs o (su x) (o_surf2 o)) w Ein) (compact_DM2 o w st2 (postf o w A (su x)))).
    { eapply req_trans; [apply FR; [intros _; split; [exact G1|exact G2]|exact FF2]|]. apply req_sym. apply dm2_after; auto. }
    destruct (compact_EP3 (with_surfs o (su x) (o_surf2 o)) w Ein) as [q|], (compact_DM2 o w st2 (postf o w A (su x))) as [q'|]; try destruct Q as [].
    + cbn [rbind]. change (compact_from (with_surfs o (su x) (o_surf2 o)) w I00 false true t s q) with (compact_from o w I00 false true t s q). rewrite from_fin by auto. apply lin_feq; [apply lin_fin|split; auto].
    + reflexivity.
  - apply (lin_derive op (fun x => postf o w A (su x)) DP (o_pad o) (o_pad o) (frows M) (fcols M)); auto.
    + unfold op. apply lin_bind; [apply lin_compact_DM2|apply lin_fin].
    + split; reflexivity.
    + apply OKD. split; reflexivity.
    + intros k l Hk Hl. cbn [postf DP dpost fpx]. unfold sz1. rewrite U1. cbn [surf_or_zero]. eapply dC_eq; [apply dC_scal; apply dC_flatp; exact Hw|]. rewrite ik_kk. ring.
Qed.
Lemma column_dm2 o w I00 sc M Ein pk : poke_ready o pk -> lyot_like o -> o_use2 o = true -> 0 < w -> 0 < I00 -> frows M = g_Neta (o_fend o) -> fcols M = g_Nxi (o_fend o) -> pk_dead pk = false ->
  o_d1 o + o_d12 o = 0 \/ whole_array o pk ->
  exists fields col, precomp o w Ein (pk_nd pk) = Ok fields /\ lyot_column o w I00 sc M fields true pk = Ok col /\ length col = mask_count M /\
    forall i j, (i < frows M)%nat -> (j < fcols M)%nat -> fpx M i j = true -> exists D, derivative (fun t => model_field (poked_by o true pk t) w I00 sc Ein i j) D /\ nth (mask_rank M i j) col (RtoC 0) = Cmult (RtoC (pk_weight pk)) D.
Proof.
  intros P LY U2 Hw HI M1 M2 Dd Hd. pose proof (pr_wf o pk P) as W. pose proof (wf_pad o W) as Hn. pose proof (fw_pos o W) as Hf. destruct (pr_even o pk P) as (En & Ed & _).
  destruct (front o w Ein (pk_nd pk) W Hw En Ed (pr_nd o pk P)) as (A & st2 & SA & S2 & Est2 & FR & PC). destruct (scale_pos o w sc W Hw) as (s & Es & Hs). destruct (oks_trans o W) as (t & Et).
  assert (SPF : forall s1, shape (postf o w A s1) (o_pad o) (o_pad o)) by (intros; split; reflexivity).
  destruct (oks_ptp (postf o w A (o_surf1 o)) _ w (o_d12 o) _ Hf Hw Hn (SPF _)) as (p12 & Ep12 & Sp12). destruct (PC p12 Ep12) as (Edm1 & Edm2 & EPC & _ & SE2 & VE2).
  destruct (box2 o w pk st2 p12 Edm2 P Hw SE2 VE2 Hd) as (B & X & EB & EX & HB). exists (Edm1, Edm2).
  pose proof (image_ok o w sc pk (Edm1, Edm2) true B X s t P LY Hw Es Hs Et EB HB) as R. destruct (oks_tail1 o X W (proj1 HB)) as (P3 & EP3 & SP3).
  destruct (column_ok o w I00 sc M (Edm1, Edm2) true pk X P3 s t P LY Hw HI Hs M1 M2 Dd R EP3 SP3) as (col & EC & LC & VC). exists col. split; [exact EPC|]. split; [exact EC|]. split; [exact LC|]. intros i j Hi Hj HM. destruct (VC i j Hi Hj HM) as [_ V]. clear VC.
  set (op := fun Q => do P <- compact_tail o w Q; fin o w s t I00 P).
  set (DP := dpost o w pk (after2 o w st2 p12 (o_surf2 o))) in *.
  exists (px (op DP) i j).
  assert (ODP : op DP = fin o w s t I00 P3). { unfold op. rewrite (tail_eq o w _ W Hw), EX. cbn [rbind]. rewrite EP3. reflexivity. }
  assert (OKF : forall Q, shape Q (p3_size o) (p3_size o) -> oks (fin o w s t I00 Q) (frows M) (fcols M)).
  { intros Q SQ. unfold fin. rewrite M1, M2. eapply oks_bind; [apply oks_tail2; auto; exact LY|]. intros O SO. apply oks_ok. apply normalise_shape. exact SO. }
  split.
  2:{ rewrite V, ODP. reflexivity. }
  set (su := fun x => along (o_surf2 o) (poke_surface (o_pad o) pk) x).
  assert (OKD : forall Q, shape Q (o_pad o) (o_pad o) -> oks (op Q) (frows M) (fcols M)).
  { intros Q SQ. unfold op. eapply oks_bind; [apply oks_compact_tail; auto|]. exact OKF. }
  apply (dC_ext (fun x => px (op (after2 o w st2 p12 (su x))) i j)).
  - intros x. unfold model_field, poked_by. fold (su x). change (match compact_field (with_surfs o (o_surf1 o) (su x)) w I00 false sc true Ein with Ok F => fpx F i j | Raise _ => RtoC 0 end) with (px (compact_field (with_surfs o (o_surf1 o) (su x)) w I00 false sc true Ein) i j).
    rewrite compact_field_eq. change (compact_trans (with_surfs o (o_surf1 o) (su x))) with (compact_trans o). change (fpm_scale (with_surfs o (o_surf1 o) (su x)) w sc) with (fpm_scale o w sc). rewrite Et, Es. cbn [rbind].
    symmetry. eapply px_req; [|apply (OKD (after2 o w st2 p12 (su x)) ltac:(split; reflexivity))|auto|auto]. unfold op.
    destruct (wf_surf o W) as [FF1 FF2]. destruct (FF2 U2) as [G1 G2].
    assert (Q : req_field (compact_EP3 (with_surfs o (o_surf1 o) (su x)) w Ein) (compact_tail o w (after2 o w st2 p12 (su x)))).
    { eapply req_trans; [apply FR; [exact FF1|intros _; split; [exact G1|exact G2]]|]. rewrite Ep12. cbn [rbind]. apply req_refl. }
    destruct (compact_EP3 (with_surfs o (o_surf1 o) (su x)) w Ein) as [q|], (compact_tail o w (after2 o w st2 p12 (su x))) as [q'|]; try destruct Q as [].
    + cbn [rbind]. change (compact_from (with_surfs o (o_surf1 o) (su x)) w I00 false true t s q) with (compact_from o w I00 false true t s q). rewrite from_fin by auto. apply lin_feq; [apply lin_fin|split; auto].
    + reflexivity.
  - apply (lin_derive op (fun x => after2 o w st2 p12 (su x)) DP (o_pad o) (o_pad o) (frows M) (fcols M)); auto.
    + unfold op. apply lin_bind; [apply lin_compact_tail|apply lin_fin].
    + intros; split; reflexivity.
    + split; reflexivity.
    + apply OKD. split; reflexivity.
    + intros k l Hk Hl. cbn [after2 DP dpost fpx]. unfold sz2. rewrite U2. cbn [surf_or_zero]. eapply dC_eq; [apply dC_scal; apply dC_flatp; exact Hw|]. rewrite ik_kk. ring.
Qed.
