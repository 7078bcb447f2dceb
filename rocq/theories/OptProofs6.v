From Verif Require Import Base RBase StrBase UtilModel CBase PropModel PropSpec PropProofs PropProofs2 OptModel OptSpec LinBase OptProofs OptProofs2 OptProofs3 OptProofs4 OptProofs5.
Open Scope R_scope.

Definition zerof (E : field C) : Prop := forall i j, (i < frows E)%nat -> (j < fcols E)%nat -> fpx E i j = RtoC 0.
Lemma lin_zero op E O : lin op -> zerof E -> op E = Ok O -> zerof O.
Proof.
  intros L Z EO. destruct (L (frows E) (fcols E)) as [[e He]|(r & c & K & HK)]; [rewrite He in EO; [discriminate|split; reflexivity]|].
  destruct (HK E) as (O' & E' & [S1 S2] & V); [split; reflexivity|]. rewrite EO in E'. injection E' as <-. intros i j Hi Hj. rewrite V by congruence. unfold apply_kernel.
  apply csum_zero. intros a Ha. apply csum_zero. intros b Hb. rewrite Z by auto. ring.
Qed.
Local Open Scope string_scope.
Lemma transparent_P4 o w s t E n : well_formed o -> In (upper (o_coro o)) ["LC"; "APLC"; "HLC"] -> 0 < w -> 0 < s -> (1 <= n)%nat -> shape E n n ->
  (forall i j, (i < frows (o_fpm o))%nat -> (j < fcols (o_fpm o))%nat -> fpx (o_fpm o) i j = t) ->
  exists A B, compact_P3_to_P4 o w s t true E = Ok A /\ compact_P3_to_P4 o w s t false E = Ok B /\ shape A (o_narr4 o) (o_narr4 o) /\ feq A B.
Proof.
  intros W I Hw Hs Hn S M. pose proof (wf_narr4 o W) as HN. unfold compact_P3_to_P4.
  assert (V : is_vortex o = false) by (unfold is_vortex; cbn in I; destruct I as [<-|[<-|[<-|[]]]]; reflexivity). rewrite V.
  assert (X : str_in (upper (o_coro o)) ["FLC"; "SPLC"] = false) by (cbn in I; destruct I as [<-|[<-|[<-|[]]]]; reflexivity). rewrite X. rewrite (proj2 (str_in_iff _ _) I).
  destruct (oks_p2f3 o w s E n W Hw Hs Hn S) as (inc & -> & Si). cbn [rbind].
  destruct (bop_sq Cmult (fmap (fun m => Cminus t m) (o_fpm o)) inc _ _ (fpm_shape o _ W) Si) as (EF3 & E3 & S3 & V3). rewrite E3. cbn [rbind].
  assert (Z3 : zerof EF3). { intros i j Hi Hj. destruct S3 as [S31 S32]. rewrite S31 in Hi. rewrite S32 in Hj. rewrite V3 by auto. cbn. destruct (wf_fpm o W) as [F1 F2]. rewrite M by congruence. ring. }
  destruct (oks_relay E (nrel o (o_n34 o)) (o_cen o) n n (wf_cen o W) S) as (no & -> & Sn). cbn [rbind].
  destruct (oks_pad no (o_narr4 o) (o_narr4 o) HN HN) as (no' & En & Sno). rewrite En. cbn [rbind].
  destruct (oks_f2p3 o w s EF3 W Hw Hs S3) as (sub & Es & Ss). rewrite Es. cbn [rbind]. pose proof (lin_zero _ _ _ (lin_fpm_back o w s) Z3 Es) as Zs.
  destruct (oks_relay sub (nrel o (o_n34 o) - 1) (o_cen o) _ _ (wf_cen o W) Ss) as (sub' & Er & Ss'). rewrite Er. cbn [rbind]. pose proof (lin_zero _ _ _ (lin_relay _ _) Zs Er) as Zs'.
  destruct (wf_nbeam o W) as [_ ->]. destruct (Req_EM_T (o_nbeam1 o) (o_nbeam1 o)); [|congruence]. cbn [rbind].
  pose proof (lin_rscal _ t no (lin_pad_crop (o_narr4 o) (o_narr4 o))) as R. cbv beta in R. rewrite En in R. cbn [rscal rbind] in R.
  destruct (pad_cropf (scal t no) (o_narr4 o) (o_narr4 o)) as [B|] eqn:EB; [|destruct R]. cbn [req_field] in R.
  destruct (bop_sq Cminus (scal t no') sub' _ _ (scal_shape t _ _ _ Sno) Ss') as (A & EA & SA & VA). exists A, B. split; [auto|]. split; [auto|]. split; [auto|].
  destruct R as (R1 & R2 & R3). destruct SA as [SA1 SA2], Sno as [N1 N2], Ss' as [Q1 Q2]. cbn [scal fmap frows fcols] in R1, R2. split; [congruence|]. split; [congruence|]. intros i j Hi Hj. rewrite VA by congruence. rewrite R3 by congruence. rewrite Zs' by congruence. ring.
Qed.
Lemma transparent o w nf ev sc E t : well_formed o -> In (upper (o_coro o)) ["LC"; "APLC"; "HLC"] -> 0 < w -> (upper (o_coro o) <> "HLC" -> t = RtoC 1) ->
  (forall i j, (i < frows (o_fpm o))%nat -> (j < fcols (o_fpm o))%nat -> fpx (o_fpm o) i j = t) ->
  exists F G, compact_field o w nf ev sc true E = Ok F /\ compact_field o w nf ev sc false E = Ok G /\ feq F G.
Proof.
  intros W I Hw Ht M. assert (L : lyot_like o) by (unfold lyot_like; cbn in *; tauto).
  destruct (compact_succeeds o w nf ev sc true E W (or_introl L) Hw) as (F & EF & _). destruct (compact_succeeds o w nf ev sc false E W (or_introl L) Hw) as (G & EG & _).
  exists F, G. split; [auto|]. split; [auto|]. assert (R : req_field (compact_field o w nf ev sc true E) (compact_field o w nf ev sc false E)); [|rewrite EF, EG in R; exact R].
  rewrite !compact_field_eq. assert (Et : compact_trans o = Ok t).
  { unfold compact_trans. destruct (str_in (upper (o_coro o)) ["HLC"]) eqn:B.
    - unfold corner. destruct (wf_fpm o W) as [F1 F2]. destruct (wf_f3 o W) as (_ & H2 & _ & H4). rewrite M by lia. rewrite F1, F2. destruct (Nat.eqb_spec (g_Neta (o_f3 o)) 0); [lia|]. destruct (Nat.eqb_spec (g_Nxi (o_f3 o)) 0); [lia|]. reflexivity.
    - rewrite Ht; auto. intros Q. rewrite Q in B. discriminate. }
  rewrite Et. cbn [rbind]. destruct (scale_pos o w sc W Hw) as (s & -> & Hs). cbn [rbind]. destruct (oks_compact_EP3 o w E W Hw) as (P3 & -> & S3). cbn [rbind]. unfold compact_from. rewrite (lyot_not_vortex o L).
  replace (if Req_EM_T nf 0 then true else true) with true by (destruct (Req_EM_T nf 0); auto). replace (if Req_EM_T nf 0 then false else false) with false by (destruct (Req_EM_T nf 0); auto).
  destruct (transparent_P4 o w s t P3 _ W I Hw Hs (p3_pos o W) S3 M) as (A & B & -> & -> & SA & HAB). cbn [rbind].
  apply req_bind_lin; [|apply (lin_bind (to_Fend o w (if ev then o_eval o else o_fend o)) (fun F => Ok (normalise nf F))); lstep]. apply lin_feq; [lstep|auto].
Qed.
Local Close Scope string_scope.

(* with both propagation distances zero only the sum of the two surfaces matters *)
Lemma ptp_0 E fw w : 0 < fw -> 0 < w -> ptp E fw w 0 = Ok E.
Proof. intros. unfold ptp. destruct (Rle_dec fw 0); [lra|]. destruct (Rle_dec w 0); [lra|]. destruct (Req_EM_T 0 0); [reflexivity|lra]. Qed.
Lemma surf_sum_P3 o w E s1 s2 : well_formed o -> 0 < w -> o_use1 o = true -> o_use2 o = true -> o_d1 o = 0 -> o_d12 o = 0 ->
  (frows s1 = o_pad o /\ fcols s1 = o_pad o) -> (frows s2 = o_pad o /\ fcols s2 = o_pad o) ->
  (forall i j, (i < o_pad o)%nat -> (j < o_pad o)%nat -> fpx s1 i j + fpx s2 i j = fpx (o_surf1 o) i j + fpx (o_surf2 o) i j) ->
  req_field (compact_EP3 (with_surfs o s1 s2) w E) (compact_EP3 o w E).
Proof.
  intros W Hw U1 U2 D1 D12 Z1 Z2 HS. rewrite !compact_EP3_eq. unfold compact_flat. cbn [with_surfs o_pad o_rot o_n12 o_n23 o_n34 o_nend o_cen o_d1 o_d12 o_fl o_lambda0 o_dx2 o_use1 o_use2 o_surf1 o_surf2 o_pupil o_stop1 o_stop2 o_wfe o_apod].
  change (nrel (with_surfs o s1 s2)) with (nrel o). rewrite U1, U2. rewrite (wf_wfe o W). cbn [andb]. pose proof (wf_pad o W) as Hn. pose proof (fw_pos o W) as Hf. destruct (wf_surf o W) as [F1 F2]. specialize (F1 U1). specialize (F2 U2).
  destruct (oks_pad (o_pupil o) _ _ Hn Hn) as (pup & -> & Sp). destruct (oks_pad E _ _ Hn Hn) as (E' & -> & SE). destruct (oks_stop _ (o_stop1 o) Hn) as (st1 & -> & S1). destruct (oks_stop _ (o_stop2 o) Hn) as (st2 & -> & S2). cbn [rbind].
  destruct (oks_bop Cmult pup E' _ _ Sp SE) as (EP1 & -> & T1). cbn [rbind]. destruct (oks_relay EP1 (nrel o (o_n12 o)) (o_cen o) _ _ (wf_cen o W) T1) as (EP2 & -> & T2). cbn [rbind].
  rewrite D1. destruct (Req_EM_T 0 0); [|lra]. cbn [rbind]. destruct (imul_sq EP2 st1 _ _ T2 S1) as (pre & -> & T3 & V3). cbn [rbind]. destruct (bop_sq Cmult pre (ones (o_pad o)) _ _ T3 (ones_shape _)) as (a1 & -> & T4 & V4). cbn [rbind].
  unfold compact_DM2. cbn [with_surfs o_pad o_d12 o_dx2 o_use2 o_surf2]. rewrite U2, D12. unfold surf_or_zero.
  assert (PS : forall s, frows s = o_pad o /\ fcols s = o_pad o -> shape (phasor w s) (o_pad o) (o_pad o)) by (intros s [? ?]; split; auto).
  destruct (bop_sq Cmult a1 (phasor w s1) _ _ T4 (PS _ Z1)) as (x & -> & Tx & Vx). destruct (bop_sq Cmult a1 (phasor w (o_surf1 o)) _ _ T4 (PS _ F1)) as (y & -> & Ty & Vy). cbn [rbind]. rewrite !ptp_0 by auto. cbn [rbind].
  destruct (bop_sq Cmult st2 x _ _ S2 Tx) as (x1 & -> & Tx1 & Vx1). destruct (bop_sq Cmult st2 y _ _ S2 Ty) as (y1 & -> & Ty1 & Vy1). cbn [rbind].
  destruct (bop_sq Cmult (ones (o_pad o)) x1 _ _ (ones_shape _) Tx1) as (x2 & -> & Tx2 & Vx2). destruct (bop_sq Cmult (ones (o_pad o)) y1 _ _ (ones_shape _) Ty1) as (y2 & -> & Ty2 & Vy2). cbn [rbind].
  destruct (bop_sq Cmult x2 (phasor w s2) _ _ Tx2 (PS _ Z2)) as (x3 & -> & Tx3 & Vx3). destruct (bop_sq Cmult y2 (phasor w (o_surf2 o)) _ _ Ty2 (PS _ F2)) as (y3 & -> & Ty3 & Vy3). cbn [rbind].
  change (compact_tail (with_surfs o s1 s2) w) with (compact_tail o w). apply lin_feq; [apply lin_compact_tail|]. destruct Tx3 as [A1 A2], Ty3 as [B1 B2]. split; [congruence|]. split; [congruence|]. intros i j Hi Hj. rewrite A1 in Hi. rewrite A2 in Hj.
  rewrite Vx3, Vy3, Vx2, Vy2, Vx1, Vy1, Vx, Vy by auto. cbn.
  assert (PH : Cmult (cis (2 * 2 * PI * fpx s1 i j / w)) (cis (2 * 2 * PI * fpx s2 i j / w)) = Cmult (cis (2 * 2 * PI * fpx (o_surf1 o) i j / w)) (cis (2 * 2 * PI * fpx (o_surf2 o) i j / w))).
  { rewrite <- !cis_add. f_equal. replace (2 * 2 * PI * fpx s1 i j / w + 2 * 2 * PI * fpx s2 i j / w) with (2 * 2 * PI * (fpx s1 i j + fpx s2 i j) / w) by (unfold Rdiv; ring). rewrite HS by auto. unfold Rdiv. ring. }
  transitivity (Cmult (Cmult (fpx st2 i j) (fpx a1 i j)) (Cmult (cis (2 * 2 * PI * fpx s1 i j / w)) (cis (2 * 2 * PI * fpx s2 i j / w)))); [ring|]. rewrite PH. ring.
Qed.
Lemma wf_surfs o s1 s2 : well_formed o -> surfs_fit (with_surfs o s1 s2) -> well_formed (with_surfs o s1 s2).
Proof. intros W S. destruct W. constructor; auto. Qed.
Lemma surf_sum_compact o w nf ev sc fpm E s1 s2 : well_formed o -> lin (o_downsample o) -> 0 < w -> o_use1 o = true -> o_use2 o = true -> o_d1 o = 0 -> o_d12 o = 0 ->
  (frows s1 = o_pad o /\ fcols s1 = o_pad o) -> (frows s2 = o_pad o /\ fcols s2 = o_pad o) ->
  (forall i j, (i < o_pad o)%nat -> (j < o_pad o)%nat -> fpx s1 i j + fpx s2 i j = fpx (o_surf1 o) i j + fpx (o_surf2 o) i j) ->
  req_field (compact_field (with_surfs o s1 s2) w nf ev sc fpm E) (compact_field o w nf ev sc fpm E).
Proof.
  intros W HD Hw U1 U2 D1 D12 Z1 Z2 HS. rewrite !compact_field_eq. change (compact_trans (with_surfs o s1 s2)) with (compact_trans o). change (fpm_scale (with_surfs o s1 s2) w sc) with (fpm_scale o w sc).
  destruct (compact_trans o) as [t|]; cbn [rbind]; [|reflexivity]. destruct (fpm_scale o w sc) as [s|]; cbn [rbind]; [|reflexivity].
  change (compact_from (with_surfs o s1 s2) w nf ev fpm t s) with (compact_from o w nf ev fpm t s). apply req_bind_lin; [now apply surf_sum_P3|now apply lin_compact_from].
Qed.
Lemma surf_sum_full o w nf sc E s1 s2 : well_formed o -> 0 < w -> o_use1 o = true -> o_use2 o = true -> o_d1 o = 0 -> o_d12 o = 0 ->
  (frows s1 = o_pad o /\ fcols s1 = o_pad o) -> (frows s2 = o_pad o /\ fcols s2 = o_pad o) ->
  (forall i j, (i < o_pad o)%nat -> (j < o_pad o)%nat -> fpx s1 i j + fpx s2 i j = fpx (o_surf1 o) i j + fpx (o_surf2 o) i j) ->
  req_field (full_Fourier (with_surfs o s1 s2) w nf sc E) (full_Fourier o w nf sc E).
Proof.
  intros W Hw U1 U2 D1 D12 Z1 Z2 HS. unfold full_Fourier. change (fpm_scale (with_surfs o s1 s2) w sc) with (fpm_scale o w sc). destruct (fpm_scale o w sc) as [s|]; cbn [rbind]; [|reflexivity].
  change (req_field (rbind (full_to_P3 (with_surfs o s1 s2) w E) (full_from o w nf s)) (rbind (full_to_P3 o w E) (full_from o w nf s))).
  apply req_bind_lin; [|apply lin_full_from]. assert (W' : well_formed (with_surfs o s1 s2)) by (apply wf_surfs; auto; split; auto).
  eapply req_trans; [apply (P3_equal (with_surfs o s1 s2)); apply W'|]. eapply req_trans; [apply surf_sum_P3; auto|]. apply req_sym, P3_equal; apply W.
Qed.
