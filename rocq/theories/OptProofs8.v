From Verif Require Import Base RBase StrBase UtilModel CBase PropModel PropSpec PropProofs PropProofs2 OptModel OptSpec LinBase OptProofs OptProofs2 OptProofs3 OptProofs4 OptProofs5 OptProofs6.
Open Scope R_scope.

Lemma relay_even {A} (E : field A) n c : c <> OtherCentering -> (n mod 2 = 0)%Z -> relay E n c = Ok E.
Proof. intros Hc Hn. unfold relay. rewrite Hn. destruct c; [reflexivity|reflexivity|congruence]. Qed.
Local Open Scope string_scope.
Definition vortex_names (o : optics) : Prop := In (upper (o_coro o)) ["VORTEX"; "VC"].
Lemma full_compact_vortex o w nf E : well_formed o -> vortex_names o -> (exists q, o_charge o = ChInt q) -> ((nrel o (o_n34 o) - 1) mod 2 = 0)%Z -> 0 < w ->
  exists F G, full_Fourier o w nf false E = Ok F /\ compact_field o w nf false false true E = Ok G /\ feq F G.
Proof.
  intros W I Hq Hr Hw. assert (Kf : known_full o) by (right; auto). assert (Kc : known_compact o) by (right; split; [unfold vortex_names in I; cbn in *; tauto|auto]).
  destruct (full_succeeds o w nf false E W Kf Hw) as (F & EF & _). destruct (compact_succeeds o w nf false false true E W Kc Hw) as (G & EG & _).
  exists F, G. split; [auto|]. split; [auto|]. assert (R : req_field (full_Fourier o w nf false E) (compact_field o w nf false false true E)); [|rewrite EF, EG in R; exact R].
  rewrite compact_field_eq. unfold full_Fourier. assert (Et : compact_trans o = Ok (RtoC 1)) by (unfold compact_trans, vortex_names in *; cbn in I; destruct I as [<-|[<-|[]]]; reflexivity). rewrite Et. cbn [rbind fpm_scale].
  assert (V : is_vortex o = true) by (unfold is_vortex, vortex_names in *; cbn in I; destruct I as [<-|[<-|[]]]; reflexivity).
  pose proof (P3_equal o w E (wf_surf o W) (wf_wfe o W)) as H3. destruct (oks_full_P3 o w E W Hw) as (P3 & E3 & S3). rewrite E3 in *. destruct (compact_EP3 o w E) as [P3'|]; [|destruct H3]. cbn [rbind req_field] in *.
  pose proof (wf_narr4 o W) as HN.
  (* the masked branch *)
  assert (HB : exists P4 P4', full_P3_to_P4 o w 1 P3 = Ok P4 /\ compact_P3_to_P4 o w 1 (RtoC 1) true P3' = Ok P4' /\ shape P4 (o_narr4 o) (o_narr4 o) /\ feq P4 P4').
  { destruct (oks_full_P3_P4 o w 1 P3 _ W Kf Hw ltac:(lra) (p3_pos o W) S3) as (P4 & E4 & S4).
    destruct (oks_compact_P3_P4 o w 1 (RtoC 1) true P3' _ W (fun _ => Kc) Hw ltac:(lra) (p3_pos o W) (shape_feq _ _ _ _ S3 H3)) as (P4' & E4' & S4'). exists P4, P4'. split; [auto|]. split; [auto|]. split; [auto|].
    revert E4 E4'. unfold full_P3_to_P4, compact_P3_to_P4. rewrite V. unfold vortex_names in I.
    replace (str_in (upper (o_coro o)) ["LC"; "APLC"]) with false by (cbn in I; destruct I as [<-|[<-|[]]]; reflexivity). replace (str_in (upper (o_coro o)) ["HLC"]) with false by (cbn in I; destruct I as [<-|[<-|[]]]; reflexivity).
    replace (str_in (upper (o_coro o)) ["SPLC"; "FLC"]) with false by (cbn in I; destruct I as [<-|[<-|[]]]; reflexivity). rewrite (proj2 (str_in_iff _ _) I).
    pose proof (lin_feq _ _ _ (lin_vprop o) H3) as HV. destruct (oks_vortex o P3 _ W Hq S3) as (v & Ev & Sv). rewrite Ev in *. destruct (vortex_prop o P3') as [v'|]; [|destruct HV]. cbn [rbind req_field] in *.
    rewrite (relay_even v' _ _ (wf_cen o W) Hr). cbn [rbind]. pose proof (lin_feq _ _ _ (lin_pad_crop (o_narr4 o) (o_narr4 o)) HV) as HP. cbv beta in HP.
    destruct (pad_cropf v _ _) as [p|]; [|discriminate]. destruct (pad_cropf v' _ _) as [p'|]; [|discriminate]. cbn [rbind req_field] in *. rewrite (relay_even p _ _ (wf_cen o W) Hr). intros Q1 Q2. injection Q1 as <-. injection Q2 as <-. exact HP. }
  destruct HB as (P4 & P4' & E4 & E4' & S4 & F4). rewrite E4. cbn [rbind]. unfold compact_from. rewrite V.
  destruct (Req_EM_T nf 0) as [Z|Z].
  - unfold compact_P3_to_P4. destruct (wf_nbeam o W) as [_ ->]. destruct (Req_EM_T (o_nbeam1 o) (o_nbeam1 o)); [|congruence].
    pose proof (lin_feq _ _ _ (lin_relay (nrel o (o_n34 o)) (o_cen o)) H3) as HR. cbv beta in HR. destruct (oks_relay P3 (nrel o (o_n34 o)) (o_cen o) _ _ (wf_cen o W) S3) as (r & Er & Sr). rewrite Er in *.
    destruct (relay P3' _ _) as [r'|]; [|destruct HR]. cbn [rbind req_field] in *.
    assert (FS : feq r (scal (RtoC 1) r')) by (destruct HR as (? & ? & HV); split; [auto|]; split; [auto|]; cbn; intros; rewrite HV by auto; ring).
    pose proof (lin_feq _ _ _ (lin_pad_crop (o_narr4 o) (o_narr4 o)) FS) as HP. cbv beta in HP. destruct (oks_pad r (o_narr4 o) (o_narr4 o) HN HN) as (p & Ep & Sp). rewrite Ep in *.
    destruct (pad_cropf (scal (RtoC 1) r') _ _) as [p'|]; [|destruct HP]. cbn [rbind req_field] in *. apply lyot_end; [auto|auto|apply W].
  - rewrite E4'. cbn [rbind]. apply lyot_end; [auto|auto|apply W].
Qed.
(* names *)
Lemma full_avc o w nf sc E : well_formed o -> 0 < w -> upper (o_coro o) = "AVC" -> full_Fourier o w nf sc E = Raise ValueError.
Proof.
  intros W Hw Q. unfold full_Fourier. destruct (scale_pos o w sc W Hw) as (s & -> & _). cbn [rbind]. destruct (oks_full_P3 o w E W Hw) as (P3 & -> & _). cbn [rbind]. unfold full_P3_to_P4. rewrite Q. reflexivity.
Qed.
Lemma full_unknown o w nf sc E : well_formed o -> 0 < w -> ~ In (upper (o_coro o)) ["LC"; "APLC"; "HLC"; "SPLC"; "FLC"; "VORTEX"; "VC"] -> full_Fourier o w nf sc E = Raise ValueError.
Proof.
  intros W Hw Q. unfold full_Fourier. destruct (scale_pos o w sc W Hw) as (s & -> & _). cbn [rbind]. destruct (oks_full_P3 o w E W Hw) as (P3 & -> & _). cbn [rbind]. unfold full_P3_to_P4.
  assert (X : forall l, (forall a, In a l -> In a ["LC"; "APLC"; "HLC"; "SPLC"; "FLC"; "VORTEX"; "VC"]) -> str_in (upper (o_coro o)) l = false).
  { intros l Hl. destruct (str_in _ l) eqn:B; [|reflexivity]. apply str_in_iff in B. exfalso. auto. }
  rewrite !X by (intros a Ha; cbn in *; tauto). reflexivity.
Qed.
Lemma compact_unknown o w nf ev sc E : well_formed o -> 0 < w -> ~ In (upper (o_coro o)) ["LC"; "APLC"; "HLC"; "SPLC"; "FLC"; "VORTEX"; "VC"; "AVC"] -> compact_field o w nf ev sc true E = Raise NameError.
Proof.
  intros W Hw Q. rewrite compact_field_eq. destruct (oks_trans o W) as [t ->]. cbn [rbind]. destruct (scale_pos o w sc W Hw) as (s & -> & _). cbn [rbind]. destruct (oks_compact_EP3 o w E W Hw) as (P3 & -> & _). cbn [rbind]. unfold compact_from, compact_P3_to_P4.
  assert (X : forall l, (forall a, In a l -> In a ["LC"; "APLC"; "HLC"; "SPLC"; "FLC"; "VORTEX"; "VC"; "AVC"]) -> str_in (upper (o_coro o)) l = false).
  { intros l Hl. destruct (str_in _ l) eqn:B; [|reflexivity]. apply str_in_iff in B. exfalso. auto. }
  unfold is_vortex. rewrite !X by (intros a Ha; cbn in *; tauto). destruct (Req_EM_T nf 0); reflexivity.
Qed.
Lemma full_wfe o w nf sc E : (1 <= o_pad o)%nat -> (sc = true -> o_lambda0 o <> 0) -> o_wfe o = true -> full_Fourier o w nf sc E = Raise NameError.
Proof.
  intros Hn HL Q. unfold full_Fourier. assert (Hs : exists s, fpm_scale o w sc = Ok s) by (unfold fpm_scale; destruct sc; [destruct (Req_EM_T _ 0); [exfalso; now apply HL|]|]; eauto). destruct Hs as [s ->]. cbn [rbind].
  unfold full_to_P3. destruct (oks_pad (o_pupil o) _ _ Hn Hn) as (pup & -> & _). destruct (oks_pad E _ _ Hn Hn) as (E' & -> & _). destruct (oks_stop _ (o_stop1 o) Hn) as (st1 & -> & _). destruct (oks_stop _ (o_stop2 o) Hn) as (st2 & -> & _). cbn [rbind]. rewrite Q. reflexivity.
Qed.
Local Close Scope string_scope.

(* one-pixel transforms *)
Lemma coord_1 step k : k = 0%nat -> coord 1 step Pixel k = 0.
Proof. intros ->. unfold coord. cbn. ring. Qed.
Lemma fs_11 E lf a b step : fourier_sum 1 1 E (coord 1 step Pixel) (coord 1 step Pixel) lf a b = E 0%nat 0%nat.
Proof. unfold fourier_sum. cbn [csum]. rewrite !coord_1 by auto. replace (- (2 * PI) * (a * 0 + b * 0) / lf) with 0 by (unfold Rdiv; ring). rewrite cis_0. ring. Qed.
Lemma p2f_11 E fl w dx dxi deta : 0 < w -> 0 < dx -> 0 < dxi -> 0 < deta -> fl <> 0 -> shape E 1 1 ->
  exists O, mft_p2f E fl w dx dxi 1 deta 1 Pixel = Ok O /\ shape O 1 1 /\ fpx O 0 0 = Cmult (RtoC (sqrt (dx * dx * dxi * deta) / (w * fl))) (fpx E 0%nat 0%nat).
Proof.
  intros Hw Hdx Hdxi Hdeta Hfl [S1 S2]. destruct (p2f_value E fl w dx dxi 1 deta 1 Pixel) as (O & EO & O1 & O2 & V); auto; try congruence; try lia.
  exists O. split; [auto|]. split; [split; auto|]. rewrite V by lia. rewrite S1, S2. now rewrite fs_11.
Qed.
Lemma f2p_11 E fl w dx dxi deta : 0 < w -> 0 < dx -> 0 < dxi -> 0 < deta -> fl <> 0 -> shape E 1 1 ->
  exists O, mft_f2p E fl w dxi deta dx 1 Pixel = Ok O /\ shape O 1 1 /\ fpx O 0 0 = Cmult (RtoC (sqrt (dx * dx * dxi * deta) / (w * fl))) (fpx E 0%nat 0%nat).
Proof.
  intros Hw Hdx Hdxi Hdeta Hfl [S1 S2]. destruct (f2p_value E fl w dxi deta dx 1 Pixel) as (O & EO & O1 & O2 & V); auto; try congruence; try lia.
  exists O. split; [auto|]. split; [split; auto|]. rewrite V by lia. rewrite S1, S2. now rewrite fs_11.
Qed.
Definition g11 : grid2 := mkg 1 1 1 1.
Definition z11 : field R := mkf 1 1 (fun _ _ => 0).
Local Open Scope string_scope.
(* one pixel in every plane, opaque focal-plane spot *)
Definition lc11 : optics := mko 1 false 1 1 1 1 Pixel 0 0 1 1 1 false false z11 z11 (ones 1) None None false None "LC" g11 (mkf 1 1 (fun _ _ => RtoC 0)) None (ChInt 0) 1 1 1 1 (ones 1)
  (fun E => Ok E) g11 g11.
Local Close Scope string_scope.
Lemma lc11_wf : well_formed lc11.
Proof. constructor; cbn; try lra; try lia; try discriminate; try (repeat split; cbn; lra || lia); try (split; intros; discriminate); auto. Qed.
Lemma pad_11 E : shape E 1 1 -> exists O, pad_cropf E 1 1 = Ok O /\ shape O 1 1 /\ fpx O 0%nat 0%nat = fpx E 0%nat 0%nat.
Proof. intros [S1 S2]. destruct (pad_cropf_px E 1 1) as (O & EO & SO & V); [lia|lia|]. exists O. split; [auto|]. split; [auto|]. rewrite V by lia. rewrite S1, S2. reflexivity. Qed.
Lemma lc11_P3 w : 0 < w -> exists P, full_to_P3 lc11 w (ones 1) = Ok P /\ shape P 1 1 /\ fpx P 0%nat 0%nat = RtoC 1.
Proof.
  intros Hw. pose proof lc11_wf as W. unfold full_to_P3. cbn [lc11 o_pad o_pupil o_stop1 o_stop2 o_wfe stop_or_ones].
  destruct (pad_11 (ones 1) (ones_shape 1)) as (p & Ep & Sp & Vp). rewrite Ep. cbn [rbind]. cbn in Vp.
  destruct (bop_sq Cmult p p 1 1 Sp Sp) as (a & -> & Sa & Va). cbn [rbind]. change (nrel lc11) with (fun _ : Z => 0%Z). cbv beta. cbn [lc11 o_cen o_d1 o_d12 o_dx2 o_apod o_use1 o_use2 surf_or_zero].
  rewrite relay_even by (try discriminate; reflexivity). cbn [rbind]. destruct (Req_EM_T 0 0); [|lra]. cbn [rbind]. destruct (bop_sq Cmult a (ones 1) 1 1 Sa (ones_shape 1)) as (a1 & -> & S1 & V1). cbn [rbind].
  destruct (bop_sq Cmult a1 (ones 1) 1 1 S1 (ones_shape 1)) as (a2 & -> & S2 & V2). cbn [rbind]. assert (PS : shape (phasor w (mkf 1 1 (fun _ _ => 0))) 1 1) by (split; reflexivity).
  destruct (bop_sq Cmult a2 _ 1 1 S2 PS) as (a3 & -> & S3 & V3). cbn [rbind]. rewrite ptp_0 by (try lra; cbn; lra). cbn [rbind].
  destruct (bop_sq Cmult (ones 1) (ones 1) 1 1 (ones_shape 1) (ones_shape 1)) as (b1 & -> & T1 & W1). cbn [rbind]. destruct (bop_sq Cmult b1 _ 1 1 T1 PS) as (b2 & -> & T2 & W2). cbn [rbind].
  destruct (imul_sq a3 b2 1 1 S3 T2) as (x & -> & Sx & Vx). cbn [rbind]. destruct (Req_EM_T (0 + 0) 0); [|lra]. cbn [rbind]. rewrite relay_even by (try discriminate; reflexivity). cbn [rbind].
  exists x. split; [reflexivity|]. split; [auto|]. rewrite Vx, V3, W2, V2, V1, Va, W1 by lia. rewrite Vp. cbn. replace (2 * 2 * PI * 0 / w) with 0 by (unfold Rdiv; ring). rewrite cis_0. ring.
Qed.
Lemma relay_11 E n : shape E 1 1 -> exists O, relay E n Pixel = Ok O /\ shape O 1 1 /\ fpx O 0%nat 0%nat = fpx E 0%nat 0%nat.
Proof.
  intros [S1 S2]. unfold relay. destruct (n mod 2 =? 1)%Z; [|exists E; split; [auto|split; [split; auto|auto]]]. eexists. split; [reflexivity|]. split; [split; cbn; auto|]. cbn. rewrite S1, S2. reflexivity.
Qed.
(* the focal-plane spot enlarged in proportion to the wavelength: the two models disagree *)
Lemma lc11_scaled : exists F G, full_Fourier lc11 4 1 true (ones 1) = Ok F /\ compact_field lc11 4 1 false true true (ones 1) = Ok G /\ ~ feq F G.
Proof.
  pose proof lc11_wf as W. assert (Hw : 0 < 4) by lra. destruct (lc11_P3 4 Hw) as (P & EP & SP & VP). pose proof (P3_equal lc11 4 (ones 1) (wf_surf _ W) (wf_wfe _ W)) as H3. rewrite EP in H3.
  destruct (compact_EP3 lc11 4 (ones 1)) as [P'|] eqn:EP'; [|destruct H3]. pose proof (shape_feq _ _ _ _ SP H3) as SP'. assert (VP' : fpx P' 0%nat 0%nat = RtoC 1) by (destruct H3 as (_ & _ & V); rewrite <- V, VP; auto; destruct SP; lia).
  rewrite compact_field_eq. unfold full_Fourier. unfold fpm_scale. cbn [lc11 o_lambda0]. fold lc11. destruct (Req_EM_T 1 0); [lra|]. replace (4 / 1) with 4 by field. cbn [rbind]. rewrite EP, EP'. cbn [rbind].
  replace (compact_trans lc11) with (Ok (RtoC 1)) by reflexivity. cbn [rbind]. unfold compact_from. change (is_vortex lc11) with false. destruct (Req_EM_T 1 0); [lra|].
  unfold full_P3_to_P4, compact_P3_to_P4, p2f_f3, f2p_f3. change (is_vortex lc11) with false. cbn [lc11 o_coro o_fl o_dx2 o_f3 g11 g_dxi g_deta g_Nxi g_Neta o_cen o_fpm o_narr4 o_dx4]. fold lc11. 
  change (str_in (upper "LC"%string) ["LC"%string; "APLC"%string]) with true. change (str_in (upper "LC"%string) ["FLC"%string; "SPLC"%string]) with false. change (str_in (upper "LC"%string) ["LC"%string; "APLC"%string; "HLC"%string]) with true.
  set (one := fmap (fun m => Cminus (RtoC 1) m) (mkf 1 1 (fun _ _ => RtoC 0))). assert (S1 : shape one 1 1) by (split; reflexivity).
  assert (Q4 : sqrt (1 * 1 * (4 * 1) * (4 * 1)) = 4) by (replace (1 * 1 * (4 * 1) * (4 * 1)) with (4 * 4) by ring; apply sqrt_square; lra).
  (* full *)
  destruct (p2f_11 P 1 4 1 (4 * 1) (4 * 1)) as (i1 & -> & Si1 & Vi1); try lra; auto. cbn [rbind]. destruct (bop_sq Cmult one i1 1 1 S1 Si1) as (e1 & -> & Se1 & Ve1). cbn [rbind].
  destruct (f2p_11 e1 1 4 (4 * 1) (4 * 1) 1) as (s1 & -> & Ss1 & Vs1); try lra; auto. cbn [rbind]. destruct (relay_11 P (nrel lc11 (o_n34 lc11)) SP) as (n1 & -> & Sn1 & Vn1). cbn [rbind].
  destruct (relay_11 s1 (nrel lc11 (o_n34 lc11) - 1) Ss1) as (r1 & -> & Sr1 & Vr1). cbn [rbind]. destruct (pad_11 n1 Sn1) as (p1 & -> & Sp1 & Vp1). cbn [rbind].
  destruct (bop_sq Cminus p1 r1 1 1 Sp1 Sr1) as (f4 & -> & Sf4 & Vf4). cbn [rbind].
  (* compact *)
  destruct (p2f_11 P' 1 4 1 (4 * 1) (4 * 1)) as (i2 & -> & Si2 & Vi2); try lra; auto. cbn [rbind]. destruct (bop_sq Cmult one i2 1 1 S1 Si2) as (e2 & -> & Se2 & Ve2). cbn [rbind].
  destruct (relay_11 P' (nrel lc11 (o_n34 lc11)) SP') as (n2 & -> & Sn2 & Vn2). cbn [rbind]. destruct (pad_11 n2 Sn2) as (p2 & -> & Sp2 & Vp2). cbn [rbind].
  destruct (f2p_11 e2 1 4 1 (4 * 1) (4 * 1)) as (s2 & -> & Ss2 & Vs2); try lra; auto. cbn [rbind]. destruct (relay_11 s2 (nrel lc11 (o_n34 lc11) - 1) Ss2) as (r2 & -> & Sr2 & Vr2). cbn [rbind].
  destruct (bop_sq Cminus (scal (RtoC 1) p2) r2 1 1 (scal_shape _ _ _ _ Sp2) Sr2) as (c4 & -> & Sc4 & Vc4). cbn [rbind].
  assert (X4 : fpx f4 0%nat 0%nat = RtoC (-1)).
  { rewrite Vf4 by lia. rewrite Vp1, Vn1, VP, Vr1, Vs1, Ve1 by lia. rewrite Vi1, VP. rewrite Q4. replace (4 * 1 * (4 * 1) * (4 * 1) * 1) with (8 * 8) by ring. rewrite sqrt_square by lra. cbn. apply injective_projections; cbn; lra. }
  assert (Y4 : fpx c4 0%nat 0%nat = RtoC 0).
  { rewrite Vc4 by lia. cbn [scal fmap fpx]. rewrite Vp2, Vn2, VP', Vr2, Vs2, Ve2 by lia. rewrite Vi2, VP'. rewrite Q4. cbn. apply injective_projections; cbn; lra. }
  cbn [lc11 o_lyot o_fend o_nend]. fold lc11. destruct (imul_sq f4 (ones 1) 1 1 Sf4 (ones_shape 1)) as (f5 & -> & Sf5 & Vf5). destruct (bop_sq Cmult (ones 1) c4 1 1 (ones_shape 1) Sc4) as (c5 & -> & Sc5 & Vc5). cbn [rbind].
  unfold to_Fend. cbn [lc11 o_nend o_cen o_fl o_dx4 g11 g_dxi g_deta g_Nxi g_Neta]. fold lc11.
  destruct (relay_11 f5 (nrel lc11 1) Sf5) as (f6 & -> & Sf6 & Vf6). destruct (relay_11 c5 (nrel lc11 1) Sc5) as (c6 & -> & Sc6 & Vc6). cbn [rbind].
  destruct (p2f_11 f6 1 4 1 1 1) as (f7 & -> & Sf7 & Vf7); try lra; auto. destruct (p2f_11 c6 1 4 1 1 1) as (c7 & -> & Sc7 & Vc7); try lra; auto. cbn [rbind].
  eexists. eexists. split; [reflexivity|]. split; [reflexivity|]. intros (_ & _ & H). unfold normalise in H. destruct (Req_EM_T 1 0); [lra|]. cbn [fmap fpx frows fcols] in H. specialize (H 0%nat 0%nat). rewrite Vf7, Vc7, Vf6, Vc6, Vf5, Vc5, X4, Y4 in H by lia.
  assert (Q1 : sqrt (1 * 1 * 1 * 1) = 1) by (replace (1 * 1 * 1 * 1) with 1 by ring; apply sqrt_1). rewrite Q1, sqrt_1 in H. destruct Sf7 as [A1 A2]. rewrite A1, A2 in H. specialize (H ltac:(lia) ltac:(lia)).
  apply (f_equal fst) in H. cbn in H. lra.
Qed.
