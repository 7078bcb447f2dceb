(* One-pixel instruments: where the returned gradient is not the gradient of the returned cost. *)
From Coquelicot Require Import Coquelicot.
From Verif Require Import Base RBase StrBase UtilModel CBase PropModel PropSpec PropProofs PropProofs2 OptProofs6 OptModel OptSpec LinBase OptProofs OptProofs2 OptProofs3 OptProofs4 OptProofs5 OptProofs6 OptProofs7 OptProofs8 GradModel GradSpec GradAdj GradAdj2 GradProofs GradProofs2 GradProofs3 GradProofs4 GradProofs5 GradProofs6 GradProofs7.
Open Scope R_scope.
Local Open Scope string_scope.
Definition flc11 (st : option (field C)) : optics := mko 1 false 1 1 1 1 Pixel 0 0 1 1 1 true true z11 z11 (ones 1) None st false None "FLC" g11 (ones 1) None (ChInt 0) 1 1 1 1 (ones 1) (fun E => Ok E) g11 g11.
Definition k11 (r : R) : field R := mkf 1 1 (fun _ _ => r).
Definition c11 (z : C) : field C := mkf 1 1 (fun _ _ => z).
Definition m11 (e : C) : mode := mkmode 1 1 1 (ones 1) [e].
Definition M11 : field bool := mkf 1 1 (fun _ _ => true).
Lemma flc11_wf st : well_formed (flc11 st).
Proof. constructor; cbn; try lra; try lia; try discriminate; try (repeat split; cbn; lra || lia); auto. Qed.
Lemma flc11_ready : gradient_ready (flc11 None).
Proof. constructor; cbn; auto; [apply flc11_wf|]. right. split; [left; reflexivity|]. split; [auto|]. split; [auto|]. intros [H|[H|[]]]; discriminate. Qed.
Local Close Scope string_scope.
Lemma coef11 : RtoC (sqrt (1 * 1 * 1 * 1) / (1 * 1)) = RtoC 1. Proof. f_equal. replace (1 * 1 * 1 * 1) with 1 by ring. rewrite sqrt_1. field. Qed.
Lemma coefm11 : RtoC (sqrt (1 * 1 * 1 * 1) / (1 * - (1))) = Copp (RtoC 1). Proof. replace (1 * 1 * 1 * 1) with 1 by ring. rewrite sqrt_1. replace (1 / (1 * - (1))) with (- (1)) by field. now rewrite RtoC_opp. Qed.
Ltac st11 := cbn [rbind].
Lemma flc11_general st S c s1 s2 : stop_or_ones 1 st = Ok S -> shape S 1 1 -> fpx S 0%nat 0%nat = c -> square 1 s1 -> square 1 s2 ->
  exists F mid, compact_general (with_surfs (flc11 st) s1 s2) 1 1 false false true (ones 1) = Ok (F, mid) /\ shape F 1 1 /\ shape (m_Edm1post mid) 1 1 /\ shape (m_Edm2pre mid) 1 1 /\
    fpx F 0%nat 0%nat = Cmult (Cmult c (flatp 1 s1 0 0)) (flatp 1 s2 0 0) /\ fpx (m_Edm1post mid) 0%nat 0%nat = flatp 1 s1 0 0 /\ fpx (m_Edm2pre mid) 0%nat 0%nat = Cmult c (flatp 1 s1 0 0).
Proof.
  intros ES SS VS Q1 Q2. unfold compact_general, compact_trans, fpm_scale. change (str_in _ _) with false. st11. unfold compact_to_P3. cbn [with_surfs flc11 o_pad o_pupil o_stop1 o_stop2 o_wfe o_cen o_d1 o_d12 o_dx2 o_use1 o_use2 o_surf1 o_surf2 o_apod surf_or_zero andb].
  destruct (pad_11 (ones 1) (ones_shape 1)) as (p & Ep & Sp & Vp). rewrite Ep. st11. cbn in Vp. rewrite ES. change (stop_or_ones 1 None) with (Ok (ones 1)). st11.
  destruct (bop_sq Cmult p p 1 1 Sp Sp) as (a & -> & Sa & Va). st11. change (nrel (with_surfs (flc11 st) s1 s2)) with (fun _ : Z => 0%Z). cbv beta. rewrite relay_even by (try discriminate; reflexivity). st11. destruct (Req_EM_T 0 0); [|lra]. st11.
  destruct (imul_sq a (ones 1) 1 1 Sa (ones_shape 1)) as (a1 & -> & S1 & V1). st11. destruct (bop_sq Cmult a1 (ones 1) 1 1 S1 (ones_shape 1)) as (a2 & -> & S2 & V2). st11.
  assert (P1 : shape (phasor 1 s1) 1 1) by (destruct Q1; split; auto). assert (P2 : shape (phasor 1 s2) 1 1) by (destruct Q2; split; auto).
  destruct (bop_sq Cmult a2 _ 1 1 S2 P1) as (post & -> & S3 & V3). st11. rewrite ptp_0 by (try lra; cbn; lra). st11.
  destruct (bop_sq Cmult S post 1 1 SS S3) as (pre & -> & S4 & V4). st11. destruct (bop_sq Cmult (ones 1) pre 1 1 (ones_shape 1) S4) as (b1 & -> & S5 & V5). st11. destruct (bop_sq Cmult b1 _ 1 1 S5 P2) as (b2 & -> & S6 & V6). st11.
  destruct (Req_EM_T (0 + 0) 0); [|lra]. st11. rewrite relay_even by (try discriminate; reflexivity). st11. cbn [m_EP3]. destruct (Req_EM_T 1 0); [lra|].
  unfold compact_P3_to_P4, p2f_f3, f2p_f3. change (is_vortex (with_surfs (flc11 st) s1 s2)) with false. cbn [with_surfs flc11 o_coro o_fl o_dx2 o_f3 g11 g_dxi g_deta g_Nxi g_Neta o_cen o_fpm o_narr4 o_dx4 o_n34 o_nend o_lyot o_fend]. change (str_in (upper "FLC"%string) ["FLC"%string; "SPLC"%string]) with true. cbv iota.
  replace (1 * 1) with 1 by ring.
  destruct (p2f_11 b2 1 1 1 1 1) as (f1 & -> & T1 & W1); try lra; auto. st11. destruct (bop_sq Cmult (ones 1) f1 1 1 (ones_shape 1) T1) as (f2 & -> & T2 & W2). st11. destruct (f2p_11 f2 1 1 1 1 1) as (f3 & -> & T3 & W3); try lra; auto. st11.
  destruct (relay_11 f3 (nrel (with_surfs (flc11 st) s1 s2) 1 - 1) T3) as (f4 & -> & T4 & W4). st11. destruct (bop_sq Cmult (ones 1) f4 1 1 (ones_shape 1) T4) as (f5 & -> & T5 & W5). st11. unfold to_Fend. cbn [with_surfs flc11 o_nend o_cen o_fl o_dx4 g11 g_dxi g_deta g_Nxi g_Neta].
  destruct (relay_11 f5 (nrel (with_surfs (flc11 st) s1 s2) 1) T5) as (f6 & -> & T6 & W6). st11. destruct (p2f_11 f6 1 1 1 1 1) as (f7 & -> & T7 & W7); try lra; auto. st11.
  eexists _, _. split; [reflexivity|]. cbn [m_Edm1post m_Edm2pre]. split; [now apply normalise_shape|]. split; [auto|]. split; [auto|].
  assert (VP : fpx post 0%nat 0%nat = flatp 1 s1 0 0) by (rewrite V3, V2, V1, Va by lia; rewrite Vp; cbn; unfold flatp; ring).
  assert (VR : fpx pre 0%nat 0%nat = Cmult c (flatp 1 s1 0 0)) by (rewrite V4 by lia; now rewrite VS, VP).
  split; [|split; auto]. unfold normalise. destruct (Req_EM_T 1 0); [lra|]. cbn [fmap fpx]. rewrite W7, W6, W5, W4, W3, W2, W1, V6, V5, VR by lia. rewrite coef11, sqrt_1. cbn. unfold flatp. field. intros Z. injection Z. lra.
Qed.
Lemma flatp_k11 r : flatp 1 (k11 r) 0 0 = cis (4 * PI * r). Proof. unfold flatp. cbn. f_equal. field. Qed.
Lemma flc11_image e s1 s2 : square 1 s1 -> square 1 s2 -> image (with_surfs (flc11 None) s1 s2) (m11 e) 0 0 = Cmult (flatp 1 s1 0 0) (flatp 1 s2 0 0).
Proof.
  intros Q1 Q2. destruct (flc11_general None (ones 1) (RtoC 1) s1 s2 eq_refl (ones_shape 1) eq_refl Q1 Q2) as (F & mid & E & _ & _ & _ & V & _). unfold image, compact_field. cbn [m11 md_wvl md_I00 md_Ein]. rewrite E. cbn [rbind fst]. rewrite V. ring.
Qed.
Lemma m11_ready e : mode_ready M11 (m11 e). Proof. split; [cbn; lra|]. split; [cbn; lra|]. reflexivity. Qed.
Lemma energy11 e ch : energy_after M11 [m11 e] ch = abs2 (Cplus e (ch (m11 e) 0%nat 0%nat)).
Proof. unfold energy_after, msum. cbn. change (estimate M11 (m11 e) 0 0) with e. ring. Qed.
Lemma sq11 r : square 1 (k11 r). Proof. split; reflexivity. Qed.
(* gradient returned at a command other than zero *)
Lemma frozen_wrong : exists c g1 g2, rev_surf (flc11 None) (with_surfs (flc11 None) (k11 (1/4)) (k11 0)) M11 [m11 (0, 1)] = Ok (c, Some (g1, g2)) /\
  ~ is_derive (fun t => cost_of (rev_surf (flc11 None) (with_surfs (flc11 None) (along (k11 (1/4)) (k11 1) t) (along (k11 0) (k11 0) t)) M11 [m11 (0, 1)])) 0 (dot2 1 g1 (k11 1) + dot2 1 g2 (k11 0)).
Proof.
  assert (HF : Forall (mode_ready M11) [m11 (0, 1)]) by (constructor; [apply m11_ready|constructor]). assert (HN : [m11 (0, 1)] <> []) by discriminate.
  destruct (rev_surf_gradient (flc11 None) M11 (k11 (1/4)) (k11 0) [m11 (0, 1)] flc11_ready (sq11 _) (sq11 _) eq_refl eq_refl HN HF) as (g1 & g2 & E & S1 & S2 & D).
  eexists _, g1, g2. split; [exact E|]. intros H. specialize (D (k11 1) (k11 0) (sq11 _) (sq11 _)). change (o_pad (flc11 None)) with 1%nat in D.
  assert (VI : forall a b, image (with_surfs (flc11 None) (k11 a) (k11 b)) (m11 (0, 1)) 0 0 = Cmult (cis (4 * PI * a)) (cis (4 * PI * b))) by (intros; rewrite flc11_image by apply sq11; now rewrite !flatp_k11).
  assert (V0 : image (flc11 None) (m11 (0, 1)) 0 0 = RtoC 1).
  { change (flc11 None) with (with_surfs (flc11 None) (k11 0) (k11 0)). rewrite VI, !Rmult_0_r, cis_0. ring. }
  assert (VB : image (with_surfs (flc11 None) (k11 (1/4)) (k11 0)) (m11 (0, 1)) 0 0 = RtoC (-1)).
  { rewrite VI. replace (4 * PI * (1 / 4)) with PI by field. rewrite Rmult_0_r, cis_0. unfold cis. rewrite cos_PI, sin_PI. unfold Cmult, RtoC; cbn. f_equal; ring. }
  (* derivative of the linearised cost *)
  assert (D1 : is_derive (fun t => abs2 (Cplus (0, 1) (Cplus (RtoC (-2)) (Cminus (cis (4 * PI * t)) (RtoC 1))))) 0 (dot2 1 g1 (k11 1) + dot2 1 g2 (k11 0))).
  { eapply is_derive_ext; [|exact D]. intros t. cbv beta. rewrite energy11. f_equal. f_equal. unfold change. rewrite V0, VB. unfold moved.
    assert (X : image (with_surfs (flc11 None) (along (o_surf1 (flc11 None)) (k11 1) t) (along (o_surf2 (flc11 None)) (k11 0) t)) (m11 (0, 1)) 0 0 = cis (4 * PI * t)).
    { rewrite flc11_image by (split; reflexivity). unfold flatp, along; cbn. replace (2 * 2 * PI * (0 + t * 0) / 1) with 0 by field. rewrite cis_0. replace (2 * 2 * PI * (0 + t * 1) / 1) with (4 * PI * t) by field. ring. }
    rewrite X. unfold Cminus, Cplus, Copp, RtoC; cbn. f_equal; ring. }
  (* derivative of the returned cost *)
  assert (D2 : is_derive (fun t => abs2 (Cplus (0, 1) (Cminus (cis (PI + 4 * PI * t)) (RtoC 1)))) 0 (dot2 1 g1 (k11 1) + dot2 1 g2 (k11 0))).
  { eapply is_derive_ext; [|exact H]. intros t. cbv beta.
    destruct (rev_surf_gradient (flc11 None) M11 (along (k11 (1/4)) (k11 1) t) (along (k11 0) (k11 0) t) [m11 (0, 1)] flc11_ready (square_along _ _ _ _ (sq11 _)) (square_along _ _ _ _ (sq11 _)) eq_refl eq_refl HN HF) as (h1 & h2 & -> & _). cbn [cost_of].
    rewrite energy11. f_equal. f_equal. unfold change. rewrite V0. rewrite flc11_image by (split; reflexivity). unfold flatp, along; cbn. replace (2 * 2 * PI * (0 + t * 0) / 1) with 0 by field. rewrite cis_0. replace (2 * 2 * PI * (1 / 4 + t * 1) / 1) with (PI + 4 * PI * t) by field. rewrite Cmult_1_r. reflexivity. }
  assert (E1 : is_derive (fun t => abs2 (Cplus (0, 1) (Cplus (RtoC (-2)) (Cminus (cis (4 * PI * t)) (RtoC 1))))) 0 (8 * PI)).
  { unfold abs2, cis, Cplus, Cminus, Copp, RtoC; cbn. auto_derive; auto. rewrite !Rmult_0_r, cos_0, sin_0. ring. }
  assert (E2 : is_derive (fun t => abs2 (Cplus (0, 1) (Cminus (cis (PI + 4 * PI * t)) (RtoC 1)))) 0 (- (8 * PI))).
  { unfold abs2, cis, Cplus, Cminus, Copp, RtoC; cbn. auto_derive; auto. rewrite !Rmult_0_r, Rplus_0_r, cos_PI, sin_PI. ring. }
  pose proof (is_derive_unique _ _ _ D1) as X1. rewrite (is_derive_unique _ _ _ E1) in X1. pose proof (is_derive_unique _ _ _ D2) as X2. rewrite (is_derive_unique _ _ _ E2) in X2. pose proof PI_RGT_0. lra.
Qed.
(* a stop at DM2 *)
Definition blocked : optics := flc11 (Some (c11 (RtoC 0))).
Lemma blocked_stop : exists S, stop_or_ones 1 (Some (c11 (RtoC 0))) = Ok S /\ shape S 1 1 /\ fpx S 0%nat 0%nat = RtoC 0.
Proof. cbn [stop_or_ones]. destruct (pad_11 (c11 (RtoC 0))) as (S & E & SS & V); [split; reflexivity|]. exists S. split; [auto|]. split; [auto|]. rewrite V. reflexivity. Qed.
Lemma rev11 F o : o = blocked -> shape F 1 1 -> exists D, (do P4 <- rev_to_P4 o 1 F; do P3 <- rev_P4_to_P3 o 1 (RtoC 1) P4; rev_P3_to_DM2 o 1 P3) = Ok D /\ shape D 1 1 /\ fpx D 0%nat 0%nat = Copp (fpx F 0%nat 0%nat).
Proof.
  intros -> SF. unfold rev_to_P4, rev_P4_to_P3, rev_P3_to_DM2, rev_p2f3, rev_f2p3, blocked. cbn [flc11 o_coro o_fl o_dx2 o_f3 g11 g_dxi g_deta g_Nxi g_Neta o_cen o_fpm o_narr4 o_dx4 o_n34 o_nend o_lyot o_fend o_pad o_apod o_d1 o_d12 o_n23]. cbv zeta.
  change (str_in (upper "FLC"%string) ["VORTEX"%string; "VC"%string; "AVC"%string]) with false. change (str_in (upper "FLC"%string) ["FLC"%string; "SPLC"%string]) with true. cbv iota.
  destruct (f2p_11 F (- (1)) 1 1 1 1) as (f1 & E1 & T1 & W1); try lra; auto. rewrite E1. st11.
  set (o := flc11 (Some (c11 (RtoC 0)))). destruct (relay_11 f1 (nrel o 1) T1) as (f2 & -> & T2 & W2). st11. destruct (pad_11 (ones 1) (ones_shape 1)) as (l & -> & Sl & Vl). st11.
  assert (Sl' : shape (fmap Cconj l) 1 1) by (destruct Sl; split; auto). destruct (bop_sq Cmult f2 _ 1 1 T2 Sl') as (f3 & -> & T3 & W3). st11.
  destruct (relay_11 f3 (nrel o 1 - 1) T3) as (f4 & -> & T4 & W4). st11. destruct (p2f_11 f4 (- (1)) 1 1 1 1) as (f5 & E5 & T5 & W5); try lra; auto. rewrite E5. st11.
  assert (So : shape (fmap Cconj (ones 1)) 1 1) by (split; reflexivity). destruct (bop_sq Cmult _ f5 1 1 So T5) as (f6 & -> & T6 & W6). st11. destruct (f2p_11 f6 (- (1)) 1 1 1 1) as (f7 & E7 & T7 & W7); try lra; auto. rewrite E7. st11.
  destruct (relay_11 f7 (nrel o 1) T7) as (f8 & -> & T8 & W8). st11. destruct (Req_EM_T (0 + 0) 0); [|lra]. exists f8. split; [auto|]. split; [auto|].
  rewrite W8, W7, W6, W5, W4, W3, W2, W1 by lia. cbn [fmap fpx ones]. rewrite Vl. cbn [fpx ones]. rewrite coefm11, conj_RtoC. ring.
Qed.
Lemma blocked_image e s1 s2 : square 1 s1 -> square 1 s2 -> exists F mid, compact_general (with_surfs blocked s1 s2) 1 1 false false true (ones 1) = Ok (F, mid) /\ shape F 1 1 /\ shape (m_Edm1post mid) 1 1 /\ shape (m_Edm2pre mid) 1 1 /\
  fpx F 0%nat 0%nat = RtoC 0 /\ fpx (m_Edm1post mid) 0%nat 0%nat = flatp 1 s1 0 0 /\ image (with_surfs blocked s1 s2) (m11 e) 0 0 = RtoC 0.
Proof.
  intros Q1 Q2. destruct blocked_stop as (S & ES & SS & VS). destruct (flc11_general _ S (RtoC 0) s1 s2 ES SS VS Q1 Q2) as (F & mid & E & SF & Sp & Sr & V & Vp & Vr). exists F, mid. split; [exact E|]. split; [auto|]. split; [auto|]. split; [auto|].
  assert (Z : fpx F 0%nat 0%nat = RtoC 0) by (rewrite V; ring). split; [auto|]. split; [auto|]. unfold image, compact_field. cbn [m11 md_wvl md_I00 md_Ein]. unfold blocked. rewrite E. cbn [rbind fst]. exact Z.
Qed.
Lemma blocked_rev s1 s2 : square 1 s1 -> square 1 s2 -> exists g1 g2, rev_surf blocked (with_surfs blocked s1 s2) M11 [m11 (0, 1)] = Ok (1, Some (g1, g2)) /\ square 1 g1 /\ square 1 g2 /\ fpx g1 0%nat 0%nat = 8 * PI.
Proof.
  intros Q1 Q2. unfold rev_surf. change (compact_trans blocked) with (@Ok C (RtoC 1)). st11. cbn [rev_loop]. unfold rev_mode. cbv zeta. cbn [m11 md_wvl md_I00 md_Ein md_w md_est].
  change (scatter M11 [(0, 1)]) with (@Ok (field C) (mkf 1 1 (fun i j => if fpx M11 i j then nth (mask_rank M11 i j) [(0, 1)] (RtoC 0) else RtoC 0))). set (est := mkf 1 1 _). assert (Se : shape est 1 1) by (split; reflexivity). st11.
  destruct (blocked_image (0, 1) z11 z11 (sq11 0) (sq11 0)) as (F & mid & E & SF & Sp & Sr & V & Vp & _). change (with_surfs blocked z11 z11) with blocked in E. rewrite E. st11. cbn [fst snd].
  destruct (blocked_image (0, 1) s1 s2 Q1 Q2) as (FB & midB & EB & SFB & _ & _ & VB & _). unfold compact_field. rewrite EB. st11. cbn [fst].
  destruct (bop_sq Cminus FB F 1 1 SFB SF) as (dE & -> & SdE & VdE). st11. destruct (bop_sq Cplus est dE 1 1 Se SdE) as (Edh & -> & SEdh & VEdh). st11.
  assert (VE : fpx Edh 0%nat 0%nat = (0, 1)) by (rewrite VEdh, VdE, V, VB by lia; change (fpx est 0%nat 0%nat) with (0, 1); unfold Cplus, Cminus, Copp, RtoC; cbn; f_equal; ring).
  unfold masked_energy. destruct SEdh as [X1 X2]. rewrite X1, X2. change (frows M11) with 1%nat. change (fcols M11) with 1%nat. cbn [Nat.eqb andb rbind]. unfold rev_start.
  assert (S1 : shape (fmap (Cmult (RtoC (1 * 2 / sqrt 1))) Edh) 1 1) by (split; auto). assert (S2 : shape (fmap b2c M11) 1 1) by (split; reflexivity). destruct (bop_sq Cmult _ _ 1 1 S1 S2) as (f & -> & Sf & Vf). st11.
  destruct (rev11 f blocked eq_refl Sf) as (D & ED & SD & VD). destruct (rev_to_P4 blocked 1 f) as [p4|]; [|discriminate]. cbn [rbind] in ED |- *. destruct (rev_P4_to_P3 blocked 1 (RtoC 1) p4) as [p3|]; [|discriminate]. cbn [rbind] in ED |- *. rewrite ED. st11.
  unfold rev_surfaces. change (surf_or_zero (o_use2 blocked) (o_pad blocked) (o_surf2 blocked)) with z11. assert (S3 : shape (fmap Cconj (phasor 1 z11)) 1 1) by (split; reflexivity). destruct (bop_sq Cmult _ D 1 1 S3 SD) as (E2 & -> & SE2 & VE2). st11.
  destruct (surf_bar_spec 1 E2 (m_Edm2pre mid) 1 SE2 Sr) as (g2 & -> & G2 & _). st11. change (o_d12 blocked) with 0. change (o_dx2 blocked) with 1. rewrite Ropp_0. destruct SE2 as [Y1 Y2]. rewrite Y1. rewrite ptp_0 by (try lra; cbn; lra). st11.
  assert (Sp' : shape (fmap Cconj (m_Edm1post mid)) 1 1) by (destruct Sp; split; auto). unfold surf_bar. destruct (bop_sq Cmult E2 (fmap Cconj (m_Edm1post mid)) 1 1 (conj Y1 Y2) Sp') as (p & -> & [P1 P2] & VP). st11. unfold acc_bars. cbn [fst snd]. st11.
  match goal with |- context [Ok (0 + ?a, _)] => replace (0 + a) with 1 end.
  2:{ cbn [rsum]. change (fpx M11 0%nat 0%nat) with true. cbv iota. rewrite VE. unfold abs2; cbn. ring. }
  eexists _, _. split; [reflexivity|split; [|split]].
  - split; cbn; auto.
  - destruct G2. split; cbn; auto.
  - cbn [fpx]. rewrite VP, VE2, VD, Vf by lia. cbn [fmap fpx]. rewrite VE, Vp. cbn [b2c M11 fpx phasor fmap z11]. replace (2 * 2 * PI * 0 / 1) with 0 by field. rewrite cis_0, sqrt_1. unfold flatp. cbn [z11 fpx]. replace (2 * 2 * PI * 0 / 1) with 0 by field. rewrite cis_0.
    unfold Cmult, Cconj, Copp, RtoC; cbn. field.
Qed.
Lemma stop_wrong : exists c g1 g2, rev_surf blocked blocked M11 [m11 (0, 1)] = Ok (c, Some (g1, g2)) /\
  ~ is_derive (fun t => cost_of (rev_surf blocked (moved blocked (k11 1) (k11 0) t) M11 [m11 (0, 1)])) 0 (dot2 1 g1 (k11 1) + dot2 1 g2 (k11 0)).
Proof.
  destruct (blocked_rev z11 z11 (sq11 0) (sq11 0)) as (g1 & g2 & E & S1 & S2 & V). exists 1, g1, g2. split; [exact E|]. intros H.
  assert (H' : is_derive (fun _ : R => 1) 0 (dot2 1 g1 (k11 1) + dot2 1 g2 (k11 0))).
  { eapply is_derive_ext; [|exact H]. intros t. cbv beta. unfold moved. destruct (blocked_rev (along (o_surf1 blocked) (k11 1) t) (along (o_surf2 blocked) (k11 0) t)) as (? & ? & -> & _); [split; reflexivity|split; reflexivity|reflexivity]. }
  pose proof (is_derive_unique _ _ _ H') as X. rewrite Derive_const in X. unfold dot2 in X. cbn [rsum k11 fpx] in X. rewrite V in X. pose proof PI_RGT_0. lra.
Qed.
