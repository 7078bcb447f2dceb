(* Proofs for C97: scale of the surface *)
From Verif Require Import Base StrBase RBase CtrlModel UtilModel UtilSpec UtilProofs DmModel DmSpec DmSurfModel DmSurfSpec CubModel DmcModel CBase PropModel PropSpec PropProofs OptModel LinBase DiffModel DiffSpec DiffProofs DiffProofs2 DiffProofs3 DiffProofs4 DiffProps RotModel GsfModel GsfSpec GsfProofs GsfProofs2.
Open Scope R_scope.

Lemma fine_crop m z n i k : (1 <= z)%nat -> (1 <= m)%nat -> (Z.of_nat i - Z.of_nat n / 2 = Z.of_nat z * k)%Z ->
  crop_src n (m * z) i = if ((0 <=? Z.of_nat m / 2 + k) && (Z.of_nat m / 2 + k <? Z.of_nat m))%Z then Some (fine_ix m z (Z.to_nat (Z.of_nat m / 2 + k))) else None.
Proof.
  intros Hz Hm Hk. unfold crop_src. rewrite Hk. rewrite Nat2Z.inj_mul. set (M := Z.of_nat m) in *. set (w := Z.of_nat z) in *. assert (1 <= w)%Z by lia. assert (1 <= M)%Z by lia.
  pose proof (Z.div_mod M 2). pose proof (Z.mod_pos_bound M 2). set (a := (M / 2)%Z) in *. set (r := (M mod 2)%Z) in *.
  assert (Q : (M * w / 2 = a * w + (r * w) / 2)%Z). { replace (M * w)%Z with (r * w + (a * w) * 2)%Z by nia. rewrite Z.div_add by lia. lia. }
  assert (B : (0 <= r * w / 2 < w)%Z). { split; [apply Z.div_pos; nia|apply Z.div_lt_upper_bound; nia]. }
  assert (QQ : forall q, (a * w + q + w * k = w * (a + k) + q)%Z) by (intros; ring). rewrite Q, QQ. set (q := (r * w / 2)%Z) in *. destruct ((0 <=? a + k) && (a + k <? M))%Z eqn:E.
  - apply andb_true_iff in E. destruct E as [E1 E2]. destruct ((0 <=? w * (a + k) + q) && (w * (a + k) + q <? M * w))%Z eqn:F.
    2:{ exfalso. apply Z.leb_le in E1. apply Z.ltb_lt in E2. apply andb_false_iff in F. rewrite Z.leb_gt, Z.ltb_ge in F. assert (0 <= w * (a + k))%Z by nia. assert (w * (a + k + 1) <= M * w)%Z by nia. lia. }
    apply andb_true_iff in F. destruct F as [F1 F2]. apply Z.leb_le in F1, E1. apply Z.ltb_lt in F2, E2.
    f_equal. unfold fine_ix. apply Nat2Z.inj. rewrite Z2Nat.id by lia. assert (z * (m / 2) <= m * z / 2)%nat. { apply Nat.div_le_lower_bound; [lia|]. pose proof (Nat.mul_div_le m 2). nia. }
    rewrite Nat2Z.inj_sub by (etransitivity; [eassumption|apply Nat.le_add_r]). rewrite Nat2Z.inj_add, !Nat2Z.inj_mul, Z2Nat.id by lia. rewrite !Nat2Z.inj_div, Nat2Z.inj_mul. fold M w. change (Z.of_nat 2) with 2%Z. fold a. rewrite Q. ring.
  - destruct ((0 <=? w * (a + k) + q) && (w * (a + k) + q <? M * w))%Z eqn:F; [|reflexivity]. exfalso. apply andb_true_iff in F. destruct F as [F1 F2]. apply Z.leb_le in F1. apply Z.ltb_lt in F2. assert (0 <= a + k)%Z by nia. assert (a + k < M)%Z by nia. lia.
Qed.
Lemma render_fine ifn nact sep sx sy z a d n : act_fit (frows ifn) nact sep -> act_fit (fcols ifn) nact sep -> (1 <= z)%nat -> (1 <= n)%nat -> holds ifn nact sep (IZR sx) (IZR sy) (INR z) a d ->
  exists sf i, render d n n false = Ok (sf, i) /\ dims n n sf /\ forall y x ky kx, (y < n)%nat -> (x < n)%nat -> (Z.of_nat y - Z.of_nat n / 2 = Z.of_nat z * ky)%Z -> (Z.of_nat x - Z.of_nat n / 2 = Z.of_nat z * kx)%Z ->
    fpx sf y x = mirror ifn nact sep sx sy a ky kx.
Proof.
  intros FA FB Hz Hn H. destruct (act_fit_pos _ _ _ FA) as [HM _]. destruct (act_fit_pos _ _ _ FB) as [HN _]. destruct (surface_superposed ifn nact sep sx sy (INR z) a d false FA FB H) as (s & Es & [D1 D2] & Vs). pose proof H as (_ & _ & HU & _).
  destruct (apply_tf (d_poke d) (d_tf d)) as [t|] eqn:ET; cbn [rbind] in Es; [|discriminate]. injection Es as ->.
  destruct (resample_dims s z Hz) as [R1 R2]. destruct (pad_cropr_px (resample s (INR z)) n n Hn Hn) as (sf & ES & DS & V). exists sf, (frows (resample s (INR z)), fcols (resample s (INR z))).
  split; [unfold render; rewrite ET; cbn [rbind]; cbv zeta; rewrite HU, ES; reflexivity|]. split; [auto|]. intros y x ky kx Hy Hx Ky Kx. rewrite V, R1, R2 by auto.
  rewrite D1, D2. rewrite (fine_crop (frows ifn) z n y ky Hz HM Ky), (fine_crop (fcols ifn) z n x kx Hz HN Kx). unfold mirror. cbv zeta.
  destruct (Z.leb_spec 0 (Z.of_nat (frows ifn) / 2 + ky)); cbn [andb]; auto. destruct (Z.ltb_spec (Z.of_nat (frows ifn) / 2 + ky) (Z.of_nat (frows ifn))); cbn [andb]; auto.
  destruct (Z.leb_spec 0 (Z.of_nat (fcols ifn) / 2 + kx)); cbn [andb]; auto. destruct (Z.ltb_spec (Z.of_nat (fcols ifn) / 2 + kx) (Z.of_nat (fcols ifn))); cbn [andb]; auto.
  rewrite <- D1, <- D2 at 1. rewrite resample_at by lia. rewrite Vs by lia. rewrite !Z2Nat.id by lia. unfold gain. ring.
Qed.

Lemma mag_of c mag : samples_per_act c mag -> ZnearestE (i_pitch (g_file c) / i_pix (g_file c)) = Z.of_nat mag /\ i_pitch (g_file c) / i_pix (g_file c) = INR mag.
Proof.
  intros (Hm & Hp & Hr). assert (E : i_pitch (g_file c) / i_pix (g_file c) = INR mag) by (rewrite Hr; field; lra). split; [|auto]. rewrite E, INR_IZR_INZ. apply ZnearestE_IZR.
Qed.
Lemma wrapper_shape c nact dx h m mag : untilted c -> samples_per_act c mag -> fcols h = nact -> (1 <= nact)%nat -> wrapper c nact dx h = Ok m ->
  exists sg ifn, sign_factor (Some (g_sign c)) = Ok sg /\ pad_cropr (rscale sg (of_rarr (i_map (g_file c)))) (wrapper_size nact mag) (wrapper_size nact mag) = Ok ifn /\ dims (wrapper_size nact mag) (wrapper_size nact mag) ifn /\
    commanded ifn nact mag (IZR (wrapper_shift (g_xc c) nact mag)) (IZR (wrapper_shift (g_yc c) nact mag)) (sample_width c mag / dx) [] h = Ok (r_dm m) /\ r_proj m = None.
Proof.
  intros (T1 & T2 & T3) SM Hc Hn E. destruct (mag_of c mag SM) as [EM ER]. destruct SM as (Hm & Hp & Hr). unfold wrapper in E. destruct (sign_factor _) as [sg|]; cbn [rbind] in E; [|discriminate]. cbv zeta in E.
  rewrite EM, ER in E. destruct (Rlt_dec _ _); [discriminate|]. destruct (Req_EM_T _ 0); [discriminate|]. rewrite Nat2Z.id, Hc in E.
  assert (P : (1 <= wrapper_size nact mag)%nat) by (unfold wrapper_size; nia).
  destruct (pad_cropr_px (rscale sg (of_rarr (i_map (g_file c)))) (wrapper_size nact mag) (wrapper_size nact mag) P P) as (ifn & EP & DI & _). rewrite EP in E. cbn [rbind] in E. exists sg, ifn. split; [auto|]. split; [auto|]. split; [auto|].
  unfold rdm_init in E. unfold commanded. cbn [updates].
  replace (i_pix (g_file c) * g_spacing c / i_pitch (g_file c) / dx) with (sample_width c mag / dx) in E. 2:{ unfold sample_width, Rdiv. f_equal. rewrite Hr. assert (0 < INR mag) by (apply lt_0_INR; lia). field. split; lra. }
  destruct (dm_init _ _ _ _ _ _ _ _) as [d|]; cbn [rbind] in E |- *; [|discriminate].
  assert (RI : rot_init (frows ifn) (fcols ifn) (wrapper_rot (g_xt c) (g_yt c) (g_zr c)) (wrapper_order (g_xyz c)) = Ok None).
  { unfold rot_init, wrapper_rot, all_close0. cbn [length Nat.eqb orb rbind forallb]. rewrite T1, T2, T3, Rmult_0_r, Rabs_R0. destruct (Rle_dec 0 (1 / 100000000)); [reflexivity|lra]. }
  rewrite RI in E. cbn [rbind] in E. unfold rdm_update in E. cbn [r_dm r_rot r_proj] in E. destruct (dm_update d h) as [d'|]; cbn [rbind] in E; [|discriminate]. injection E as <-. split; reflexivity.
Qed.
Lemma rrender_flat ip m n : r_proj m = None -> rrender ip m n n false = render (r_dm m) n n false.
Proof. intros H. unfold rrender, render. rewrite H. reflexivity. Qed.

(* a new DM at dx0, z pixels per sample *)
Lemma new_surface ip c s dx0 n sf s' mag z : g_diff c = true -> q_dm s = None -> untilted c -> samples_per_act c mag -> (1 <= cNact (q_c s))%Z -> (1 <= z)%nat -> sample_width c mag = INR z * dx0 ->
  gen_surf ip c s dx0 n = Ok (sf, s') ->
  let nact := Z.to_nat (cNact (q_c s)) in let N := wrapper_size nact mag in
  exists sg ifn h, sign_factor (Some (g_sign c)) = Ok sg /\ pad_cropr (rscale sg (of_rarr (i_map (g_file c)))) N N = Ok ifn /\ height_map c (q_c s') = Ok h /\ dims n n sf /\
    forall y x ky kx, (y < n)%nat -> (x < n)%nat -> (Z.of_nat y - Z.of_nat n / 2 = Z.of_nat z * ky)%Z -> (Z.of_nat x - Z.of_nat n / 2 = Z.of_nat z * kx)%Z ->
      fpx sf y x = mirror ifn nact mag (wrapper_shift (g_xc c) nact mag) (wrapper_shift (g_yc c) nact mag) (of_rarr h) ky kx.
Proof.
  intros G Q U SM HN Hz HW E nact N. destruct (gen_diff _ _ _ _ _ _ _ G E) as (Hd & Hn & d & h & m & i & E1 & E2 & E3 & E4 & ->). rewrite Q in E3. pose proof (enforce_nact _ _ E1) as N1. destruct (height_dims _ _ _ E2) as [N2 N3]. rewrite N1 in E3. fold nact in E3.
  assert (Hc : fcols (of_rarr h) = nact) by (rewrite of_cols, N3, N1; reflexivity). assert (Hr : frows (of_rarr h) = nact) by (cbn; rewrite N2, N1; reflexivity). assert (HA : (1 <= nact)%nat) by (unfold nact; lia).
  destruct (wrapper_shape c nact dx0 (of_rarr h) m mag U SM Hc HA E3) as (sg & ifn & ES & EP & DI & EC & RP). fold N in EP, DI. exists sg, ifn, h. split; [auto|]. split; [auto|]. split; [auto|].
  pose proof SM as (Hm & _). assert (F : act_fit N nact mag) by (apply C69_wrapper_fits; auto). destruct DI as [I1 I2]. assert (FA : act_fit (frows ifn) nact mag) by (now rewrite I1). assert (FB : act_fit (fcols ifn) nact mag) by (now rewrite I2).
  replace (sample_width c mag / dx0) with (INR z) in EC by (rewrite HW; field; lra).
  destruct (commanded_holds ifn nact mag (IZR (wrapper_shift (g_xc c) nact mag)) (IZR (wrapper_shift (g_yc c) nact mag)) (INR z) [] (of_rarr h) FA FB) as (d' & EC' & H); [constructor|split; auto|]. rewrite EC in EC'. injection EC' as <-.
  destruct (render_fine ifn nact mag (wrapper_shift (g_xc c) nact mag) (wrapper_shift (g_yc c) nact mag) z (of_rarr h) (r_dm m) n FA FB Hz ltac:(lia) H) as (sf' & i' & ER & DS & V).
  rewrite (rrender_flat ip m n RP), ER in E4. injection E4 as <- <-. auto.
Qed.
