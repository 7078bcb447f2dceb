(* C97: surfaces of a DM over a sequence of calls *)
From Verif Require Import Base StrBase RBase CtrlModel UtilModel UtilSpec UtilProofs DmModel DmSpec DmSurfModel DmSurfSpec DmSurfProofs DmProofs DmProps CubModel DmcModel CBase PropModel PropSpec PropProofs OptModel LinBase DiffModel DiffSpec DiffProofs DiffProofs2 DiffProofs3 DiffProofs4 DiffProps RotModel GsfModel GsfSpec GsfProofs GsfProofs2 GsfProofs3 GsfProofs4 GsfProofs5.
Open Scope R_scope.

(* The surface of a DM with the differentiable model does not depend on earlier commands: after any calls it is what a DM that has never been used
   returns.  But it is what that DM returns at the pixel width dx0 of the first call, not at the pixel width dx asked for. *)
Theorem C97_first_call_sets_sampling : forall ip c s v0 dx0 n0 sf0 s1 hist s2 v dx n, g_diff c = true -> q_dm s = None ->
  gen_surf ip c (command s v0) dx0 n0 = Ok (sf0, s1) -> renders ip c s1 hist = Ok s2 -> 0 < dx ->
  gen_surf ip c (command s2 v) dx n = gen_surf ip c (brand_new (command s2 v)) dx0 n.
Proof.
  intros ip c s v0 dx0 n0 sf0 s1 hist s2 v dx n G Q E H Hd. destruct (first_made ip c (command s v0) dx0 n0 sf0 s1 G Q E) as (N1 & m1 & Q1 & M1). destruct (gen_diff _ _ _ _ _ _ _ G E) as (Hd0 & _).
  rewrite <- N1 in M1. destruct (renders_made ip c dx0 hist s1 m1 s2 G Q1 M1 H) as (N2 & m2 & Q2 & M2). rewrite <- N2 in M2.
  exact (as_new ip c (command s2 v) dx dx0 n m2 G Hd Hd0 Q2 M2).
Qed.
Print Assumptions C97_first_call_sets_sampling.

(* ... so with such a DM neither the pixel width nor position, tilt, clocking, spacing, centring, sign and influence function matter any more *)
Theorem C97_later_settings_ignored : forall ip c c' s dx dx' n m, g_diff c = true -> g_diff c' = true -> q_dm s = Some m -> 0 < dx -> 0 < dx' ->
  g_vtoh c' = g_vtoh c -> g_step c' = g_step c -> g_method c' = g_method c -> g_orient c' = g_orient c ->
  gen_surf ip c' s dx' n = gen_surf ip c s dx n.
Proof.
  intros ip c c' s dx dx' n m G G' Q H H' E1 E2 E3 E4. rewrite !gen_diff_eq by auto. rewrite Q. unfold height_map. now rewrite E1, E2, E3, E4.
Qed.
Print Assumptions C97_later_settings_ignored.
(* PROPER's surfaces follow the arguments of every call: the object remembers the command and its constraints, and nothing else *)
Theorem C97_proper_remembers_nothing : forall ip c s s' dx n, g_diff c = false -> q_c s = q_c s' ->
  (forall sf s1, gen_surf ip c s dx n = Ok (sf, s1) -> exists s1', gen_surf ip c s' dx n = Ok (sf, s1') /\ q_c s1' = q_c s1 /\ q_dm s1' = q_dm s') /\
  (forall e, gen_surf ip c s dx n = Raise e -> gen_surf ip c s' dx n = Raise e).
Proof.
  intros ip c s s' dx n G Q. unfold gen_surf. rewrite <- Q, G. destruct (Rlt_dec 0 dx); [|split; [discriminate|auto]]. destruct (Nat.eqb n 0); [split; [discriminate|auto]|].
  destruct (enforce_constraints R 0 Rplus rltb (q_c s)) as [d|]; cbn [rbind]; [|split; [discriminate|auto]]. destruct (height_map c d) as [h|]; cbn [rbind]; [|split; [discriminate|auto]].
  cbv zeta. match goal with |- context [rbind ?x _] => destruct x as [g|]; cbn [rbind] end; [|split; [discriminate|auto]]. split; [|discriminate]. intros sf s1 E. injection E as <- <-. eexists. split; [reflexivity|]. split; reflexivity.
Qed.
Print Assumptions C97_proper_remembers_nothing.
(* interpixel centring of PROPER's surfaces: the centre of the mirror at xc, yc plus half a pixel in actuators, on the pixel centred grid *)
Theorem C97_proper_centring : forall ip v st me o xc yc sp xt yt zr xyz sg fl s dx n, sp <> 0 -> 
  gen_surf ip (mkg v st me o true xc yc sp xt yt zr xyz sg fl false) s dx n =
  gen_surf ip (mkg v st me o false (xc + dx / sp / 2) (yc + dx / sp / 2) sp xt yt zr xyz sg fl false) s dx n.
Proof.
  intros ip v st me o xc yc sp xt yt zr xyz sg fl s dx n SP. unfold gen_surf. cbn [g_diff g_inter g_xc g_yc g_spacing g_file g_xyz g_xt g_yt g_zr g_sign].
  destruct (Rlt_dec 0 dx) as [D|]; [|reflexivity]. destruct (Nat.eqb n 0) eqn:EN; [reflexivity|]. apply Nat.eqb_neq in EN. destruct (enforce_constraints R 0 Rplus rltb (q_c s)) as [d|e]; cbn [rbind]; [|reflexivity].
  replace (height_map (mkg v st me o true xc yc sp xt yt zr xyz sg fl false) d) with (height_map (mkg v st me o false (xc + dx / sp / 2) (yc + dx / sp / 2) sp xt yt zr xyz sg fl false) d) by reflexivity.
  destruct (height_map _ d) as [h|e]; cbn [rbind]; [|reflexivity]. cbv zeta. unfold cshift. assert (INR n <> 0) by (apply not_0_INR; lia).
  replace (xc - - (INR n * dx) / 2 / INR n / sp) with (xc + dx / sp / 2 - 0) by (field; auto). replace (yc - - (INR n * dx) / 2 / INR n / sp) with (yc + dx / sp / 2 - 0) by (field; auto). reflexivity.
Qed.
Print Assumptions C97_proper_centring.
(* the differentiable model is always pixel centred *)
Theorem C97_interpixel_ignored : forall ip c s dx n, g_diff c = true ->
  gen_surf ip (mkg (g_vtoh c) (g_step c) (g_method c) (g_orient c) (negb (g_inter c)) (g_xc c) (g_yc c) (g_spacing c) (g_xt c) (g_yt c) (g_zr c) (g_xyz c) (g_sign c) (g_file c) (g_diff c)) s dx n = gen_surf ip c s dx n.
Proof. intros ip c s dx n G. unfold gen_surf. cbn [g_diff]. rewrite G. reflexivity. Qed.
Print Assumptions C97_interpixel_ignored.

(* Asking again for the surface of the same command gives the same surface, although the first call may have changed the command and added pins. *)
Theorem C97_twice : forall ip c s dx n sf s1 k, gen_surf ip c s dx n = Ok (sf, s1) -> dm_ok k (q_c s) -> small_bias (q_c s) -> stable_pins (q_c s) -> no_chains (q_c s) ->
  exists s2, gen_surf ip c s1 dx n = Ok (sf, s2) /\ cV (q_c s2) = cV (q_c s1).
Proof.
  intros ip c s dx n sf s1 k E K1 K2 K3 K4. destruct (enforce_ok k (q_c s) K1) as (d & E1 & Kd & _). destruct (enforce_ok k d Kd) as (d2 & E2 & _).
  pose proof (C22_second_call_changes_nothing k (q_c s) d d2 K1 K2 K3 K4 E1 E2) as EV. pose proof (enforce_nact _ _ E2) as EN.
  destruct (g_diff c) eqn:G.
  - destruct (gen_diff _ _ _ _ _ _ _ G E) as (Hd & Hn & d' & h & m & i & F1 & F2 & F3 & F4 & ->). rewrite E1 in F1. injection F1 as <-.
    exists (mkgs d2 (Some m) (Some i)). split; [|exact EV]. rewrite gen_diff_eq by auto. cbn [q_c q_dm]. destruct (Nat.eqb_spec n 0); [contradiction|]. rewrite E2. cbn [rbind]. rewrite (height_same c d2 d EV EN), F2. cbn [rbind].
    assert (U : rdm_update m (of_rarr h) = Ok m). { destruct (q_dm s) as [m0|]; [rewrite (rupdate_twice _ _ _ (of_rarr h) F3); exact F3|]. rewrite <- (wrapper_twice _ _ _ _ (of_rarr h) _ F3 eq_refl). exact F3. }
    rewrite U. cbn [rbind]. rewrite F4. reflexivity.
  - unfold gen_surf in *. destruct (Rlt_dec 0 dx); [|discriminate]. destruct (Nat.eqb n 0); [discriminate|]. change (enforce_constraints R 0 Rplus rltb) with enforce in *. rewrite E1 in E. cbn [rbind] in E. destruct (height_map c d) as [h|] eqn:EH; cbn [rbind] in E; [|discriminate].
    rewrite G in E |- *. cbv zeta in E |- *. match type of E with rbind ?x _ = _ => destruct x as [g|] eqn:EG; cbn [rbind] in E; [|discriminate] end. injection E as <- <-. cbn [q_c q_dm q_int]. rewrite E2. cbn [rbind].
    rewrite (height_same c d2 d EV EN), EH. cbn [rbind]. rewrite EG. cbn [rbind]. eexists. split; [reflexivity|]. exact EV.
Qed.
Print Assumptions C97_twice.

(* Scale.  mirror .. ky kx is the mirror's height at a distance of ky, kx samples of the influence function from its centre.  If the first call had z pixels
   of width dx0 in a sample, then every later surface shows that height z*ky, z*kx pixels from the centre: right for dx = dx0, and magnified by
   dx / dx0 otherwise. *)
Theorem C97_scale : forall ip c s v0 dx0 n0 sf0 s1 hist s2 v dx n sf s3 mag z, g_diff c = true -> q_dm s = None -> untilted c -> samples_per_act c mag -> (1 <= cNact (q_c s))%Z ->
  (1 <= z)%nat -> sample_width c mag = INR z * dx0 -> gen_surf ip c (command s v0) dx0 n0 = Ok (sf0, s1) -> renders ip c s1 hist = Ok s2 -> gen_surf ip c (command s2 v) dx n = Ok (sf, s3) ->
  let nact := Z.to_nat (cNact (q_c s)) in let N := wrapper_size nact mag in
  exists sg ifn h, sign_factor (Some (g_sign c)) = Ok sg /\ pad_cropr (rscale sg (of_rarr (i_map (g_file c)))) N N = Ok ifn /\ height_map c (q_c s3) = Ok h /\ dims n n sf /\
    forall y x ky kx, (y < n)%nat -> (x < n)%nat -> (Z.of_nat y - Z.of_nat n / 2 = Z.of_nat z * ky)%Z -> (Z.of_nat x - Z.of_nat n / 2 = Z.of_nat z * kx)%Z ->
      fpx sf y x = mirror ifn nact mag (wrapper_shift (g_xc c) nact mag) (wrapper_shift (g_yc c) nact mag) (of_rarr h) ky kx.
Proof.
  intros ip c s v0 dx0 n0 sf0 s1 hist s2 v dx n sf s3 mag z G Q U SM HN Hz HW E H E3 nact N.
  assert (Hd : 0 < dx) by (destruct (gen_diff _ _ _ _ _ _ _ G E3) as (Hd & _); exact Hd).
  rewrite (C97_first_call_sets_sampling ip c s v0 dx0 n0 sf0 s1 hist s2 v dx n G Q E H Hd) in E3.
  destruct (first_made ip c (command s v0) dx0 n0 sf0 s1 G Q E) as (N1 & m1 & Q1 & M1). rewrite <- N1 in M1. destruct (renders_made ip c dx0 hist s1 m1 s2 G Q1 M1 H) as (N2 & _). cbn [command q_c set_cV cNact] in N1.
  assert (N3 : cNact (q_c (brand_new (command s2 v))) = cNact (q_c s)) by (cbn; congruence).
  pose proof (new_surface ip c (brand_new (command s2 v)) dx0 n sf s3 mag z G eq_refl U SM ltac:(lia) Hz HW E3) as X. cbv zeta in X. rewrite N3 in X. exact X.
Qed.
Print Assumptions C97_scale.

(* Gradient.  With quarter turns and mirror images: the surface is linear in the applied command, and the derivative of its product with g with respect to the
   actuator in row r, column c is VtoH times the entry b for the place r', c' to which that actuator is turned; the code returns VtoH times the entry for r, c. *)
Theorem C97_gradient_turned : forall ip c s v0 dx n0 sf0 s1 mag o flip k g, g_diff c = true -> q_dm s = None -> untilted c -> samples_per_act c mag -> (1 <= cNact (q_c s))%Z ->
  sample_width c mag = dx -> Nat.even (Z.to_nat (cNact (q_c s)) * mag) = true -> g_step c = None -> g_orient c = Some o -> In (lower o, (flip, k)) orientation_table ->
  gen_surf ip c (command s v0) dx n0 = Ok (sf0, s1) -> dims n0 n0 g ->
  let N := Z.to_nat (cNact (q_c s)) in
  exists b G T, back_volts ip c s1 g = Ok G /\ dims N N G /\
    (forall i j, (i < N)%nat -> (j < N)%nat -> fpx G i j = b i j * fpx (of_rarr (g_vtoh c)) i j) /\
    (forall r cc r' c', (r < N)%nat -> (cc < N)%nat -> (r' < N)%nat -> (c' < N)%nat -> moves_to (Z.of_nat N) flip k (Z.of_nat r) (Z.of_nat cc) (Z.of_nat r') (Z.of_nat c') ->
       T r cc = b r' c' * fpx (of_rarr (g_vtoh c)) r cc) /\
    rdot n0 n0 g sf0 = rsum N (fun r => rsum N (fun cc => nth (r * N + cc) (cV (q_c s1)) 0 * T r cc)) /\
    forall hist s2 w dx' sf s3, renders ip c s1 hist = Ok s2 -> gen_surf ip c (command s2 w) dx' n0 = Ok (sf, s3) ->
      rdot n0 n0 g sf = rsum N (fun r => rsum N (fun cc => nth (r * N + cc) (cV (q_c s3)) 0 * T r cc)).
Proof.
  intros ip c s v0 dx n0 sf0 s1 mag o flip k g GD Q U SM HN HW EV HS HO HI E Dg N.
  destruct (new_core ip c (command s v0) dx n0 sf0 s1 mag GD Q U SM HN HW E) as (sg & ifn & h & m & ES & EP & DI & Qm & Qi & RP & H & EH & ER & Hn & N1). cbn [command q_c set_cV cNact] in *. fold N in EP, DI, H. cbv zeta in H.
  assert (HA : (1 <= N)%nat) by (unfold N; lia). pose proof SM as (Hm & _). pose proof (C69_wrapper_fits N mag HA Hm) as F. pose proof DI as [I1 I2]. assert (FA : act_fit (frows ifn) N mag) by (now rewrite I1). assert (FB : act_fit (fcols ifn) N mag) by (now rewrite I2).
  assert (E1 : Nat.even (frows ifn) = true) by (rewrite I1; now apply even_size). assert (E2 : Nat.even (fcols ifn) = true) by (rewrite I2; now apply even_size).
  destruct (adjoint_11 _ _ _ _ _ _ _ false n0 n0 g FA FB E1 E2 H Hn Hn Dg) as (sf' & i & b & AR & _ & AB & [B1 B2] & AD). rewrite ER in AR. injection AR as <- <-.
  assert (K : (k < 4)%nat). { clear - HI. cbn [In orientation_table] in HI. repeat (destruct HI as [HI|HI]; [injection HI as _ _ <-; lia|]). contradiction. }
  destruct (heights_turned c (q_c s1) o flip k h HS HO HI EH ltac:(lia)) as (V1 & V2 & _). rewrite N1 in V1, V2.
  exists (fpx b), (mkf N N (fun i j => fpx b i j * fpx (of_rarr (g_vtoh c)) i j)), (fun r cc => fpx b (fst (place flip k N r cc)) (snd (place flip k N r cc)) * fpx (of_rarr (g_vtoh c)) r cc).
  assert (GEN : forall h', dims N N (of_rarr h') -> forall u, (forall r cc, (r < N)%nat -> (cc < N)%nat -> fpx (of_rarr h') (fst (place flip k N r cc)) (snd (place flip k N r cc)) = fpx (of_rarr (g_vtoh c)) r cc * nth (r * N + cc) u 0) ->
      rdot N N b (of_rarr h') = rsum N (fun r => rsum N (fun cc => nth (r * N + cc) u 0 * (fpx b (fst (place flip k N r cc)) (snd (place flip k N r cc)) * fpx (of_rarr (g_vtoh c)) r cc)))).
  { intros h' Dh u Hu. unfold rdot. rewrite (reindex flip k N (fun i j => fpx b i j * fpx (of_rarr h') i j)). apply rsum_ext. intros r Hr. apply rsum_ext. intros cc Hc. rewrite Hu by auto. ring. }
  split; [|split; [|split; [|split; [|split]]]].
  - unfold back_volts. rewrite Qm, Qi, (backprop_flat ip m _ g RP), AB. cbn [rbind]. cbn [of_rarr frows fcols]. rewrite B1, B2, V1, V2. fold N. rewrite !Nat.eqb_refl. reflexivity.
  - split; reflexivity.
  - intros i j Hi Hj. reflexivity.
  - intros r cc r' c' Hr Hc Hr' Hc' M. destruct (C23_bijection (Z.of_nat N) flip k K) as (_ & UQ & _). destruct (UQ _ _ _ _ _ _ M (place_moves flip k N r cc K Hr Hc)) as [X1 X2]. apply Nat2Z.inj in X1, X2. now rewrite X1, X2.
  - rewrite AD. destruct (heights_turned c (q_c s1) o flip k h HS HO HI EH ltac:(lia)) as (_ & _ & HT). cbv zeta in HT. rewrite N1 in HT. fold N in HT. apply GEN; [|auto]. destruct (height_dims _ _ _ EH) as [D1 D2]. split; cbn; rewrite ?D1, ?D2, N1; reflexivity.
  - intros hist s2 w dx' sf s3 HR E3. assert (Hd : 0 < dx') by (destruct (gen_diff _ _ _ _ _ _ _ GD E3) as (Hd & _); exact Hd).
    rewrite (C97_first_call_sets_sampling ip c s v0 dx n0 sf0 s1 hist s2 w dx' n0 GD Q E HR Hd) in E3.
    destruct (first_made ip c (command s v0) dx n0 sf0 s1 GD Q E) as (_ & m1 & Q1 & M1). cbn [command q_c set_cV cNact] in M1. rewrite <- N1 in M1. destruct (renders_made ip c dx hist s1 m1 s2 GD Q1 M1 HR) as (N2 & _).
    assert (N3 : cNact (q_c (brand_new (command s2 w))) = cNact (q_c s)) by (cbn; congruence).
    pose proof (new_core ip c (brand_new (command s2 w)) dx n0 sf s3 mag GD eq_refl U SM ltac:(lia) HW E3) as X. cbv zeta in X. rewrite N3 in X. fold N in X.
    destruct X as (sg' & ifn' & h' & m' & ES' & EP' & _ & _ & _ & _ & H' & EH' & ER' & _ & N4). rewrite ES in ES'. injection ES' as <-. rewrite EP in EP'. injection EP' as <-.
    destruct (adjoint_11 _ _ _ _ _ _ _ false n0 n0 g FA FB E1 E2 H' Hn Hn Dg) as (sf' & i & b' & AR & _ & AB' & _ & AD'). rewrite ER' in AR. injection AR as <- <-.
    rewrite (backprop_any _ _ _ _ _ _ _ _ _ _ (Some (frows ifn, fcols ifn)) g false H' H), AB in AB'. injection AB' as <-. rewrite AD'.
    destruct (heights_turned c (q_c s3) o flip k h' HS HO HI EH' ltac:(lia)) as (_ & _ & HT). cbv zeta in HT. rewrite N4 in HT. fold N in HT. apply GEN; [|auto]. destruct (height_dims _ _ _ EH') as [D1 D2]. split; cbn; rewrite ?D1, ?D2, N4; reflexivity.
Qed.
Print Assumptions C97_gradient_turned.
(* ... so without a turn the returned gradient is the derivative *)
Theorem C97_gradient_unturned : forall ip c s v0 dx n0 sf0 s1 mag o g, g_diff c = true -> q_dm s = None -> untilted c -> samples_per_act c mag -> (1 <= cNact (q_c s))%Z ->
  sample_width c mag = dx -> Nat.even (Z.to_nat (cNact (q_c s)) * mag) = true -> g_step c = None -> g_orient c = Some o -> lower o = "rot0"%string ->
  gen_surf ip c (command s v0) dx n0 = Ok (sf0, s1) -> dims n0 n0 g ->
  let N := Z.to_nat (cNact (q_c s)) in
  exists G, back_volts ip c s1 g = Ok G /\ dims N N G /\
    rdot n0 n0 g sf0 = rsum N (fun r => rsum N (fun cc => nth (r * N + cc) (cV (q_c s1)) 0 * fpx G r cc)) /\
    forall hist s2 w dx' sf s3, renders ip c s1 hist = Ok s2 -> gen_surf ip c (command s2 w) dx' n0 = Ok (sf, s3) ->
      rdot n0 n0 g sf = rsum N (fun r => rsum N (fun cc => nth (r * N + cc) (cV (q_c s3)) 0 * fpx G r cc)).
Proof.
  intros ip c s v0 dx n0 sf0 s1 mag o g GD Q U SM HN HW EV HS HO HL E Dg N.
  assert (HI : In (lower o, (false, 0%nat)) orientation_table) by (rewrite HL; left; reflexivity).
  destruct (C97_gradient_turned ip c s v0 dx n0 sf0 s1 mag o false 0 g GD Q U SM HN HW EV HS HO HI E Dg) as (b & G & T & EB & DG & VG & VT & D0 & DL). fold N in DG, VG, VT, D0, DL.
  assert (TG : forall r cc, (r < N)%nat -> (cc < N)%nat -> T r cc = fpx G r cc). { intros r cc Hr Hc. rewrite VG by auto. apply VT; auto. exact (place_moves false 0 N r cc ltac:(lia) Hr Hc). }
  exists G. split; [auto|]. split; [auto|]. split.
  - rewrite D0. apply rsum_ext. intros r Hr. apply rsum_ext. intros cc Hc. now rewrite TG.
  - intros hist s2 w dx' sf s3 H1 H2. rewrite (DL _ _ _ _ _ _ H1 H2). apply rsum_ext. intros r Hr. apply rsum_ext. intros cc Hc. now rewrite TG.
Qed.
Print Assumptions C97_gradient_unturned.

(* With any other orientation it is not.  Two by two actuators, one sample of the influence function each; the DM is in use; whatever function of the
   surface with gradient g = 1, 2, 3, 4 is differentiated: *)
Theorem C97_gradient_turned_refuted : forall ip o flip k, In (lower o, (flip, k)) orientation_table -> lower o <> "rot0"%string ->
  exists c s v sf s1 g G, g_diff c = true /\ q_dm s = None /\ g_orient c = Some o /\ cNact (q_c s) = 2%Z /\ gen_surf ip c (command s v) 1 2 = Ok (sf, s1) /\ cV (q_c s1) = v /\ dims 2 2 g /\ back_volts ip c s1 g = Ok G /\
    rdot 2 2 g sf <> rsum 2 (fun r => rsum 2 (fun cc => nth (r * 2 + cc) v 0 * fpx G r cc)).
Proof.
  intros ip o flip k HI HL. set (g := mkf 2 2 (fun i j => INR (1 + i * 2 + j))). assert (Dg : dims 2 2 g) by (split; reflexivity).
  assert (A : forall x, 0 <= x <= 4 -> Rabs x <= 10) by (intros x Hx; rewrite Rabs_pos_eq; lra).
  assert (HO : (Some o = None /\ flip = false /\ k = 0%nat) \/ (exists q, Some o = Some q /\ In (lower q, (flip, k)) orientation_table)) by (right; eauto).
  destruct (turned22 ip (Some o) flip k None 1 2 3 4 HO (or_introl eq_refl)) as (sf & s1 & E & EQ & DS & V); [apply A; lra ..|].
  destruct (C97_gradient_turned ip (c22 (Some o)) (s22 None [0; 0; 0; 0]) [1; 2; 3; 4] 1 2 sf s1 1 o flip k g eq_refl eq_refl (c22_untilted _) (c22_samples _) ltac:(cbn; lia) (c22_width _) eq_refl eq_refl eq_refl HI E Dg) as (b & G & T & EB & DG & VG & VT & D0 & DL).
  change (Z.to_nat (cNact (q_c (s22 None [0; 0; 0; 0])))) with 2%nat in *.
  exists (c22 (Some o)), (s22 None [0; 0; 0; 0]), [1; 2; 3; 4], sf, s1, g, G. repeat (split; [first [reflexivity|assumption]|]). split; [rewrite EQ; reflexivity|]. split; [auto|]. split; [auto|].
  (* the entries b, from four later commands *)
  assert (K : (k < 4)%nat). { clear - HI. cbn [In orientation_table] in HI. repeat (destruct HI as [HI|HI]; [injection HI as _ _ <-; lia|]). contradiction. }
  assert (LS : forall w1 w2 w3 w4, Rabs w1 <= 10 -> Rabs w2 <= 10 -> Rabs w3 <= 10 -> Rabs w4 <= 10 ->
    rsum 2 (fun y => rsum 2 (fun x => fpx g y x * rsum 2 (fun r => rsum 2 (fun cc => nth (r * 2 + cc) [w1; w2; w3; w4] 0 * (if Nat.eqb y (fst (place flip k 2 r cc)) && Nat.eqb x (snd (place flip k 2 r cc)) then 1 else 0)))))
    = rsum 2 (fun r => rsum 2 (fun cc => nth (r * 2 + cc) [w1; w2; w3; w4] 0 * T r cc))).
  { intros w1 w2 w3 w4 H1 H2 H3 H4. destruct (turned22 ip (Some o) flip k (Some [false; false; false; false]) w1 w2 w3 w4 HO (or_intror eq_refl) H1 H2 H3 H4) as (sf' & s3 & E' & EQ' & DS' & V').
    assert (EN : gen_surf ip (c22 (Some o)) (command s1 [w1; w2; w3; w4]) 1 2 = Ok (sf', s3)).
    { rewrite (C97_first_call_sets_sampling ip (c22 (Some o)) (s22 None [0; 0; 0; 0]) [1; 2; 3; 4] 1 2 sf s1 [] s1 [w1; w2; w3; w4] 1 2 eq_refl eq_refl E eq_refl ltac:(lra)). rewrite <- E'. unfold brand_new, command. cbn [q_c]. rewrite EQ. reflexivity. }
    pose proof (DL [] s1 _ _ _ _ eq_refl EN) as X. rewrite EQ' in X. cbn [cV d22] in X. rewrite <- X. unfold rdot. apply rsum_ext. intros y Hy. apply rsum_ext. intros x Hx. now rewrite V'. }
  assert (BT : forall r cc, (r < 2)%nat -> (cc < 2)%nat -> T r cc = b (fst (place flip k 2 r cc)) (snd (place flip k 2 r cc))).
  { intros r cc Hr Hc. destruct (place_lt flip k 2 r cc Hr Hc) as [P1 P2]. rewrite (VT r cc _ _ Hr Hc P1 P2 (place_moves flip k 2 r cc K Hr Hc)). cbn [of_rarr fpx px c22 g_vtoh]. lra. }
  assert (GB : forall r cc, (r < 2)%nat -> (cc < 2)%nat -> fpx G r cc = b r cc) by (intros r cc Hr Hc; rewrite VG by auto; cbn [of_rarr fpx px c22 g_vtoh]; lra).
  assert (S2 : forall f, rsum 2 f = f 0%nat + f 1%nat) by (intros f; cbn; lra).
  rewrite D0, EQ. cbn [cV d22]. rewrite !S2, !GB, !BT by lia.
  pose proof (LS 1 0 0 0 ltac:(apply A; lra) ltac:(apply A; lra) ltac:(apply A; lra) ltac:(apply A; lra)) as L1. pose proof (LS 0 1 0 0 ltac:(apply A; lra) ltac:(apply A; lra) ltac:(apply A; lra) ltac:(apply A; lra)) as L2.
  pose proof (LS 0 0 1 0 ltac:(apply A; lra) ltac:(apply A; lra) ltac:(apply A; lra) ltac:(apply A; lra)) as L3. pose proof (LS 0 0 0 1 ltac:(apply A; lra) ltac:(apply A; lra) ltac:(apply A; lra) ltac:(apply A; lra)) as L4.
  rewrite !S2 in L1, L2, L3, L4. rewrite !BT in L1, L2, L3, L4 by lia. clear - L1 L2 L3 L4 HI HL. cbn [In orientation_table] in HI.
  repeat (destruct HI as [HI|HI]; [injection HI as HI1 <- <-; cbn in L1, L2, L3, L4 |- *; first [congruence|lra]|]). contradiction.
Qed.
Print Assumptions C97_gradient_turned_refuted.

(* A surface asked for at another pixel width than the first is wrong: same DM, same command, same arguments as a DM that has not been used *)
Theorem C97_scale_refuted : forall ip, exists c s v sf0 s1 sf s2 sf' s2', g_diff c = true /\ q_dm s = None /\ gen_surf ip c (command s v) (1 / 2) 6 = Ok (sf0, s1) /\
  gen_surf ip c (command s1 v) 1 6 = Ok (sf, s2) /\ gen_surf ip c (brand_new (command s1 v)) 1 6 = Ok (sf', s2') /\ fpx sf 1 1 = 1 /\ fpx sf' 1 1 = 0.
Proof.
  intros ip. assert (A0 : Rabs 0 <= 10) by (rewrite Rabs_R0; lra). assert (A1 : Rabs 1 <= 10) by (rewrite Rabs_R1; lra).
  assert (HO : (@None string = None /\ false = false /\ 0%nat = 0%nat) \/ (exists q, @None string = Some q /\ In (lower q, (false, 0%nat)) orientation_table)) by auto.
  destruct (surf22 ip None false 0 None 1 0 0 0 2 (1 / 2) 6 HO (or_introl eq_refl) A1 A0 A0 A0) as (sf0 & s1 & E0 & Q0 & _ & _); [lia|cbn; lra|lia|].
  destruct (surf22 ip None false 0 (Some [false; false; false; false]) 1 0 0 0 2 (1 / 2) 6 HO (or_intror eq_refl) A1 A0 A0 A0) as (sf & s2 & E & Q & _ & V); [lia|cbn; lra|lia|].
  destruct (surf22 ip None false 0 (Some [false; false; false; false]) 1 0 0 0 1 1 6 HO (or_intror eq_refl) A1 A0 A0 A0) as (sf' & s2' & E' & Q' & _ & V'); [lia|cbn; lra|lia|].
  assert (BN : brand_new (command s1 [1; 0; 0; 0]) = s22 (Some [false; false; false; false]) [1; 0; 0; 0]) by (unfold brand_new, command; cbn [q_c]; rewrite Q0; reflexivity).
  exists (c22 None), (s22 None [0; 0; 0; 0]), [1; 0; 0; 0], sf0, s1, sf, s2, sf', s2'. repeat (split; [first [reflexivity|assumption]|]).
  split. { rewrite (C97_first_call_sets_sampling ip (c22 None) (s22 None [0; 0; 0; 0]) [1; 0; 0; 0] (1 / 2) 6 sf0 s1 [] s1 [1; 0; 0; 0] 1 6 eq_refl eq_refl E0 eq_refl ltac:(lra)), BN. exact E. }
  split; [rewrite BN; exact E'|]. split.
  - rewrite (V 1%nat 1%nat (-1)%Z (-1)%Z); [cbn; lra|lia|lia|reflexivity|reflexivity|lia|lia].
  - rewrite (V' 1%nat 1%nat (-2)%Z (-2)%Z); [cbn; lra|lia|lia|reflexivity|reflexivity|lia|lia].
Qed.
Print Assumptions C97_scale_refuted.

(* The hypotheses are met: a DM, a first call, a second command in between, and a third at another pixel width *)
Theorem C97_example : forall ip, exists c s v0 sf0 s1 hist s2 v sf s3, g_diff c = true /\ q_dm s = None /\ untilted c /\ samples_per_act c 1 /\ cNact (q_c s) = 2%Z /\ sample_width c 1 = INR 2 * (1 / 2) /\
  gen_surf ip c (command s v0) (1 / 2) 4 = Ok (sf0, s1) /\ length hist = 1%nat /\ renders ip c s1 hist = Ok s2 /\ gen_surf ip c (command s2 v) 1 4 = Ok (sf, s3) /\
  dm_ok 4 (q_c s) /\ small_bias (q_c s) /\ stable_pins (q_c s) /\ no_chains (q_c s) /\ fpx sf 0 2 = 3.
Proof.
  intros ip. assert (A : forall x, 0 <= x <= 4 -> Rabs x <= 10) by (intros x Hx; rewrite Rabs_pos_eq; lra).
  assert (HO : (@None string = None /\ false = false /\ 0%nat = 0%nat) \/ (exists q, @None string = Some q /\ In (lower q, (false, 0%nat)) orientation_table)) by auto.
  assert (MS : forall m, (m = None \/ m = Some [false; false; false; false]) -> forall a b c d, 0 <= a <= 4 -> 0 <= b <= 4 -> 0 <= c <= 4 -> 0 <= d <= 4 -> exists sf s1, gen_surf ip (c22 None) (s22 m [a; b; c; d]) (1 / 2) 4 = Ok (sf, s1) /\ q_c s1 = d22 (Some [false; false; false; false]) [a; b; c; d] /\ fpx sf 0 2 = b).
  { intros m Hm a b c d H1 H2 H3 H4. destruct (surf22 ip None false 0 m a b c d 2 (1 / 2) 4 HO Hm (A a H1) (A b H2) (A c H3) (A d H4)) as (sf & s1 & E & Q & _ & V); [lia|cbn; lra|lia|]. exists sf, s1. split; [auto|]. split; [auto|].
    rewrite (V 0%nat 2%nat (-1)%Z 0%Z); [cbn; lra|lia|lia|reflexivity|reflexivity|lia|lia]. }
  destruct (MS None (or_introl eq_refl) 1 0 0 0) as (sf0 & s1 & E0 & Q0 & _); [lra ..|]. destruct (MS _ (or_intror eq_refl) 0 2 0 0) as (sf1 & s2 & E1 & Q1 & _); [lra ..|]. destruct (MS _ (or_intror eq_refl) 1 3 2 1) as (sf & s3 & E & Q & V); [lra ..|].
  assert (BN : forall s v, q_c s = d22 (Some [false; false; false; false]) v -> forall w, brand_new (command s w) = s22 (Some [false; false; false; false]) w) by (intros s v H w; unfold brand_new, command; cbn [q_c]; rewrite H; reflexivity).
  assert (F1 : gen_surf ip (c22 None) (command s1 [0; 2; 0; 0]) (1 / 2) 4 = Ok (sf1, s2)) by (rewrite (C97_first_call_sets_sampling ip (c22 None) (s22 None [0; 0; 0; 0]) [1; 0; 0; 0] (1 / 2) 4 sf0 s1 [] s1 [0; 2; 0; 0] (1 / 2) 4 eq_refl eq_refl E0 eq_refl ltac:(lra)), (BN _ _ Q0); exact E1).
  assert (R2 : renders ip (c22 None) s1 [([0; 2; 0; 0], 1 / 2, 4%nat)] = Ok s2) by (cbn [renders]; rewrite F1; reflexivity).
  exists (c22 None), (s22 None [0; 0; 0; 0]), [1; 0; 0; 0], sf0, s1, [([0; 2; 0; 0], 1 / 2, 4%nat)], s2, [1; 3; 2; 1], sf, s3.
  split; [reflexivity|]. split; [reflexivity|]. split; [apply c22_untilted|]. split; [apply c22_samples|]. split; [reflexivity|]. split; [rewrite c22_width; cbn; lra|]. split; [exact E0|]. split; [reflexivity|]. split; [exact R2|].
  split; [rewrite (C97_first_call_sets_sampling ip (c22 None) (s22 None [0; 0; 0; 0]) [1; 0; 0; 0] (1 / 2) 4 sf0 s1 _ s2 [1; 3; 2; 1] 1 4 eq_refl eq_refl E0 R2 ltac:(lra)), (BN _ _ Q1); exact E|].
  split; [|split; [|split; [|split; [|exact V]]]].
  - repeat split; cbn; try lia; try constructor. discriminate.
  - split; [cbn; lra|]. intros i Hi. cbn in Hi. do 4 (destruct i as [|i]; [cbn; rewrite Rabs_R0; lra|]). lia.
  - intros i p H. cbn in H. discriminate.
  - intros a b H. cbn in H. contradiction.
Qed.
Print Assumptions C97_example.
