(* Proofs for C97: calls succeed; a small DM *)
From Verif Require Import Base StrBase RBase CtrlModel UtilModel UtilSpec UtilProofs DmModel DmSpec DmSurfModel DmSurfSpec DmSurfProofs CubModel DmcModel CBase PropModel PropSpec PropProofs OptModel LinBase DiffModel DiffSpec DiffProofs DiffProofs2 DiffProofs3 DiffProofs4 DiffProps RotModel GsfModel GsfSpec GsfProofs GsfProofs2 GsfProofs3 GsfProofs4.
Open Scope R_scope.
Lemma wrapper_ok c nact dx h mag : untilted c -> samples_per_act c mag -> g_spacing c <> 0 -> g_sign c = "+"%string -> dims nact nact h -> (1 <= nact)%nat -> exists m, wrapper c nact dx h = Ok m.
Proof.
  intros (T1 & T2 & T3) SM HS HG [D1 D2] Hn. destruct (mag_of c mag SM) as [EM ER]. destruct SM as (Hm & Hp & Hr). unfold wrapper. rewrite HG. change (sign_factor (Some "+"%string)) with (Ok 1 : res R). cbn [rbind]. cbv zeta. rewrite EM, ER, Nat2Z.id, D2.
  destruct (Rlt_dec _ _) as [L|]. { exfalso. rewrite INR_IZR_INZ, Rminus_diag_eq, Rabs_R0 in L by reflexivity. assert (0 < 1 / 10 ^ 8) by lra. lra. }
  destruct (Req_EM_T _ 0); [contradiction|]. assert (P : (1 <= wrapper_size nact mag)%nat) by (unfold wrapper_size; nia).
  destruct (pad_cropr_px (rscale 1 (of_rarr (i_map (g_file c)))) (wrapper_size nact mag) (wrapper_size nact mag) P P) as (ifn & -> & [I1 I2] & _). cbn [rbind].
  pose proof (C69_wrapper_fits nact mag Hn Hm) as F. assert (FA : act_fit (frows ifn) nact mag) by (now rewrite I1). assert (FB : act_fit (fcols ifn) nact mag) by (now rewrite I2).
  unfold rdm_init. match goal with |- context [dm_init ?a ?b ?c ?d ?e ?f ?g ?u] => destruct (commanded_holds a b d f g u [] h FA FB) as (m & EC & _); [constructor|split; auto|] end.
  unfold commanded in EC. cbn [updates] in EC. destruct (dm_init _ _ _ _ _ _ _ _) as [d|]; cbn [rbind] in EC |- *; [|discriminate].
  assert (RI : rot_init (frows ifn) (fcols ifn) (wrapper_rot (g_xt c) (g_yt c) (g_zr c)) (wrapper_order (g_xyz c)) = Ok None).
  { unfold rot_init, wrapper_rot, all_close0. cbn [length Nat.eqb orb rbind forallb]. rewrite T1, T2, T3, Rmult_0_r, Rabs_R0. destruct (Rle_dec 0 (1 / 100000000)); [reflexivity|lra]. }
  rewrite RI. cbn [rbind]. unfold rdm_update. cbn [r_dm]. rewrite EC. cbn [rbind]. eauto.
Qed.
Lemma new_ok ip c s dx n mag z d h : g_diff c = true -> q_dm s = None -> untilted c -> samples_per_act c mag -> (1 <= cNact (q_c s))%Z -> g_spacing c <> 0 -> g_sign c = "+"%string -> 0 < dx -> (1 <= n)%nat ->
  (1 <= z)%nat -> sample_width c mag = INR z * dx -> enforce (q_c s) = Ok d -> height_map c d = Ok h -> exists sf s', gen_surf ip c s dx n = Ok (sf, s') /\ q_c s' = d.
Proof.
  intros G Q U SM HN HS HG Hd Hn Hz HW E1 E2. rewrite gen_diff_eq by auto. destruct (Nat.eqb_spec n 0); [lia|]. rewrite E1. cbn [rbind]. rewrite E2, Q. cbn [rbind]. pose proof (enforce_nact _ _ E1) as N1. destruct (height_dims _ _ _ E2) as [N2 N3].
  set (nact := Z.to_nat (cNact d)). assert (HA : (1 <= nact)%nat) by (unfold nact; lia). assert (DH : dims nact nact (of_rarr h)) by (split; cbn; rewrite ?N2, ?N3; reflexivity).
  destruct (wrapper_ok c nact dx (of_rarr h) mag U SM HS HG DH HA) as (m & EW). rewrite EW. cbn [rbind]. destruct (wrapper_shape c nact dx (of_rarr h) m mag U SM (proj2 DH) HA EW) as (sg & ifn & ES & EP & [I1 I2] & EC & RP).
  pose proof SM as (Hm & _). pose proof (C69_wrapper_fits nact mag HA Hm) as F. assert (FA : act_fit (frows ifn) nact mag) by (now rewrite I1). assert (FB : act_fit (fcols ifn) nact mag) by (now rewrite I2).
  replace (sample_width c mag / dx) with (INR z) in EC by (rewrite HW; field; lra).
  destruct (commanded_holds ifn nact mag (IZR (wrapper_shift (g_xc c) nact mag)) (IZR (wrapper_shift (g_yc c) nact mag)) (INR z) [] (of_rarr h) FA FB) as (d' & EC' & H); [constructor|auto|]. rewrite EC in EC'. injection EC' as <-.
  destruct (render_fine _ _ _ _ _ z _ _ n FA FB Hz Hn H) as (sf & i & ER & _). rewrite (rrender_flat ip m n RP), ER. cbn [rbind fst snd]. eauto.
Qed.
(* ---- two by two actuators, one sample per actuator, influence function of one sample ---- *)
Definition c22 (o : option string) : gcfg := mkg (mkarr 2 2 (fun _ _ => 1)) None None o false (1 / 2) (1 / 2) 1 0 0 0 true "+" (mkinf (mkarr 1 1 (fun _ _ => 1)) 1 1) true.
Definition d22 (m : option (list bool)) (v : list R) : dmr := mkdmc 2 v [] m [0; 0; 0; 0] (-10) 10 [] [] [].
Lemma enforce22 m a b c d : (m = None \/ m = Some [false; false; false; false]) -> Rabs a <= 10 -> Rabs b <= 10 -> Rabs c <= 10 -> Rabs d <= 10 -> enforce (d22 m [a; b; c; d]) = Ok (d22 (Some [false; false; false; false]) [a; b; c; d]).
Proof.
  intros Hm Ha Hb Hc Hd. unfold enforce, enforce_constraints. assert (E : get_dead_map R (d22 m [a; b; c; d]) = Ok [false; false; false; false]) by (destruct Hm as [-> | ->]; reflexivity). rewrite E. cbn [rbind d22 cV zip_with length Nat.eqb combine map mask_dead biasMap cVmin cVmax pinned Vpinned tied].
  assert (L : forall x, Rabs x <= 10 -> Rltb (x + 0) (-10) = false /\ Rltb 10 (x + 0) = false). { intros x Hx. assert (B : -10 <= x <= 10) by (unfold Rabs in Hx; destruct (Rcase_abs x); lra). unfold Rltb. destruct (Rlt_dec (x + 0) (-10)); [lra|]. destruct (Rlt_dec 10 (x + 0)); [lra|auto]. }
  assert (L' : (forall P, DmModel.nonzero (fun x : R => P x) [a + 0; b + 0; c + 0; d + 0] = (if P (a + 0) then [0%Z] else []) ++ (if P (b + 0) then [1%Z] else []) ++ (if P (c + 0) then [2%Z] else []) ++ (if P (d + 0) then [3%Z] else []))%list) by (intros P; unfold DmModel.nonzero; cbn; destruct (P (a + 0)), (P (b + 0)), (P (c + 0)), (P (d + 0)); reflexivity).
  rewrite !L'. cbv beta. rewrite !(proj1 (L _ Ha)), !(proj1 (L _ Hb)), !(proj1 (L _ Hc)), !(proj1 (L _ Hd)), !(proj2 (L _ Ha)), !(proj2 (L _ Hb)), !(proj2 (L _ Hc)), !(proj2 (L _ Hd)). reflexivity.
Qed.
Lemma c22_untilted o : untilted (c22 o). Proof. repeat split. Qed.
Lemma c22_samples o : samples_per_act (c22 o) 1. Proof. split; [lia|]. cbn. split; lra. Qed.
Lemma c22_width o : sample_width (c22 o) 1 = 1. Proof. unfold sample_width. cbn. field. Qed.
Lemma shift22 : wrapper_shift (1 / 2) 2 1 = 0%Z.
Proof. unfold wrapper_shift. change (Z.of_nat 2 / 2)%Z with 1%Z. cbn [INR]. replace ((1 / 2 - 1 + 1 / 2) * 1) with 0 by field. unfold trunc. destruct (Rle_dec 0 0); [|lra]. replace 0 with (IZR 0) by reflexivity. rewrite Int_part_IZR. reflexivity. Qed.
Lemma ifn22 ifn : pad_cropr (rscale 1 (of_rarr (i_map (g_file (c22 None))))) 20 20 = Ok ifn -> dims 20 20 ifn /\ forall i j, (i < 20)%nat -> (j < 20)%nat -> fpx ifn i j = if Nat.eqb i 10 && Nat.eqb j 10 then 1 else 0.
Proof.
  intros E. destruct (pad_cropr_px (rscale 1 (of_rarr (i_map (g_file (c22 None))))) 20 20) as (O & EO & DO & V); [lia|lia|]. rewrite E in EO. injection EO as <-. split; [auto|]. intros i j Hi Hj. rewrite V by auto.
  cbn [rscale of_rarr c22 g_file i_map frows fcols nr nc fpx px]. change (Z.to_nat 1) with 1%nat.
  assert (CS : forall i, (i < 20)%nat -> crop_src 20 1 i = if Nat.eqb i 10 then Some 0%nat else None). { intros q Hq. unfold crop_src. change (Z.of_nat 1 / 2)%Z with 0%Z. change (Z.of_nat 20 / 2)%Z with 10%Z. destruct (Nat.eqb_spec q 10) as [->|]; [reflexivity|]. destruct (_ && _)%bool eqn:B; [lia|reflexivity]. }
  rewrite !CS by auto. destruct (Nat.eqb i 10), (Nat.eqb j 10); cbn [andb]; lra.
Qed.
Lemma mirror22 ifn h ky kx : pad_cropr (rscale 1 (of_rarr (i_map (g_file (c22 None))))) 20 20 = Ok ifn -> (-10 <= ky < 10)%Z -> (-10 <= kx < 10)%Z ->
  mirror ifn 2 1 0 0 h ky kx = rsum 2 (fun r => rsum 2 (fun c => fpx h r c * (if (ky =? Z.of_nat r - 1)%Z && (kx =? Z.of_nat c - 1)%Z then 1 else 0))).
Proof.
  intros E Hy Hx. destruct (ifn22 ifn E) as [[D1 D2] V]. unfold mirror. cbv zeta. rewrite D1, D2. change (Z.of_nat 20) with 20%Z. change (20 / 2)%Z with 10%Z. change (20 mod 2)%Z with 0%Z.
  destruct ((0 <=? 10 + ky) && (10 + ky <? 20) && (0 <=? 10 + kx) && (10 + kx <? 20))%Z eqn:B; [|lia]. unfold superposed. apply rsum_ext. intros r Hr. apply rsum_ext. intros c Hc. f_equal. unfold periodic. rewrite D1, D2. change (Z.of_nat 20) with 20%Z.
  assert (AP : forall q, act_pos 20 2 1 q = (9 + Z.of_nat q)%Z). { intros q. unfold act_pos. change (Nat.even 2) with true. cbv iota. change (Z.of_nat 20 / 2)%Z with 10%Z. change (Z.of_nat 2 / 2)%Z with 1%Z. change (Z.of_nat 1 / 2)%Z with 0%Z. lia. }
  rewrite !AP. change (20 / 2)%Z with 10%Z.
  rewrite V. 2-3: match goal with |- context [(?a mod 20)%Z] => pose proof (Z.mod_pos_bound a 20); lia end.
  assert (X : forall k q, (-10 <= k < 10)%Z -> (q < 2)%nat -> Nat.eqb (Z.to_nat ((10 + k + 0 - (9 + Z.of_nat q + 0) + 10) mod 20)) 10 = (k =? Z.of_nat q - 1)%Z).
  { intros k q Hk Hq. replace (10 + k + 0 - (9 + Z.of_nat q + 0) + 10)%Z with (11 + k - Z.of_nat q)%Z by lia. destruct (Z.eqb_spec k (Z.of_nat q - 1)) as [->|Hne].
    - replace (11 + (Z.of_nat q - 1) - Z.of_nat q)%Z with 10%Z by lia. reflexivity.
    - apply Nat.eqb_neq. intros Q. pose proof (Z.mod_pos_bound (11 + k - Z.of_nat q) 20 ltac:(lia)). pose proof (Z.div_mod (11 + k - Z.of_nat q) 20). assert (((11 + k - Z.of_nat q) mod 20 = 10)%Z) by lia. lia. }
  now rewrite !X by auto.
Qed.
Definition s22 (m : option (list bool)) (v : list R) : gst := mkgs (d22 m v) None None.
Lemma height22 c o flip k m v : c = c22 o -> (o = None /\ flip = false /\ k = 0%nat) \/ (exists q, o = Some q /\ In (lower q, (flip, k)) orientation_table) ->
  exists h, height_map c (d22 m v) = Ok h /\ forall r cc, (r < 2)%nat -> (cc < 2)%nat -> fpx (of_rarr h) (fst (place flip k 2 r cc)) (snd (place flip k 2 r cc)) = nth (r * 2 + cc) v 0.
Proof.
  intros -> [(-> & -> & ->)|(q & -> & HI)].
  - eexists. split; [reflexivity|]. intros r cc Hr Hc. cbn [place fst snd of_rarr fpx px c22 g_vtoh v_arr cNact d22 cV]. rewrite Rmult_1_l. f_equal. lia.
  - assert (E : exists h, height_map (c22 (Some q)) (d22 m v) = Ok h).
    { change (height_map (c22 (Some q)) (d22 m v)) with (orient_surf (Some q) (mkarr 2 2 (fun i j => 1 * px (v_arr (d22 m v)) i j))).
      destruct (orient_surf_ok q flip k (mkarr 2 2 (fun i j => 1 * px (v_arr (d22 m v)) i j)) 2 HI eq_refl eq_refl) as (h & E' & _). eauto. }
    destruct E as (h & E). exists h. split; [auto|]. intros r cc Hr Hc. destruct (heights_turned (c22 (Some q)) (d22 m v) q flip k h eq_refl eq_refl HI E) as (_ & _ & V); [cbn; lia|]. change (Z.to_nat (cNact (d22 m v))) with 2%nat in V. cbv zeta in V. rewrite (V r cc Hr Hc).
    cbn [of_rarr fpx px c22 g_vtoh d22 cV]. lra.
Qed.
Lemma surf22 ip o flip k m a b c d z dx n : (o = None /\ flip = false /\ k = 0%nat) \/ (exists q, o = Some q /\ In (lower q, (flip, k)) orientation_table) ->
  (m = None \/ m = Some [false; false; false; false]) -> Rabs a <= 10 -> Rabs b <= 10 -> Rabs c <= 10 -> Rabs d <= 10 -> (1 <= z)%nat -> INR z * dx = 1 -> (1 <= n)%nat ->
  exists sf s1, gen_surf ip (c22 o) (s22 m [a; b; c; d]) dx n = Ok (sf, s1) /\ q_c s1 = d22 (Some [false; false; false; false]) [a; b; c; d] /\ dims n n sf /\
    forall y x ky kx, (y < n)%nat -> (x < n)%nat -> (Z.of_nat y - Z.of_nat n / 2 = Z.of_nat z * ky)%Z -> (Z.of_nat x - Z.of_nat n / 2 = Z.of_nat z * kx)%Z -> (-10 <= ky < 10)%Z -> (-10 <= kx < 10)%Z ->
      fpx sf y x = rsum 2 (fun r => rsum 2 (fun cc => nth (r * 2 + cc) [a; b; c; d] 0 * (if (ky =? Z.of_nat (fst (place flip k 2 r cc)) - 1)%Z && (kx =? Z.of_nat (snd (place flip k 2 r cc)) - 1)%Z then 1 else 0))).
Proof.
  intros HO Hm Ha Hb Hc Hd Hz HW Hn. assert (Z1 : 1 <= INR z) by (replace 1 with (INR 1) by reflexivity; now apply le_INR). assert (P : 0 < dx) by nra.
  pose proof (enforce22 m a b c d Hm Ha Hb Hc Hd) as EE. destruct (height22 (c22 o) o flip k (Some [false; false; false; false]) [a; b; c; d] eq_refl HO) as (h & EH & VH).
  assert (W : sample_width (c22 o) 1 = INR z * dx) by (rewrite c22_width; lra).
  destruct (new_ok ip (c22 o) (s22 m [a; b; c; d]) dx n 1 z _ h eq_refl eq_refl (c22_untilted o) (c22_samples o) ltac:(cbn; lia) ltac:(cbn; lra) eq_refl P Hn Hz W EE EH) as (sf & s1 & E & EQ).
  exists sf, s1. split; [auto|]. split; [auto|].
  pose proof (new_surface ip (c22 o) (s22 m [a; b; c; d]) dx n sf s1 1 z eq_refl eq_refl (c22_untilted o) (c22_samples o) ltac:(cbn; lia) Hz W E) as X. cbv zeta in X.
  change (Z.to_nat (cNact (q_c (s22 m [a; b; c; d])))) with 2%nat in X. change (wrapper_size 2 1) with 20%nat in X. change (g_xc (c22 o)) with (1 / 2) in X. change (g_yc (c22 o)) with (1 / 2) in X. rewrite shift22 in X.
  destruct X as (sg & ifn & h' & ES & EP & EH' & DS & V). rewrite EQ, EH in EH'. injection EH' as <-. change (sign_factor (Some (g_sign (c22 o)))) with (Ok 1 : res R) in ES. injection ES as <-.
  split; [auto|]. intros y x ky kx Hy Hx Ey Ex Hk Hl. rewrite (V y x ky kx Hy Hx Ey Ex), (mirror22 ifn (of_rarr h) ky kx EP Hk Hl).
  rewrite (reindex flip k 2 (fun i j => fpx (of_rarr h) i j * (if (ky =? Z.of_nat i - 1)%Z && (kx =? Z.of_nat j - 1)%Z then 1 else 0))). apply rsum_ext. intros r Hr. apply rsum_ext. intros cc Hcc. cbv beta. now rewrite VH by auto.
Qed.
(* two by two pixels: the surface is the turned command *)
Lemma turned22 ip o flip k m a b c d : (o = None /\ flip = false /\ k = 0%nat) \/ (exists q, o = Some q /\ In (lower q, (flip, k)) orientation_table) ->
  (m = None \/ m = Some [false; false; false; false]) -> Rabs a <= 10 -> Rabs b <= 10 -> Rabs c <= 10 -> Rabs d <= 10 ->
  exists sf s1, gen_surf ip (c22 o) (s22 m [a; b; c; d]) 1 2 = Ok (sf, s1) /\ q_c s1 = d22 (Some [false; false; false; false]) [a; b; c; d] /\ dims 2 2 sf /\
    forall y x, (y < 2)%nat -> (x < 2)%nat ->
      fpx sf y x = rsum 2 (fun r => rsum 2 (fun cc => nth (r * 2 + cc) [a; b; c; d] 0 * (if Nat.eqb y (fst (place flip k 2 r cc)) && Nat.eqb x (snd (place flip k 2 r cc)) then 1 else 0))).
Proof.
  intros HO Hm Ha Hb Hc Hd. destruct (surf22 ip o flip k m a b c d 1 1 2 HO Hm Ha Hb Hc Hd) as (sf & s1 & E & Q & D & V); [lia|cbn; lra|lia|]. exists sf, s1. repeat (split; [auto|]). intros y x Hy Hx.
  rewrite (V y x (Z.of_nat y - 1)%Z (Z.of_nat x - 1)%Z Hy Hx); [|change (Z.of_nat 2 / 2)%Z with 1%Z; change (Z.of_nat 1) with 1%Z; lia|change (Z.of_nat 2 / 2)%Z with 1%Z; change (Z.of_nat 1) with 1%Z; lia|lia|lia].
  apply rsum_ext. intros r Hr. apply rsum_ext. intros cc Hcc. f_equal.
  assert (Z0 : forall p q, (Z.of_nat p - 1 =? Z.of_nat q - 1)%Z = Nat.eqb p q). { intros p q. destruct (Nat.eqb_spec p q) as [->|]; [apply Z.eqb_refl|]. apply Z.eqb_neq. lia. } now rewrite !Z0.
Qed.
