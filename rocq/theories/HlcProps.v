(* C76: focal-plane masks of a hybrid Lyot coronagraph looked up in thin-film tables (falco/hlc.py). *)
From Verif Require Import Base RBase StrBase CBase PropModel OptModel DiffModel SrcModel SrcProofs ThinModel FilmModel FilmProofs FilmProofs2 FilmProps TabModel TabProps HlcModel HlcSpec HlcProofs ResampProps DiffProps.
From Coq Require Import FunctionalExtensionality.
Open Scope R_scope.
(* The surface is the superposition of the influence functions at their positions, never below zero *)
Theorem C76_surface dm mt ic : model_of dm mt = Some ic -> well_formed dm ic -> exists s, gen_fpm_surf dm mt = Ok s /\ frows s = ic_pad ic /\ fcols s = ic_pad ic /\
  forall i j, 0 <= fpx s i j /\ fpx s i j = Rmax 0 (rsum (fd_act dm) (fun k => if passed_over dm ic k then 0 else contribution dm ic k i j)).
Proof. intros H W. destruct (surf_ok dm mt ic H W) as (s & E & R1 & C1 & P). exists s. repeat (split; [assumption|]). intros i j. rewrite P. split; [apply Rmax_l|reflexivity]. Qed.
(* The actuators passed over change no pixel by more than their command times 1e-8 of their gain, or 1e-12 of their influence *)
Theorem C76_surface_error dm mt ic s i j : model_of dm mt = Some ic -> well_formed dm ic -> gen_fpm_surf dm mt = Ok s ->
  Rabs (fpx s i j - Rmax 0 (rsum (fd_act dm) (fun k => contribution dm ic k i j))) <=
  rsum (fd_act dm) (fun k => if passed_over dm ic k then Rabs (nth k (fd_V dm) 0) * (Rabs (nth k (fd_vtoh dm) 0) * (1 / 100000000) + 1 / 1000000000000 * Rabs (stamp (the_inf ic k) (Z.of_nat i - ic_y ic k) (Z.of_nat j - ic_x ic k))) else 0).
Proof.
  intros H W E. destruct (surf_ok dm mt ic H W) as (s' & E' & _ & _ & P). rewrite E in E'. injection E' as <-. rewrite P. eapply Rle_trans; [apply Rmax_lip|]. rewrite rsum_minus. apply rsum_abs_le. intros k _.
  unfold passed_over. set (f := the_inf ic k). set (h := nth k (fd_vtoh dm) 0). set (v := nth k (fd_V dm) 0). unfold contribution. fold f h v. set (a := stamp f _ _). pose proof (Rabs_pos h) as Ph. pose proof (Rabs_pos v) as Pv. pose proof (Rabs_pos a) as Pa. assert (Q : Rabs a <= abs_sum f) by apply stamp_le.
  destruct (Rlt_dec (abs_sum f) (1 / 100000000)) as [Q1|Q1]; [|destruct (Rlt_dec (Rabs h) (1 / 1000000000000)) as [Q2|Q2]].
  - replace (0 - v * h * a) with (- (v * h * a)) by ring. rewrite Rabs_Ropp, !Rabs_mult, Rmult_assoc. apply Rmult_le_compat_l; [exact Pv|]. assert (Rabs h * Rabs a <= Rabs h * (1 / 100000000)) by (apply Rmult_le_compat_l; lra). lra.
  - replace (0 - v * h * a) with (- (v * h * a)) by ring. rewrite Rabs_Ropp, !Rabs_mult, Rmult_assoc. apply Rmult_le_compat_l; [exact Pv|]. assert (Rabs h * Rabs a <= 1 / 1000000000000 * Rabs a) by (apply Rmult_le_compat_r; lra). lra.
  - replace (v * h * a - v * h * a) with 0 by ring. rewrite Rabs_R0. lra.
Qed.
(* The index of a thickness always lies in the table and points at the nearest tabulated value, within half a step *)
Theorem C76_nearest surf t0 dt n : 0 < dt -> (0 < n)%nat -> exists d, discretize surf (steps t0 dt n) dt = Ok d /\ frows d = frows surf /\ fcols d = fcols surf /\
  forall i j, (0 <= fpx d i j < Z.of_nat n)%Z /\ let x := limited t0 (t0 + INR (n - 1) * dt) (1000000000 * fpx surf i j) in let t k := nth k (steps t0 dt n) 0 in
    Rabs (t (Z.to_nat (fpx d i j)) - x) <= dt / 2 /\ (forall k, (k < n)%nat -> Rabs (t (Z.to_nat (fpx d i j)) - x) <= Rabs (t k - x)) /\
    (forall k, (k < n)%nat -> 1000000000 * fpx surf i j = t k -> fpx d i j = Z.of_nat k).
Proof.
  intros D N. destruct (disc_ok surf t0 dt n D N) as (d & E & R1 & C1 & P). exists d. repeat (split; [assumption|]). intros i j. destruct (P i j) as [B V]. split; [exact B|]. cbv zeta.
  set (hi := t0 + INR (n - 1) * dt) in *. set (x := limited t0 hi (1000000000 * fpx surf i j)) in *. set (q := fpx d i j) in *.
  assert (TQ : nth (Z.to_nat q) (steps t0 dt n) 0 = t0 + IZR q * dt). { rewrite steps_nth by lia. rewrite INR_IZR_INZ, Z2Nat.id by lia. reflexivity. }
  pose proof (nround_near ((x - t0) / dt)) as NR. rewrite <- V in NR.
  assert (S : t0 + IZR q * dt - x = dt * (IZR q - (x - t0) / dt)) by (field; lra).
  split; [|split].
  - rewrite TQ, S, Rabs_mult, (Rabs_right dt) by lra. apply Rle_trans with (dt * / 2); [apply Rmult_le_compat_l; lra|lra].
  - intros k Hk. rewrite TQ, S, steps_nth by exact Hk. replace (t0 + INR k * dt - x) with (dt * (INR k - (x - t0) / dt)) by (field; lra). rewrite !Rabs_mult. apply Rmult_le_compat_l; [apply Rabs_pos|]. set (y := (x - t0) / dt) in *. rewrite INR_IZR_INZ.
    destruct (Z.eq_dec q (Z.of_nat k)) as [->|NE]; [lra|]. assert (X : 1 <= Rabs (IZR q - IZR (Z.of_nat k))). { rewrite <- minus_IZR, <- abs_IZR. apply (IZR_le 1). lia. }
    assert (Y : Rabs (IZR q - IZR (Z.of_nat k)) <= Rabs (IZR q - y) + Rabs (IZR (Z.of_nat k) - y)). { replace (IZR q - IZR (Z.of_nat k)) with ((IZR q - y) + - (IZR (Z.of_nat k) - y)) by ring. eapply Rle_trans; [apply Rabs_triang|]. rewrite Rabs_Ropp. lra. } lra.
  - intros k Hk HE. rewrite V. assert (X : x = t0 + INR k * dt). { unfold x. rewrite HE, steps_nth by exact Hk. assert (INR k <= INR (n - 1)) by (apply le_INR; lia). pose proof (pos_INR k). assert (L1 : t0 <= t0 + INR k * dt) by nra. assert (L2 : t0 + INR k * dt <= hi) by (unfold hi; nra). unfold limited, Rmin, Rmax. destruct (Rle_dec t0 _); [|lra]. destruct (Rle_dec hi _); lra. }
    rewrite X. replace ((t0 + INR k * dt - t0) / dt) with (IZR (Z.of_nat k)) by (rewrite <- INR_IZR_INZ; field; lra). apply nround_int.
Qed.
Lemma np_get_nth {A} (l : list A) k d : (0 <= k < Z.of_nat (length l))%Z -> np_get l k = Ok (nth (Z.to_nat k) l d).
Proof. intros H. apply np_get_in; [|lia]. apply nth_error_nth'. lia. Qed.
Lemma steps_len a d n : length (steps a d n) = n. Proof. unfold steps. now rewrite map_length, seq_length. Qed.
Lemma indices_ok p mt pad : ready p mt pad -> exists s8 s9 md dd, gen_fpm_surf (h_dm8 p) mt = Ok s8 /\ gen_fpm_surf (h_dm9 p) mt = Ok s9 /\ indices p mt = Ok (md, dd) /\ frows md = pad /\ fcols md = pad /\
  forall i j, (0 <= fpx md i j < Z.of_nat (length (h_metals p)))%Z /\ (0 <= fpx dd i j < Z.of_nat (length (h_diels p)))%Z /\
    nearest_in (h_metals p) (h_dmetal p) (fpx s8 i j) (Z.to_nat (fpx md i j)) /\ nearest_in (h_diels p) (h_ddiel p) (h_bias p * (1 / 1000000000) + fpx s9 i j) (Z.to_nat (fpx dd i j)).
Proof.
  intros ((c8 & M8 & W8 & P8) & (c9 & M9 & W9 & P9) & D1 & D2 & (a & n & N & EM) & (b & m & M & ED)).
  destruct (surf_ok _ _ _ M8 W8) as (s8 & E8 & R8 & C8 & _). destruct (surf_ok _ _ _ M9 W9) as (s9 & E9 & R9 & C9 & _).
  set (s9' := mkf (frows s9) (fcols s9) (fun i j => h_bias p * (1 / 1000000000) + fpx s9 i j)).
  destruct (C76_nearest s8 a (h_dmetal p) n D1 N) as (md & Em & Rm & Cm & Pm). destruct (C76_nearest s9' b (h_ddiel p) m D2 M) as (dd & Ed & Rd & Cd & Pd).
  exists s8, s9, md, dd. split; [exact E8|]. split; [exact E9|]. split.
  { unfold indices, thick_maps. rewrite E8, E9. cbn [rbind]. fold s9'. rewrite R8, C8, R9, C9, P8, P9, Nat.eqb_refl. cbn [negb rbind fst snd]. rewrite EM, ED, Em. cbn [rbind]. rewrite Ed. reflexivity. }
  split; [congruence|]. split; [congruence|]. intros i j. rewrite EM, ED, !steps_len. unfold nearest_in. rewrite !steps_len. destruct (Pm i j) as (X1 & X2 & _). destruct (Pd i j) as (Y1 & Y2 & _). cbn [fpx s9'] in Y2.
  rewrite !(steps_nth a (h_dmetal p) n 0), !(steps_nth b (h_ddiel p) m 0), !(steps_nth a (h_dmetal p) n (n - 1)), !(steps_nth b (h_ddiel p) m (m - 1)) by lia. change (INR 0) with 0. rewrite !Rmult_0_l, !Rplus_0_r.
  split; [exact X1|]. split; [exact Y1|]. split; (split; [lia|assumption]).
Qed.
Lemma forallb_ext {A} (f g : A -> bool) l : (forall x, f x = g x) -> forallb f l = forallb g l.
Proof. intros H. induction l as [|x l IH]; [reflexivity|]. cbn [forallb]. now rewrite H, IH. Qed.
Lemma grid_all (f : nat * nat -> bool) r c : (forall i j, f (i, j) = true) -> forallb f (grid r c) = true.
Proof. intros H. apply forallb_forall. intros [i j] _. apply H. Qed.
Lemma entry_in (tab : list slice) il id im (s : slice) : np_get tab il = Ok s -> (0 <= id < Z.of_nat (length s))%Z -> (forall row, In row s -> (0 <= im < Z.of_nat (length row))%Z) -> entry tab il id im = Ok (nth (Z.to_nat im) (nth (Z.to_nat id) s nil) (RtoC 0)).
Proof. intros E H1 H2. unfold entry. rewrite E. cbn [rbind]. rewrite (np_get_nth s id nil H1). cbn [rbind]. apply np_get_nth. apply H2. apply nth_In. lia. Qed.
Lemma lookup_ok p (tab : list slice) il (s : slice) md dd : np_get tab il = Ok s -> filled p s -> (forall i j, (0 <= fpx md i j < Z.of_nat (length (h_metals p)))%Z /\ (0 <= fpx dd i j < Z.of_nat (length (h_diels p)))%Z) ->
  exists m, lookup tab il md dd = Ok m /\ frows m = frows md /\ fcols m = fcols md /\ forall i j, fpx m i j = nth (Z.to_nat (fpx md i j)) (nth (Z.to_nat (fpx dd i j)) s nil) (RtoC 0).
Proof.
  intros E [F1 F2] B. assert (X : forall i j, entry tab il (fpx dd i j) (fpx md i j) = Ok (nth (Z.to_nat (fpx md i j)) (nth (Z.to_nat (fpx dd i j)) s nil) (RtoC 0))).
  { intros i j. destruct (B i j) as [B1 B2]. apply entry_in; [exact E|rewrite F1; exact B2|]. intros row Hr. rewrite (F2 row Hr). exact B1. }
  unfold lookup. rewrite grid_all by (intros i j; cbn [fst snd]; rewrite X; reflexivity). eexists. split; [reflexivity|]. cbn [frows fcols fpx]. split; [reflexivity|split; [reflexivity|]]. intros i j. rewrite X. reflexivity.
Qed.
(* Compact model: every pixel of the mask is the thin-film transmission, at the centre of the subband asked for, of tabulated thicknesses within half a step of the two layers *)
Theorem C76_compact_mask tb r p pad t si wi s8 s9 : ready p "compact" pad -> tr_metals r = h_metals p -> tr_diels r = h_diels p -> compute_compact tb r false = Ok t -> h_tabC p = t -> (si < tr_Nsbp r)%nat ->
  gen_fpm_surf (h_dm8 p) "compact" = Ok s8 -> gen_fpm_surf (h_dm9 p) "compact" = Ok s9 ->
  exists m, gen_fpm p (Z.of_nat si) wi "compact" = Ok m /\ frows m = pad /\ fcols m = pad /\ forall i j, exists km kd rr,
    nearest_in (h_metals p) (h_dmetal p) (fpx s8 i j) km /\ nearest_in (h_diels p) (h_ddiel p) (h_bias p * (1 / 1000000000) + fpx s9 i j) kd /\
    let lam := nth si (tr_centers r) 0 in
    calc_trans tb (mkti (tr_sub r) (tr_metal r) (tr_diel r) lam (tr_aoi r) (1 / 1000000000 * tr_tTi r) (lam * tr_d0fac r) 2 false) [1 / 1000000000 * nth km (h_metals p) 0] [1 / 1000000000 * nth kd (h_diels p) 0] = Ok [[(fpx m i j, rr)]].
Proof.
  intros RD TM TD CC TC Hs E8 E9. destruct (indices_ok p "compact" pad RD) as (s8' & s9' & md & dd & E8' & E9' & EI & Rm & Cm & B). rewrite E8 in E8'. injection E8' as <-. rewrite E9 in E9'. injection E9' as <-.
  destruct (C75_compact_slices tb r false t CC) as [LT ST]. destruct (ST si Hs) as [_ SL]. set (s := nth si t nil) in *. destruct (one_slice_ok _ _ _ _ _ SL) as [S1 S2].
  assert (G : np_get (h_tabC p) (Z.of_nat si) = Ok s). { rewrite TC. unfold s. rewrite <- (Nat2Z.id si) at 2. apply np_get_nth. lia. }
  destruct (lookup_ok p (h_tabC p) (Z.of_nat si) s md dd G) as (m & EL & R1 & C1 & V).
  { split; [rewrite S1, TD; reflexivity|]. intros row Hr. rewrite (S2 row Hr), TM. reflexivity. }
  { intros i j. destruct (B i j) as (B1 & B2 & _). auto. }
  exists m. split. { unfold gen_fpm, choose_model. cbn [lower]. change (String.eqb (lower "compact") "compact") with true. cbn [rbind]. rewrite EI. cbn [rbind fst snd]. exact EL. }
  split; [congruence|]. split; [congruence|]. intros i j. destruct (B i j) as (B1 & B2 & B3 & B4). exists (Z.to_nat (fpx md i j)), (Z.to_nat (fpx dd i j)).
  unfold one_slice in SL. cbv zeta. set (a := mkti _ _ _ _ _ _ _ _ _) in *. destruct (calc_trans tb a _ _) as [mm|] eqn:CT; [|discriminate]. cbn [rbind] in SL. injection SL as SL. rewrite TM, TD in CT.
  pose proof (C74_entrywise tb a _ _ mm (Z.to_nat (fpx dd i j)) (Z.to_nat (fpx md i j)) CT) as EW. rewrite !map_length in EW. specialize (EW ltac:(lia) ltac:(lia)).
  assert (NM : forall k l, (k < length l)%nat -> nth k (map (fun t => 1 / 1000000000 * t) l) 0 = 1 / 1000000000 * nth k l 0). { intros k l Hk. rewrite (nth_indep _ 0 (1 / 1000000000 * 0)) by (rewrite map_length; exact Hk). now rewrite (map_nth (fun t => 1 / 1000000000 * t)). }
  rewrite !NM in EW by lia. rewrite EW. set (e := nth (Z.to_nat (fpx md i j)) (nth (Z.to_nat (fpx dd i j)) mm nil) (RtoC 0, RtoC 0)). exists (snd e). split; [exact B3|]. split; [exact B4|]. do 3 f_equal.
  assert (X : fpx m i j = fst e). { rewrite V, <- SL. change (@nil C) with (map (@fst C C) nil). rewrite map_nth. change (RtoC 0) with (fst (RtoC 0, RtoC 0)) at 1. rewrite map_nth. reflexivity. }
  rewrite X. now rewrite <- surjective_pairing.
Qed.
(* the cube holds the same masks, one per subband *)
Theorem C76_cube_slices p q si wi : gen_fpm_cube p "compact" = Ok q -> length q = length (h_lamC p) /\ ((si < length q)%nat -> gen_fpm p (Z.of_nat si) wi "compact" = Ok (nth si q (mkf 0 0 (fun _ _ => RtoC 0)))).
Proof.
  unfold gen_fpm_cube, gen_fpm, choose_model. change (String.eqb (lower "compact") "compact") with true. cbn [rbind]. destruct (indices p "compact") as [ii|]; [|discriminate]. cbn [rbind]. intros H. pose proof (mapr_len _ _ _ H) as L. rewrite seq_length in L. split; [exact L|]. intros Hs.
  pose proof (mapr_nth _ _ _ 0%nat (mkf 0 0 (fun _ _ => RtoC 0)) si H) as E. rewrite seq_length in E. specialize (E ltac:(lia)). rewrite seq_nth in E by lia. exact E.
Qed.
(* Once a Jacobian has been computed the compact model's mask is fixed: whatever is done to the mask afterwards, the compact model and later Jacobians use the masks of that moment *)
Theorem C76_compact_frozen p q p' si : jac_cube p None = Ok q -> (0 <= si < Z.of_nat (length q))%Z -> jac_cube p' (Some q) = Ok q /\ compact_mask p' (Some q) si = compact_mask p None si.
Proof.
  intros H Hs. split; [reflexivity|]. unfold jac_cube in H. cbn [compact_mask]. destruct (C76_cube_slices p q (Z.to_nat si) (-1) H) as [_ E]. rewrite Z2Nat.id in E by lia. rewrite E by lia. apply np_get_nth. lia.
Qed.
(* Full model: the mask of wavelength wi of subband si is looked up one subband too low (cyclically) *)
Theorem C76_full_previous_subband p Ns si wi : length (h_tabF p) = (Ns * h_Nwp p)%nat -> (0 <= si < Z.of_nat Ns)%Z -> (0 <= wi < Z.of_nat (h_Nwp p))%Z ->
  let prev := ((si - 1) mod Z.of_nat Ns)%Z in
  gen_fpm p si wi "full" = (do ii <- indices p "full"; lookup (h_tabF p) (prev * Z.of_nat (h_Nwp p) + wi)%Z (fst ii) (snd ii)) /\
  (prev = si <-> Ns = 1%nat).
Proof.
  intros L H1 H2 prev.
  assert (PV : (si = 0 /\ prev = Z.of_nat Ns - 1 \/ 0 < si /\ prev = si - 1)%Z).
  { unfold prev. destruct (Z.eq_dec si 0) as [->|N]; [left; split; [reflexivity|]|right; split; [lia|apply Z.mod_small; lia]]. replace (0 - 1)%Z with (Z.of_nat Ns - 1 + (-1) * Z.of_nat Ns)%Z by lia. rewrite Z.mod_add by lia. apply Z.mod_small. lia. }
  split; [|lia]. unfold gen_fpm, choose_model. change (String.eqb (lower "full") "compact") with false. change (String.eqb (lower "full") "full") with true. cbn [rbind]. destruct (indices p "full") as [ii|]; [|reflexivity]. cbn [rbind].
  destruct PV as [[E0 EP]|[E0 EP]]; [|rewrite EP; reflexivity]. rewrite EP, E0.
  assert (SH : np_get (h_tabF p) ((0 - 1) * Z.of_nat (h_Nwp p) + wi) = np_get (h_tabF p) ((Z.of_nat Ns - 1) * Z.of_nat (h_Nwp p) + wi)). { rewrite np_get_neg by (rewrite ?L; nia). f_equal. rewrite L. nia. }
  unfold lookup. assert (EE : forall a b, entry (h_tabF p) ((0 - 1) * Z.of_nat (h_Nwp p) + wi) a b = entry (h_tabF p) ((Z.of_nat Ns - 1) * Z.of_nat (h_Nwp p) + wi) a b) by (intros; unfold entry; now rewrite SH).
  rewrite (forallb_ext _ (fun ij => oks (entry (h_tabF p) ((Z.of_nat Ns - 1) * Z.of_nat (h_Nwp p) + wi) (fpx (snd ii) (fst ij) (snd ij)) (fpx (fst ii) (fst ij) (snd ij))))) by (intros; now rewrite EE).
  destruct (forallb _ _); [|reflexivity]. f_equal. f_equal. apply functional_extensionality. intros i. apply functional_extensionality. intros j. now rewrite EE.
Qed.

(* With distinct wavelengths only (as falco sets them up) the first subband falls on slices that were never filled: the mask is opaque everywhere *)
Theorem C76_first_subband_opaque tb r p pad t wi : ready p "full" pad -> tr_metals r = h_metals p -> tr_diels r = h_diels p -> tr_Nwp r = h_Nwp p -> compute_full tb r false = Ok t -> h_tabF p = t ->
  (length (tr_lambdas r) = tr_Nsbp r * (h_Nwp p - 1) + 1)%nat -> (1 < tr_Nsbp r)%nat -> (0 <= wi < Z.of_nat (h_Nwp p))%Z -> (Z.of_nat (h_Nwp p) - Z.of_nat (tr_Nsbp r) + 1 <= wi)%Z ->
  exists m, gen_fpm p 0 wi "full" = Ok m /\ frows m = pad /\ fcols m = pad /\ forall i j, fpx m i j = RtoC 0.
Proof.
  intros RD TM TD TW CF TF LL NS HW HO. destruct (C75_full_slices tb r false t CF) as (_ & LT & _ & ZS). rewrite TW in *. set (Nw := h_Nwp p) in *. set (Ns := tr_Nsbp r) in *.
  destruct (C76_full_previous_subband p Ns 0 wi) as [E _]; [rewrite TF; exact LT|lia|exact HW|]. cbv zeta in E. fold Nw in E. replace ((0 - 1) mod Z.of_nat Ns)%Z with (Z.of_nat Ns - 1)%Z in E.
  2:{ replace (0 - 1)%Z with (Z.of_nat Ns - 1 + (-1) * Z.of_nat Ns)%Z by lia. rewrite Z.mod_add by lia. symmetry. apply Z.mod_small. lia. }
  destruct (indices_ok p "full" pad RD) as (s8 & s9 & md & dd & _ & _ & EI & Rm & Cm & B). rewrite EI in E. cbn [rbind fst snd] in E.
  set (k := ((Z.of_nat Ns - 1) * Z.of_nat Nw + wi)%Z) in *.
  assert (K : (Z.of_nat (length (tr_lambdas r)) <= k < Z.of_nat (Ns * Nw))%Z) by (rewrite LL; unfold k; nia).
  assert (G : np_get (h_tabF p) k = Ok (zero_slice r)). { rewrite TF, <- (ZS (Z.to_nat k)) by lia. apply np_get_nth. lia. }
  destruct (lookup_ok p (h_tabF p) k (zero_slice r) md dd G) as (m & EL & R1 & C1 & V).
  { unfold zero_slice. split; [rewrite repeat_length, TD; reflexivity|]. intros row Hr. apply repeat_spec in Hr. subst row. rewrite repeat_length, TM. reflexivity. }
  { intros i j. destruct (B i j) as (B1 & B2 & _). auto. }
  exists m. split; [rewrite E; exact EL|]. split; [congruence|]. split; [congruence|]. intros i j. rewrite V. destruct (B i j) as (B1 & B2 & _). unfold zero_slice. rewrite TM, TD. rewrite (nth_indep _ nil (repeat (RtoC 0) (length (h_metals p)))) by (rewrite repeat_length; lia). rewrite nth_repeat. apply nth_repeat.
Qed.
(* a mask of one pixel, one actuator per layer, metal 0 or 1 nm, dielectric 0 or 1 nm; one influence function of height 1 *)
Definition tiny_dm (v : R) : fpmdm := mkfd 1 [v] [1 / 1000000000] (mkic 1 1 [mkf 1 1 (fun _ _ => 1)] (fun _ => 0%Z) (fun _ => 0%Z)) (mkic 1 1 [mkf 1 1 (fun _ _ => 1)] (fun _ => 0%Z) (fun _ => 0%Z)).
Definition tiny (v : R) : hlc := mkhlc (tiny_dm v) (tiny_dm 0) 0 (steps 0 1 2) 1 (steps 0 1 2) 1 1 [[[RtoC 1; RtoC 2]; [RtoC 3; RtoC 4]]] [[[RtoC 1; RtoC 2]; [RtoC 3; RtoC 4]]] [1 / 2000000] [1 / 2000000].
Lemma tiny_wf v : well_formed (tiny_dm v) (fd_comp (tiny_dm v)).
Proof. split; [cbn; lia|]. split; [cbn; lia|]. split; [cbn; lia|]. intros k Hk. cbn in Hk. cbn [fd_comp tiny_dm ic_x ic_y ic_box ic_pad ic_inf]. split; [lia|]. intros f Hf. assert (k = 0%nat) by lia. subst k. cbn in Hf. injection Hf as <-. auto. Qed.
Lemma tiny_ready v : ready (tiny v) "compact" 1.
Proof. split; [exists (fd_comp (tiny_dm v)); split; [reflexivity|split; [apply tiny_wf|reflexivity]]|]. split; [exists (fd_comp (tiny_dm 0)); split; [reflexivity|split; [apply tiny_wf|reflexivity]]|]. cbn [tiny h_dmetal h_ddiel h_metals h_diels]. split; [lra|]. split; [lra|]. split; exists 0, 2%nat; (split; [lia|reflexivity]). Qed.
Lemma tiny_surf v : 0 <= v -> exists s, gen_fpm_surf (tiny_dm v) "compact" = Ok s /\ fpx s 0%nat 0%nat = v * (1 / 1000000000).
Proof.
  intros Hv. destruct (surf_ok (tiny_dm v) "compact" (fd_comp (tiny_dm v)) eq_refl (tiny_wf v)) as (s & E & _ & _ & P). exists s. split; [exact E|]. rewrite P. cbn [rsum fd_act tiny_dm]. unfold passed_over, the_inf, contribution, stamp, abs_sum. cbn. rewrite !Rabs_R1. destruct (Rlt_dec (0 + (0 + 1)) (1 / 100000000)); [lra|]. rewrite Rabs_right by lra. destruct (Rlt_dec (1 / 1000000000) (1 / 1000000000000)); [lra|]. rewrite Rmax_right by lra. lra.
Qed.
Lemma tiny_mask (k : nat) : (k < 2)%nat -> exists m, gen_fpm (tiny (INR k)) 0 (-1) "compact" = Ok m /\ fpx m 0%nat 0%nat = RtoC (1 + INR k).
Proof.
  intros Hk. destruct (tiny_surf (INR k) (pos_INR k)) as (s8 & E8 & V8). destruct (tiny_surf 0 (Rle_refl 0)) as (s9 & E9 & V9). set (s9' := mkf (frows s9) (fcols s9) (fun i j => 0 * (1 / 1000000000) + fpx s9 i j)).
  destruct (indices_ok _ _ _ (tiny_ready (INR k))) as (s8' & s9'' & md & dd & E8' & E9' & EI & Rm & Cm & B). cbn [tiny h_dm8 h_dm9] in E8', E9'. rewrite E8 in E8'. injection E8' as <-. rewrite E9 in E9'. injection E9' as <-.
  destruct (C76_nearest s8 0 1 2 ltac:(lra) ltac:(lia)) as (d8 & D8 & _ & _ & P8). destruct (C76_nearest s9' 0 1 2 ltac:(lra) ltac:(lia)) as (d9 & D9 & _ & _ & P9).
  assert (X : md = d8 /\ dd = d9).
  { pose proof EI as EI'. unfold indices, thick_maps in EI'. cbn [tiny h_dm8 h_dm9 h_bias h_metals h_dmetal h_diels h_ddiel] in EI'. rewrite E8, E9 in EI'. cbn [rbind] in EI'. destruct (negb _); [discriminate|]. cbn [rbind fst snd] in EI'. fold s9' in EI'. rewrite D8 in EI'. cbn [rbind] in EI'. rewrite D9 in EI'. cbn [rbind] in EI'. injection EI' as <- <-. auto. }
  destruct X as [-> ->].
  destruct (P8 0%nat 0%nat) as (_ & _ & _ & Q8). specialize (Q8 k Hk). destruct (P9 0%nat 0%nat) as (_ & _ & _ & Q9). specialize (Q9 0%nat ltac:(lia)).
  assert (I8 : fpx d8 0%nat 0%nat = Z.of_nat k). { apply Q8. rewrite V8, steps_nth by exact Hk. lra. }
  assert (I9 : fpx d9 0%nat 0%nat = 0%Z). { apply Q9. unfold s9'. cbn [fpx]. rewrite V9, steps_nth by lia. cbn [INR]. lra. }
  destruct (lookup_ok (tiny (INR k)) (h_tabC (tiny (INR k))) 0 [[RtoC 1; RtoC 2]; [RtoC 3; RtoC 4]] d8 d9 eq_refl) as (m & EL & _ & _ & V).
  { split; [reflexivity|]. intros row [<-|[<-|[]]]; reflexivity. }
  { intros i j. destruct (B i j) as (B1 & B2 & _). auto. }
  exists m. split. { unfold gen_fpm, choose_model. change (String.eqb (lower "compact") "compact") with true. cbn [rbind]. rewrite EI. cbn [rbind fst snd]. exact EL. }
  rewrite V, I8, I9, Nat2Z.id. change (Z.to_nat 0) with 0%nat. destruct k as [|[|k]]; [|  |lia]; cbn [nth INR]; f_equal; ring.
Qed.
(* so the compact model's mask goes stale: after a Jacobian with 0 nm of metal, 1 nm of metal still gives the old transmission *)
Theorem C76_stale_mask_example : exists q m0 m1, jac_cube (tiny 0) None = Ok q /\ compact_mask (tiny 1) (Some q) 0 = Ok m0 /\ compact_mask (tiny 1) None 0 = Ok m1 /\ fpx m0 0%nat 0%nat = RtoC 1 /\ fpx m1 0%nat 0%nat = RtoC 2.
Proof.
  destruct (tiny_mask 0 ltac:(lia)) as (m0 & E0 & V0). destruct (tiny_mask 1 ltac:(lia)) as (m1 & E1 & V1). cbn [INR] in *. exists [m0], m0, m1.
  split. { unfold jac_cube, gen_fpm_cube, choose_model. unfold gen_fpm, choose_model in E0. change (String.eqb (lower "compact") "compact") with true in *. cbn [rbind] in *. destruct (indices (tiny 0) "compact") as [ii|]; [|discriminate]. cbn [rbind] in *. cbn [tiny h_lamC length seq mapr]. change (Z.of_nat 0) with 0%Z. rewrite E0. reflexivity. }
  split; [reflexivity|]. split; [exact E1|]. rewrite V0, V1. split; f_equal; ring.
Qed.
