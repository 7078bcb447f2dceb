(* C94: rotation and projection of the differentiable DM *)
From Verif Require Import Base RBase CBase PropModel OptModel LinBase DiffModel DiffSpec DiffProofs2 DiffProofs3 DiffProofs4 DmcModel DmcProps ZrnProofs RotModel RotProofs RotProofs2.
Open Scope R_scope.

(* ---- specification ---- *)
Definition p3 : Type := (R * R * R)%type.
(* right-handed turns about the axes *)
Definition rh_x (a : R) (v : p3) : p3 := let '(x, y, z) := v in (x, y * cos a - z * sin a, y * sin a + z * cos a).
Definition rh_y (b : R) (v : p3) : p3 := let '(x, y, z) := v in (x * cos b + z * sin b, y, - x * sin b + z * cos b).
Definition rh_z (g : R) (v : p3) : p3 := let '(x, y, z) := v in (x * cos g - y * sin g, x * sin g + y * cos g, z).
(* about Z, then Y, then X; or about X, then Y, then Z *)
Definition rh_turns (zyx : bool) (g b a : R) (v : p3) : p3 := if zyx then rh_x a (rh_y b (rh_z g v)) else rh_z g (rh_y b (rh_x a v)).
Definition mat_apply (M : mat) (v : p3) : p3 := let '(x, y, z) := v in
  let o i := M i 0%nat * x + M i 1%nat * y + M i 2%nat * z in (o 0%nat, o 1%nat, o 2%nat).
Definition rad (d : R) : R := d * PI / 180.
(* the interpolation gives back samples at their own places *)
Definition ip_exact (ip : interp) : Prop := forall f y x, (y < frows f)%nat -> (x < fcols f)%nat -> ip f (INR y) (INR x) = fpx f y x.
(* it gives 0 outside the image *)
Definition ip_outside (ip : interp) : Prop := forall f y x, y < 0 \/ INR (frows f) <= y \/ x < 0 \/ INR (fcols f) <= x -> ip f y x = 0.
(* a flat image stays flat *)
Definition ip_flat (ip : interp) : Prop := forall f k y x, (forall i j, (i < frows f)%nat -> (j < fcols f)%nat -> fpx f i j = k) -> 0 <= y <= INR (frows f) - 1 -> 0 <= x <= INR (fcols f) - 1 -> ip f y x = k.
(* a rotated DM that has been initialised, given the commands hist and last the command a *)
Fixpoint rupdates (d : rdm) (l : list (field R)) : res rdm := match l with [] => Ok d | a :: r => do d' <- rdm_update d a; rupdates d' r end.
Definition rcommanded (ifn : field R) (nact sep : nat) (shx shy up : R) (rot : list R) (order : option bool) (hist : list (field R)) (a : field R) : res rdm :=
  do d <- rdm_init ifn nact nact sep sep shx shy up rot order; do d' <- rupdates d hist; rdm_update d' a.

(* ---- the rotation matrix ---- *)
Theorem C94_rotation_matrix : forall (l : list R) (zyx radians : bool), (length l <= 3)%nat ->
  let ang k := if radians then nth k l 0 else rad (nth k l 0) in
  exists M, rotation_matrix l zyx radians = Ok M /\
    (forall v, mat_apply M v = rh_turns zyx (ang 0%nat) (ang 1%nat) (ang 2%nat) v) /\
    (forall i j, (i < 3)%nat -> (j < 3)%nat -> rsum 3 (fun k => M k i * M k j) = if Nat.eqb i j then 1 else 0) /\ det3 M = 1.
Proof.
  intros l zyx radians HL ang. unfold rotation_matrix. destruct (Nat.ltb_spec 3 (length l)); [lia|]. cbv zeta.
  replace (if radians then nth 0 l 0 else nth 0 l 0 * PI / 180) with (ang 0%nat) by reflexivity.
  replace (if radians then nth 1 l 0 else nth 1 l 0 * PI / 180) with (ang 1%nat) by reflexivity.
  replace (if radians then nth 2 l 0 else nth 2 l 0 * PI / 180) with (ang 2%nat) by reflexivity.
  set (g := ang 0%nat). set (b := ang 1%nat). set (a := ang 2%nat). eexists. split; [reflexivity|].
  pose proof (sin2_cos2 g) as G. pose proof (sin2_cos2 b) as B. pose proof (sin2_cos2 a) as A. unfold Rsqr in *.
  assert (Cg : cos g * cos g = 1 - sin g * sin g) by lra. assert (Cb : cos b * cos b = 1 - sin b * sin b) by lra. assert (Ca : cos a * cos a = 1 - sin a * sin a) by lra.
  repeat split.
  - intros [[x y] z]. destruct zyx; unfold mat_apply, rh_turns, rh_x, rh_y, rh_z, mmul, mat_x, mat_y, mat_z, mrow; cbn; f_equal; [f_equal| |f_equal|]; ring.
  - intros i j Hi Hj. destruct i as [|[|[|i]]]; [| | |lia]; (destruct j as [|[|[|j]]]; [| | |lia]);
      destruct zyx; unfold mmul, mat_x, mat_y, mat_z, mrow; cbn; ring [Ca Cb Cg].
  - destruct zyx; unfold det3, mmul, mat_x, mat_y, mat_z, mrow; cbn; ring [Ca Cb Cg].
Qed.
Print Assumptions C94_rotation_matrix.

Lemma rot_block l zyx : (length l <= 3)%nat -> exists M, rotation_matrix l zyx false = Ok M /\
  (forall x y, exists z, rh_turns zyx (rad (nth 0 l 0)) (rad (nth 1 l 0)) (rad (nth 2 l 0)) (x, y, 0) = (M 0%nat 0%nat * x + M 0%nat 1%nat * y, M 1%nat 0%nat * x + M 1%nat 1%nat * y, z)) /\
  M 0%nat 0%nat * M 1%nat 1%nat - M 0%nat 1%nat * M 1%nat 0%nat = cos (rad (nth 1 l 0)) * cos (rad (nth 2 l 0)).
Proof.
  intros HL. unfold rotation_matrix. destruct (Nat.ltb_spec 3 (length l)); [lia|]. cbv zeta. fold (rad (nth 0 l 0)). fold (rad (nth 1 l 0)). fold (rad (nth 2 l 0)).
  set (g := rad (nth 0 l 0)). set (b := rad (nth 1 l 0)). set (a := rad (nth 2 l 0)). eexists. split; [reflexivity|].
  pose proof (sin2_cos2 g) as G. unfold Rsqr in *. assert (Cg : cos g * cos g = 1 - sin g * sin g) by lra. split.
  - intros x y. destruct zyx; eexists; unfold rh_turns, rh_x, rh_y, rh_z, mmul, mat_x, mat_y, mat_z, mrow; cbn; (apply f_equal2; [apply f_equal2; ring|reflexivity]).
  - destruct zyx; unfold mmul, mat_x, mat_y, mat_z, mrow; cbn; ring [Cg].
Qed.

(* ---- projection ---- *)
(* the pixel at column x, row y shows the point of the DM that the turns, about the middle of the array, bring there; the reverse
   coordinates are the inverse map; an edge-on DM is refused *)
Theorem C94_projection : forall rows cols (l : list R) (zyx : bool), (length l <= 3)%nat -> cos (rad (nth 1 l 0)) * cos (rad (nth 2 l 0)) <> 0 ->
  exists fwd rev, projection rows cols l zyx = Ok (fwd, rev) /\
    (forall x y xs ys, fwd x y = (xs, ys) <->
       exists z, rh_turns zyx (rad (nth 0 l 0)) (rad (nth 1 l 0)) (rad (nth 2 l 0)) (xs - INR cols / 2, ys - INR rows / 2, 0) = (x - INR cols / 2, y - INR rows / 2, z)) /\
    (forall x y xs ys, rev xs ys = (x, y) <-> fwd x y = (xs, ys)).
Proof.
  intros rows cols l zyx HL HD. unfold projection. destruct (rot_block l zyx HL) as (M & -> & HM & HDet). cbn [rbind].
  change (drop_z (mmul 4 (translation (INR cols / 2) (INR rows / 2)) (mmul 4 (promote M) (translation (- (INR cols / 2)) (- (INR rows / 2)))))) with (fwd_of M (INR cols / 2) (INR rows / 2)).
  destruct (inv_apply M (INR cols / 2) (INR rows / 2)) as (B & -> & HB); [now rewrite HDet|]. cbn [rbind].
  exists (apply_homography B), (apply_homography (fwd_of M (INR cols / 2) (INR rows / 2))). split; [reflexivity|]. split.
  - intros x y xs ys. rewrite HB. unfold aff. destruct (HM (xs - INR cols / 2) (ys - INR rows / 2)) as (z & ->). split.
    + intros E. injection E as <- <-. exists z. f_equal. f_equal; ring.
    + intros (z' & E). injection E as E1 E2 _. f_equal; lra.
  - intros x y xs ys. rewrite fwd_apply, HB. tauto.
Qed.
Print Assumptions C94_projection.
Theorem C94_edge_on : forall rows cols (l : list R) (zyx : bool), (length l <= 3)%nat -> cos (rad (nth 1 l 0)) * cos (rad (nth 2 l 0)) = 0 -> projection rows cols l zyx = Raise LinAlgError.
Proof.
  intros rows cols l zyx HL HD. unfold projection. destruct (rot_block l zyx HL) as (M & -> & HM & HDet). cbn [rbind].
  change (drop_z (mmul 4 (translation (INR cols / 2) (INR rows / 2)) (mmul 4 (promote M) (translation (- (INR cols / 2)) (- (INR rows / 2)))))) with (fwd_of M (INR cols / 2) (INR rows / 2)).
  unfold inv3. destruct (Req_EM_T _ _) as [E|E]; [reflexivity|]. exfalso. apply E. now rewrite det_fwd, HDet.
Qed.
Print Assumptions C94_edge_on.
(* too many angles *)
Theorem C94_four_angles : forall rows cols (l : list R) (zyx : bool), (3 < length l)%nat -> projection rows cols l zyx = Raise ValueError.
Proof. intros rows cols l zyx H. unfold projection, rotation_matrix. destruct (Nat.ltb_spec 3 (length l)); [reflexivity|lia]. Qed.
Print Assumptions C94_four_angles.

(* the differentiable DM and the PROPER-based DM, given the same tilts, clocking and order, show the same point of the DM in the same place:
   the wrapper's tilts have the opposite sign, which does not matter for the projection of a plane *)
Theorem C94_agrees_with_proper : forall rows cols xtilt ytilt zrot (XYZ : bool) fwd rev, proper_tilt XYZ (rad xtilt) (rad ytilt) (rad zrot) ->
  rot_init rows cols (wrapper_rot xtilt ytilt zrot) (wrapper_order XYZ) = Ok (Some (fwd, rev)) ->
  forall x y, back_project (tilt_m XYZ (rad xtilt) (rad ytilt) (rad zrot)) (x - INR cols / 2) (y - INR rows / 2) = (fst (fwd x y) - INR cols / 2, snd (fwd x y) - INR rows / 2).
Proof.
  intros rows cols xt yt zr XYZ fwd0 rev0 HP HI. pose proof HP as (A & B & G & _).
  destruct (C94_projection rows cols (wrapper_rot xt yt zr) (negb XYZ)) as (fwd & rev & E & HF & _).
  { cbn. lia. } { cbn [wrapper_rot nth]. now apply Rmult_integral_contrapositive_currified. }
  assert (EQ : fwd0 = fwd).
  { unfold rot_init, wrapper_order in HI. destruct (all_close0 _) as [[]|]; cbn [rbind] in HI; try discriminate. rewrite E in HI. cbn [rbind] in HI. now injection HI. }
  subst fwd0. intros x y. destruct (fwd x y) as [xs ys] eqn:EF. apply HF in EF. destruct EF as (z & EF). cbn [fst snd].
  apply C89_projection; [exact HP|]. cbn [wrapper_rot nth] in EF.
  replace (rad (-1 * zr)) with (- rad zr) in EF by (unfold rad; field).
  revert EF. unfold rh_turns, turned. set (X := xs - INR cols / 2). set (Y := ys - INR rows / 2).
  destruct XYZ; cbn [negb]; unfold rh_x, rh_y, rh_z, turn_x, turn_y, turn_z; rewrite cos_neg, sin_neg; intros E1; injection E1 as E1 E2 _; eexists; f_equal; f_equal; rewrite <- ?E1, <- ?E2; ring.
Qed.

Print Assumptions C94_agrees_with_proper.
(* when the projection is used *)
Theorem C94_when : forall rows cols g b a zyx, cos (rad b) * cos (rad a) <> 0 ->
  (Rabs g <= 1 / 100000000 /\ Rabs b <= 1 / 100000000 /\ Rabs a <= 1 / 100000000 -> forall order, rot_init rows cols [g; b; a] order = Ok None) /\
  (~ (Rabs g <= 1 / 100000000 /\ Rabs b <= 1 / 100000000 /\ Rabs a <= 1 / 100000000) ->
     rot_init rows cols [g; b; a] None = Raise ValueError /\
     exists p, projection rows cols [g; b; a] zyx = Ok p /\ rot_init rows cols [g; b; a] (Some zyx) = Ok (Some p)).
Proof.
  intros rows cols g b a zyx HD. unfold rot_init, all_close0. cbn [length Nat.eqb orb forallb rbind andb]. split.
  - intros (H1 & H2 & H3) order. destruct (Rle_dec (Rabs g) _); [|contradiction]. destruct (Rle_dec (Rabs b) _); [|contradiction]. destruct (Rle_dec (Rabs a) _); [reflexivity|contradiction].
  - intros HN. destruct (C94_projection rows cols [g; b; a] zyx) as (f & r & E & _); [cbn; lia|exact HD|]. rewrite E. cbn [rbind].
    destruct (Rle_dec (Rabs g) _); [destruct (Rle_dec (Rabs b) _); [destruct (Rle_dec (Rabs a) _); [exfalso; tauto|]|]|]; cbn [andb]; eauto.
Qed.
Print Assumptions C94_when.
(* two angles, although documented as allowed, cannot be given *)
Theorem C94_two_angles_refuted : forall ifn nact sep shx shy up g b order d, dm_init ifn nact nact sep sep shx shy up = Ok d ->
  rdm_init ifn nact nact sep sep shx shy up [g; b] order = Raise ValueError.
Proof. intros. unfold rdm_init. rewrite H. reflexivity. Qed.
Print Assumptions C94_two_angles_refuted.

(* ---- rendering ---- *)
Lemma rupdates_lift rot p l : forall d d', updates d l = Ok d' -> rupdates (mkrdm d rot p) l = Ok (mkrdm d' rot p).
Proof.
  induction l as [|a l IH]; intros d d' H; cbn [updates rupdates] in *; [congruence|].
  unfold rdm_update at 1. cbn [r_dm r_rot r_proj]. destruct (dm_update d a) as [e|]; [|discriminate]. cbn [rbind] in *. now apply IH.
Qed.
Lemma rcommanded_lift ifn nact sep shx shy up rot order hist a d p : commanded ifn nact sep shx shy up hist a = Ok d ->
  rot_init (frows ifn) (fcols ifn) rot order = Ok p -> rcommanded ifn nact sep shx shy up rot order hist a = Ok (mkrdm d rot p).
Proof.
  intros HC HR. unfold commanded in HC. unfold rcommanded, rdm_init. destruct (dm_init ifn nact nact sep sep shx shy up) as [d0|]; [|discriminate].
  cbn [rbind] in *. rewrite HR. cbn [rbind]. destruct (updates d0 hist) as [d1|] eqn:E; [|discriminate]. rewrite (rupdates_lift rot p hist d0 d1 E). cbn [rbind] in *.
  unfold rdm_update. cbn [r_dm r_rot r_proj]. now rewrite HC.
Qed.
(* every rendered pixel is the superposition of the influence functions, interpolated at the projected point; times twice the cosine of the
   length of the rotation vector if a wavefront is asked for *)
Theorem C94_render : forall ip ifn nact sep sx sy rot order hist a fwd rev (wfe : bool) r c,
  act_fit (frows ifn) nact sep -> act_fit (fcols ifn) nact sep -> Forall (dims nact nact) hist -> dims nact nact a -> (1 <= r)%nat -> (1 <= c)%nat ->
  rot_init (frows ifn) (fcols ifn) rot order = Ok (Some (fwd, rev)) ->
  exists d s S inter, rcommanded ifn nact sep (IZR sx) (IZR sy) 1 rot order hist a = Ok d /\
    dims (frows ifn) (fcols ifn) s /\
    (forall i j, (i < frows ifn)%nat -> (j < fcols ifn)%nat -> fpx s i j = superposed ifn nact sep sx sy a (Z.of_nat i + Z.of_nat (frows ifn) mod 2) (Z.of_nat j + Z.of_nat (fcols ifn) mod 2)) /\
    rrender ip d r c wfe = Ok (S, inter) /\ dims r c S /\
    forall i j, (i < r)%nat -> (j < c)%nat ->
      let y := (Z.of_nat (frows ifn) / 2 + (Z.of_nat i - Z.of_nat r / 2))%Z in let x := (Z.of_nat (fcols ifn) / 2 + (Z.of_nat j - Z.of_nat c / 2))%Z in
      fpx S i j = if ((0 <=? y) && (y <? Z.of_nat (frows ifn)) && (0 <=? x) && (x <? Z.of_nat (fcols ifn)))%Z
        then (if wfe then 2 * cos (rad (sqrt (rsuml (map (fun t => t * t) rot)))) else 1) * ip s (snd (fwd (IZR x) (IZR y))) (fst (fwd (IZR x) (IZR y))) else 0.
Proof.
  intros ip ifn nact sep sx sy rot order hist a fwd rev wfe r c FA FB FH Da Hr Hc HR.
  destruct (commanded_holds ifn nact sep (IZR sx) (IZR sy) 1 hist a FA FB FH Da) as (d & E & H).
  destruct (surface_superposed ifn nact sep sx sy 1 a d false FA FB H) as (s & Es & Ds & Vs).
  exists (mkrdm d rot (Some (fwd, rev))), s. 
  set (w := if wfe then rscale (2 * obliquity rot) (warp ip s fwd) else warp ip s fwd).
  destruct (pad_cropr_px w r c Hr Hc) as (S & ES & DS & VS). exists S, (frows w, fcols w).
  split; [now apply rcommanded_lift|]. split; [exact Ds|]. split; [intros i j Hi Hj; rewrite Vs by auto; unfold gain; ring|].
  assert (EA : apply_tf (d_poke d) (d_tf d) = Ok s) by (destruct (apply_tf (d_poke d) (d_tf d)); [exact Es|discriminate]).
  pose proof H as (_ & _ & HU & _).
  split; [|split; [exact DS|]].
  - unfold rrender. cbn [r_dm r_rot r_proj]. rewrite EA. cbn [rbind]. cbv zeta. rewrite HU, resample_1. fold w. rewrite ES. reflexivity.
  - intros i j Hi Hj y x. rewrite VS by auto.
    assert (W : frows w = frows ifn /\ fcols w = fcols ifn) by (subst w; destruct Ds as [D1 D2]; destruct wfe; cbn; auto). destruct W as [-> ->].
    unfold crop_src. fold y. fold x.
    destruct (Z.leb_spec 0 y); cbn [andb]; auto. destruct (Z.ltb_spec y (Z.of_nat (frows ifn))); cbn [andb]; auto. destruct (Z.leb_spec 0 x); cbn [andb]; auto. destruct (Z.ltb_spec x (Z.of_nat (fcols ifn))); cbn [andb]; auto.
    subst w. assert (IZ : forall z, (0 <= z)%Z -> INR (Z.to_nat z) = IZR z) by (intros; rewrite INR_IZR_INZ, Z2Nat.id; auto).
    destruct wfe; cbn [rscale warp fpx]; rewrite !IZ by auto; cbv zeta; [|ring]. unfold obliquity, rad. reflexivity.
Qed.
Print Assumptions C94_render.
(* in particular where the projected point is a sample *)
Theorem C94_render_sample : forall ip ifn nact sep sx sy rot order hist a fwd rev, ip_exact ip ->
  act_fit (frows ifn) nact sep -> act_fit (fcols ifn) nact sep -> Forall (dims nact nact) hist -> dims nact nact a ->
  rot_init (frows ifn) (fcols ifn) rot order = Ok (Some (fwd, rev)) ->
  exists d S inter, rcommanded ifn nact sep (IZR sx) (IZR sy) 1 rot order hist a = Ok d /\ rrender ip d (frows ifn) (fcols ifn) false = Ok (S, inter) /\
    forall i j y x, (i < frows ifn)%nat -> (j < fcols ifn)%nat -> (y < frows ifn)%nat -> (x < fcols ifn)%nat -> fwd (INR j) (INR i) = (INR x, INR y) ->
      fpx S i j = superposed ifn nact sep sx sy a (Z.of_nat y + Z.of_nat (frows ifn) mod 2) (Z.of_nat x + Z.of_nat (fcols ifn) mod 2).
Proof.
  intros ip ifn nact sep sx sy rot order hist a fwd rev HE FA FB FH Da HR.
  destruct (C94_render ip ifn nact sep sx sy rot order hist a fwd rev false (frows ifn) (fcols ifn) FA FB FH Da) as (d & s & S & inter & E & Ds & Vs & ER & DS & VS); auto.
  { apply act_fit_pos in FA. lia. } { apply act_fit_pos in FB. lia. }
  exists d, S, inter. split; [exact E|]. split; [exact ER|]. intros i j y x Hi Hj Hy Hx HF. rewrite VS by auto. cbv zeta.
  replace (Z.of_nat (frows ifn) / 2 + (Z.of_nat i - Z.of_nat (frows ifn) / 2))%Z with (Z.of_nat i) by lia.
  replace (Z.of_nat (fcols ifn) / 2 + (Z.of_nat j - Z.of_nat (fcols ifn) / 2))%Z with (Z.of_nat j) by lia.
  rewrite <- !INR_IZR_INZ, HF. cbn [fst snd]. destruct Ds as [D1 D2]. rewrite HE by (rewrite ?D1, ?D2; auto). rewrite Vs by auto.
  destruct (Z.leb_spec 0 (Z.of_nat i)); [|lia]. destruct (Z.ltb_spec (Z.of_nat i) (Z.of_nat (frows ifn))); [|lia]. destruct (Z.leb_spec 0 (Z.of_nat j)); [|lia]. destruct (Z.ltb_spec (Z.of_nat j) (Z.of_nat (fcols ifn))); [|lia]. cbn [andb]. ring.
Qed.
Print Assumptions C94_render_sample.

(* ---- reverse pass ---- *)
(* pixel (x, y) of the projected surface after a quarter turn of a square array *)
Lemma quarter n zyx : exists fwd rev, projection n n [90; 0; 0] zyx = Ok (fwd, rev) /\ (forall x y, fwd x y = (y, INR n - x)) /\ (forall x y, rev x y = (INR n - y, x)).
Proof.
  assert (R0 : rad 0 = 0) by (unfold rad; field). assert (R9 : rad 90 = PI / 2) by (unfold rad; field).
  destruct (C94_projection n n [90; 0; 0] zyx) as (fwd & rev & E & HF & HR); [cbn; lia|cbn [nth]; rewrite R0, cos_0; lra|].
  assert (F : forall x y, fwd x y = (y, INR n - x)).
  { intros x y. apply HF. cbn [nth]. rewrite R0, R9. eexists. unfold rh_turns, rh_x, rh_y, rh_z. rewrite cos_0, sin_0, cos_PI2, sin_PI2. destruct zyx; apply f_equal2; try reflexivity; f_equal; field. }
  exists fwd, rev. split; [auto|]. split; [auto|]. intros x y. apply HR. rewrite F. f_equal. ring.
Qed.
(* for a DM clocked by a quarter turn, on an even square array, the reverse pass is the transpose of rendering *)
Theorem C94_quarter_turn_gradient : forall ip ifn nact sep shx shy zyx hist a (wfe : bool) r c g, ip_exact ip -> ip_outside ip ->
  fcols ifn = frows ifn -> Nat.even (frows ifn) = true -> act_fit (frows ifn) nact sep ->
  Forall (dims nact nact) hist -> dims nact nact a -> (1 <= r)%nat -> (1 <= c)%nat -> dims r c g ->
  exists d S inter b, rcommanded ifn nact sep shx shy 1 [90; 0; 0] (Some zyx) hist a = Ok d /\ rrender ip d r c wfe = Ok (S, inter) /\ dims r c S /\
    rbackprop ip d (Some inter) g wfe = Ok b /\ dims nact nact b /\ rdot r c g S = rdot nact nact b a.
Proof.
  intros ip ifn nact sep shx shy zyx hist a wfe r c g HE HO SQ EV FA FH Da Hr Hc Dg. assert (FB : act_fit (fcols ifn) nact sep) by now rewrite SQ.
  destruct (commanded_holds ifn nact sep shx shy 1 hist a FA FB FH Da) as (d & E & H).
  destruct (quarter (frows ifn) zyx) as (fwd & rev & EP & F & RV).
  assert (HR : rot_init (frows ifn) (fcols ifn) [90; 0; 0] (Some zyx) = Ok (Some (fwd, rev))).
  { destruct (C94_when (frows ifn) (fcols ifn) 90 0 0 zyx) as [_ W]. { replace (rad 0) with 0 by (unfold rad; field). rewrite cos_0. lra. }
    destruct W as (_ & p & P1 & P2). { intros (Q & _). rewrite Rabs_right in Q; lra. } rewrite SQ in *. rewrite EP in P1. injection P1 as <-. exact P2. }
  destruct (rotated_adjoint ip ifn nact sep shx shy [90; 0; 0] fwd rev a d wfe r c g FA FB EV) as (s & Sf & inter & b & p & Es & [S1 S2] & [P1 P2] & Ep & ER & DS & EB & Db & HL & HRt); auto; [now rewrite SQ|].
  exists (mkrdm d [90; 0; 0] (Some (fwd, rev))), Sf, inter, b. split; [now apply rcommanded_lift|]. repeat (split; [assumption|]).
  rewrite HL, HRt. set (q := if wfe then rscale (2 * obliquity [90; 0; 0]) p else p).
  assert (Q : frows q = frows ifn /\ fcols q = frows ifn) by (subst q; destruct wfe; cbn; split; congruence). destruct Q as [Q1 Q2].
  rewrite SQ in *. destruct (act_fit_pos _ _ _ FA) as [HN _]. destruct (frows ifn) as [|n] eqn:EN; [lia|]. clear HL HRt.
  unfold rdot. cbn [warp fpx]. cbv zeta.
  transitivity (rsum (S n) (fun i => rsum (S n) (fun j => match j with O => 0 | S _ => fpx q i j * fpx s (S n - j) i end))).
  { apply rsum_ext. intros i Hi. apply rsum_ext. intros j Hj. rewrite F. cbn [fst snd]. destruct j as [|j].
    - rewrite HO; [ring|]. rewrite S1. right. left. cbn [INR]. lra.
    - rewrite <- minus_INR by lia. rewrite HE by (rewrite ?S1, ?S2; lia). reflexivity. }
  transitivity (rsum (S n) (fun i => rsum (S n) (fun j => match i with O => 0 | S _ => fpx q j (S n - i) * fpx s i j end))).
  2:{ apply rsum_ext. intros i Hi. apply rsum_ext. intros j Hj. rewrite RV. cbn [fst snd]. destruct i as [|i].
    - rewrite HO; [ring|]. rewrite Q2. right. right. right. cbn [INR]. lra.
    - rewrite <- minus_INR by lia. rewrite HE by (rewrite ?Q1, ?Q2; lia). reflexivity. }
  rewrite rsum_swap.
  assert (FL : forall G : nat -> R, rsum (S n) (fun j => match j with O => 0 | S _ => G (S n - j)%nat end) = rsum (S n) (fun j => match j with O => 0 | S _ => G j end)).
  { intros G. destruct n as [|n']; [reflexivity|]. rewrite !(rsum_first (S n')). f_equal. rewrite rsum_rev. apply rsum_ext. intros i Hi. f_equal. lia. }
  etransitivity; [|etransitivity; [apply (FL (fun k => rsum (S n) (fun j => fpx q j (S n - k) * fpx s k j)))|]]; apply rsum_ext; intros k Hk; destruct k as [|k].
  - apply rsum_zero. auto.
  - apply rsum_ext. intros i Hi. replace (S n - (S n - S k))%nat with (S k) by lia. reflexivity.
  - symmetry. apply rsum_zero. auto.
  - reflexivity.
Qed.
Print Assumptions C94_quarter_turn_gradient.

(* Refutation: in general it is not.  Seen at 60 degrees, every other column of the DM is skipped by the projection; an actuator there does
   not change the rendered surface at all, but the reverse pass gives it the full gradient *)
Theorem C94_tilted_gradient_refuted : forall ip, ip_exact ip -> ip_outside ip -> ip_flat ip ->
  let a := mkf 4 4 (fun i j => if Nat.eqb i 2 && Nat.eqb j 1 then 1 else 0) in let g := mkf 4 4 (fun _ _ => 1) in
  exists d S inter b, rcommanded (mkf 4 4 (fun i j => if Nat.eqb i 2 && Nat.eqb j 2 then 1 else 0)) 4 1 0 0 1 [0; 60; 0] (Some true) [] a = Ok d /\
    rrender ip d 4 4 false = Ok (S, inter) /\ (forall i j, (i < 4)%nat -> (j < 4)%nat -> fpx S i j = 0) /\
    rbackprop ip d (Some inter) g false = Ok b /\ rdot 4 4 b a = 1.
Proof.
  intros ip HE HO HF a g. set (ifn := mkf 4 4 (fun i j => if Nat.eqb i 2 && Nat.eqb j 2 then 1 else 0)).
  assert (R0 : rad 0 = 0) by (unfold rad; field). assert (R6 : rad 60 = PI / 3) by (unfold rad; field).
  destruct (C94_projection 4 4 [0; 60; 0] true) as (fwd & rev & E & HFw & HRv); [cbn; lia|cbn [nth]; rewrite R0, R6, cos_0, cos_PI3; lra|].
  assert (F : forall x y, fwd x y = (2 * x - 2, y)).
  { intros x y. apply HFw. cbn [nth]. rewrite R0, R6. eexists. unfold rh_turns, rh_x, rh_y, rh_z. rewrite cos_0, sin_0, cos_PI3. apply f_equal2; [|reflexivity]. f_equal; cbn [INR]; field. }
  assert (RV : forall x y, rev x y = ((x + 2) / 2, y)). { intros x y. apply HRv. rewrite F. f_equal. field. }
  assert (HR : rot_init 4 4 [0; 60; 0] (Some true) = Ok (Some (fwd, rev))).
  { destruct (C94_when 4 4 0 60 0 true) as [_ W]. { rewrite R0, R6, cos_0, cos_PI3. lra. }
    destruct W as (_ & p & P1 & P2). { intros (_ & Q & _). rewrite Rabs_right in Q; lra. } rewrite E in P1. injection P1 as <-. exact P2. }
  assert (FA : act_fit (frows ifn) 4 1) by (unfold act_fit; repeat split; try lia; vm_compute; congruence).
  destruct (commanded_holds ifn 4 1 (IZR 0) (IZR 0) 1 [] a FA FA) as (d & EC & H); [constructor|split; reflexivity|].
  destruct (surface_superposed ifn 4 1 0 0 1 a d false FA FA H) as (s & Es & [D1 D2] & Vs).
  assert (EA : apply_tf (d_poke d) (d_tf d) = Ok s) by (destruct (apply_tf (d_poke d) (d_tf d)); [exact Es|discriminate]).
  assert (VS : forall i j, (i < 4)%nat -> (j < 4)%nat -> fpx s i j = if Nat.eqb i 2 && Nat.eqb j 1 then 1 else 0).
  { intros i j Hi Hj. rewrite Vs by (cbn; auto). unfold superposed, gain. cbn [rsum]. subst a. cbn [fpx Nat.eqb andb].
    transitivity (periodic ifn (Z.of_nat i + Z.of_nat (frows ifn) mod 2 - (act_pos (frows ifn) 4 1 2 + 0) + Z.of_nat (frows ifn) / 2) (Z.of_nat j + Z.of_nat (fcols ifn) mod 2 - (act_pos (fcols ifn) 4 1 1 + 0) + Z.of_nat (fcols ifn) / 2)); [ring|].
    destruct i as [|[|[|[|i]]]]; [| | | |lia]; (destruct j as [|[|[|[|j]]]]; [reflexivity|reflexivity|reflexivity|reflexivity|lia]). }
  destruct (rotated_adjoint ip ifn 4 1 (IZR 0) (IZR 0) [0; 60; 0] fwd rev a d false 4 4 g FA FA) as (s' & Sf & inter & b & p & Es' & _ & [P1 P2] & Ep & ER & DS & EB & Db & HL & HRt); try reflexivity; try exact H; try lia; try (split; reflexivity).
  rewrite EA in Es'. injection Es' as <-. exists (mkrdm d [0; 60; 0] (Some (fwd, rev))), Sf, inter, b.
  split; [apply rcommanded_lift; assumption|]. split; [exact ER|]. split; [|split; [exact EB|]].
  - destruct (C94_render ip ifn 4 1 0 0 [0; 60; 0] (Some true) [] a fwd rev false 4 4 FA FA) as (d' & s' & S' & i' & E1 & [D1' D2'] & V1 & E2 & _ & V2); try lia; try exact HR; try (split; reflexivity); try (now constructor).
    assert (Ed : d' = mkrdm d [0; 60; 0] (Some (fwd, rev))). { pose proof (rcommanded_lift ifn 4 1 (IZR 0) (IZR 0) 1 [0; 60; 0] (Some true) [] a d (Some (fwd, rev)) EC HR) as Q. rewrite E1 in Q. now injection Q. }
    subst d'. rewrite ER in E2. injection E2 as <- <-. intros i j Hi Hj. rewrite V2 by auto. cbv zeta. cbn [ifn frows fcols] in *. change (Z.of_nat 4 / 2)%Z with 2%Z.
    destruct (_ && _); [|reflexivity]. rewrite F. cbn [fst snd]. replace (2 + (Z.of_nat i - 2))%Z with (Z.of_nat i) by lia. replace (2 + (Z.of_nat j - 2))%Z with (Z.of_nat j) by lia. rewrite <- !INR_IZR_INZ.
    assert (VS' : forall i j, (i < 4)%nat -> (j < 4)%nat -> fpx s' i j = if Nat.eqb i 2 && Nat.eqb j 1 then 1 else 0).
    { intros i0 j0 Hi0 Hj0. rewrite V1 by auto. rewrite <- VS by auto. rewrite Vs by auto. unfold gain. cbn [ifn frows fcols]. ring. }
    destruct j as [|[|[|[|j]]]]; [| | | |lia].
    + rewrite HO; [ring|]. right. right. left. cbn [INR]. lra.
    + replace (2 * INR 1 - 2) with (INR 0) by (cbn [INR]; ring). rewrite HE by (rewrite ?D1', ?D2'; lia). rewrite VS' by lia. rewrite Bool.andb_false_r. ring.
    + replace (2 * INR 2 - 2) with (INR 2) by (cbn [INR]; ring). rewrite HE by (rewrite ?D1', ?D2'; lia). rewrite VS' by lia. rewrite Bool.andb_false_r. ring.
    + rewrite HO; [ring|]. right. right. right. rewrite D2'. cbn [INR]. lra.
  - rewrite HRt. destruct (pad_cropr_px g 4 4) as (p' & Ep' & _ & Vp); [lia|lia|]. cbn [ifn frows fcols] in Ep. rewrite Ep in Ep'. injection Ep' as <-.
    cbn [ifn frows fcols] in *. unfold rdot. 
    transitivity (rsum 4 (fun i => rsum 4 (fun j => fpx (warp ip p rev) i j * if Nat.eqb i 2 && Nat.eqb j 1 then 1 else 0))).
    { apply rsum_ext. intros i Hi. apply rsum_ext. intros j Hj. now rewrite VS. }
    cbn [rsum Nat.eqb andb]. enough (Q : fpx (warp ip p rev) 2 1 = 1) by (rewrite Q; ring).
    cbn [warp fpx]. cbv zeta. rewrite RV. cbn [fst snd]. apply HF.
    2,3: rewrite ?P1, ?P2; cbn [INR]; lra.
    rewrite P1, P2. intros i j Hi Hj. rewrite Vp by auto. cbn [g frows fcols fpx].
    destruct i as [|[|[|[|i]]]]; [| | | |lia]; (destruct j as [|[|[|[|j]]]]; [reflexivity|reflexivity|reflexivity|reflexivity|lia]).
Qed.
Print Assumptions C94_tilted_gradient_refuted.

(* ---- obliquity ---- *)
(* tilted about one axis only, a wavefront is twice the surface times the cosine of the tilt *)
Theorem C94_obliquity_one_axis : forall b, obliquity [0; b; 0] = cos (rad b) /\ obliquity [0; 0; b] = cos (rad b).
Proof.
  intros b. unfold obliquity. cbn [map rsuml].
  replace (0 * 0 + (b * b + (0 * 0 + 0))) with (b * b) by ring. replace (0 * 0 + (0 * 0 + (b * b + 0))) with (b * b) by ring. fold (Rsqr b). rewrite sqrt_Rsqr_abs. unfold rad.
  unfold Rabs. destruct (Rcase_abs b); [|auto]. replace (- b * PI / 180) with (- (b * PI / 180)) by field. rewrite cos_neg. auto.
Qed.
Print Assumptions C94_obliquity_one_axis.
(* Refutation: clocking is counted as tilt.  A DM clocked by a quarter turn, square to the beam, renders as a wavefront of zeros for every command *)
Theorem C94_clocking_refuted : forall ip ifn nact sep sx sy zyx hist a r c,
  act_fit (frows ifn) nact sep -> act_fit (fcols ifn) nact sep -> Forall (dims nact nact) hist -> dims nact nact a -> (1 <= r)%nat -> (1 <= c)%nat ->
  exists d S inter, rcommanded ifn nact sep (IZR sx) (IZR sy) 1 [90; 0; 0] (Some zyx) hist a = Ok d /\ rrender ip d r c true = Ok (S, inter) /\
    forall i j, (i < r)%nat -> (j < c)%nat -> fpx S i j = 0.
Proof.
  intros ip ifn nact sep sx sy zyx hist a r c FA FB FH Da Hr Hc.
  destruct (C94_when (frows ifn) (fcols ifn) 90 0 0 zyx) as [_ W]. { replace (rad 0) with 0 by (unfold rad; field). rewrite cos_0. lra. }
  destruct W as (_ & [fwd rev] & _ & HR). { intros (Q & _). rewrite Rabs_right in Q; lra. }
  destruct (C94_render ip ifn nact sep sx sy [90; 0; 0] (Some zyx) hist a fwd rev true r c FA FB FH Da Hr Hc HR) as (d & s & Sf & inter & E & _ & _ & ER & _ & V).
  exists d, Sf, inter. split; [exact E|]. split; [exact ER|]. intros i j Hi Hj. rewrite V by auto. cbv zeta. destruct (_ && _); [|reflexivity].
  cbn [map rsuml]. replace (90 * 90 + (0 * 0 + (0 * 0 + 0))) with (Rsqr 90) by (unfold Rsqr; ring). rewrite sqrt_Rsqr by lra.
  replace (rad 90) with (PI / 2) by (unfold rad; field). rewrite cos_PI2. ring.
Qed.
Print Assumptions C94_clocking_refuted.

(* ---- centre ---- *)
(* the middle of the array stays where it is; on odd arrays that is not the sample on which actuators are centred *)
Theorem C94_centre : forall rows cols (l : list R) (zyx : bool) fwd rev, (length l <= 3)%nat -> projection rows cols l zyx = Ok (fwd, rev) ->
  fwd (INR cols / 2) (INR rows / 2) = (INR cols / 2, INR rows / 2) /\ rev (INR cols / 2) (INR rows / 2) = (INR cols / 2, INR rows / 2).
Proof.
  intros rows cols l zyx fwd rev HL E. destruct (Req_EM_T (cos (rad (nth 1 l 0)) * cos (rad (nth 2 l 0))) 0) as [Q|Q]; [rewrite C94_edge_on in E by auto; discriminate|].
  destruct (C94_projection rows cols l zyx HL Q) as (f & r & E' & HF & HR). rewrite E in E'. injection E' as <- <-.
  assert (F : fwd (INR cols / 2) (INR rows / 2) = (INR cols / 2, INR rows / 2)).
  { apply HF. rewrite !Rminus_eq_0. exists 0. unfold rh_turns, rh_x, rh_y, rh_z. destruct zyx; apply f_equal2; try apply f_equal2; ring. }
  split; [exact F|]. apply HR. exact F.
Qed.
Print Assumptions C94_centre.
Theorem C94_odd_centre_refuted : forall n zyx, exists fwd rev, projection (2 * n + 1) (2 * n + 1) [180; 0; 0] zyx = Ok (fwd, rev) /\ fwd (INR n) (INR n) = (INR n + 1, INR n + 1).
Proof.
  intros n zyx. assert (R0 : rad 0 = 0) by (unfold rad; field). assert (R9 : rad 180 = PI) by (unfold rad; field).
  destruct (C94_projection (2 * n + 1) (2 * n + 1) [180; 0; 0] zyx) as (fwd & rev & E & HF & HR); [cbn; lia|cbn [nth]; rewrite R0, cos_0; lra|].
  exists fwd, rev. split; [exact E|]. apply HF. cbn [nth]. rewrite R0, R9. eexists. unfold rh_turns, rh_x, rh_y, rh_z. rewrite cos_0, sin_0, cos_PI, sin_PI.
  rewrite plus_INR, mult_INR. change (INR 2) with (1 + 1). change (INR 1) with 1. destruct zyx; apply f_equal2; try reflexivity; f_equal; field.
Qed.
Print Assumptions C94_odd_centre_refuted.

(* hypotheses are met: an interpolation with the assumed behaviour, and the tilts of a real DM *)
Definition ip_step : interp := fun f y x => if Rle_dec 0 y then if Rlt_dec y (INR (frows f)) then if Rle_dec 0 x then if Rlt_dec x (INR (fcols f)) then fpx f (Z.to_nat (Int_part y)) (Z.to_nat (Int_part x)) else 0 else 0 else 0 else 0.
Lemma int_part_lt n y : 0 <= y -> y < INR n -> (Z.to_nat (Int_part y) < n)%nat.
Proof.
  intros H0 H1. destruct (base_Int_part y) as [A B]. assert (0 <= Int_part y)%Z. { apply Z.lt_succ_r. apply lt_IZR. rewrite succ_IZR. lra. }
  assert (Int_part y < Z.of_nat n)%Z by (apply lt_IZR; rewrite <- INR_IZR_INZ; lra). lia.
Qed.
Example C94_example : ip_exact ip_step /\ ip_outside ip_step /\ ip_flat ip_step /\ act_fit 4 4 1 /\ Nat.even 4 = true /\ cos (rad 60) * cos (rad 0) <> 0 /\ proper_tilt true (rad 0) (rad 60) (rad 0).
Proof.
  repeat split; try lia; try (vm_compute; congruence).
  - intros f y x Hy Hx. unfold ip_step. apply lt_INR in Hy. apply lt_INR in Hx. destruct (Rle_dec 0 (INR y)) as [_|N]; [|exfalso; apply N, pos_INR]. destruct (Rlt_dec _ _); [|contradiction].
    destruct (Rle_dec 0 (INR x)) as [_|N]; [|exfalso; apply N, pos_INR]. destruct (Rlt_dec _ _); [|contradiction]. now rewrite !Int_part_INR, !Nat2Z.id.
  - intros f y x H. unfold ip_step. destruct (Rle_dec 0 y); [|reflexivity]. destruct (Rlt_dec y _); [|reflexivity]. destruct (Rle_dec 0 x); [|reflexivity]. destruct (Rlt_dec x _); [|reflexivity]. exfalso. lra.
  - intros f k y x H Hy Hx. unfold ip_step. destruct (Rle_dec 0 y); [|lra]. destruct (Rlt_dec y _); [|lra]. destruct (Rle_dec 0 x); [|lra]. destruct (Rlt_dec x _); [|lra]. apply H; now apply int_part_lt.
  - replace (rad 60) with (PI / 3) by (unfold rad; field). replace (rad 0) with 0 by (unfold rad; field). rewrite cos_PI3, cos_0. lra.
  - replace (rad 0) with 0 by (unfold rad; field). rewrite cos_0. lra.
  - replace (rad 60) with (PI / 3) by (unfold rad; field). rewrite cos_PI3. lra.
  - replace (rad 0) with 0 by (unfold rad; field). rewrite cos_0. lra.
  - replace (rad 0) with 0 by (unfold rad; field). unfold tilt_m. cbn. rewrite cos_0, sin_0. lra.
Qed.
Print Assumptions C94_example.
