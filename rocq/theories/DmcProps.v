(* C89: the surface of propcustom_dm.  C90: actuator positions in the surface model and in the poke cube *)
From Verif Require Import StrBase Base RBase CtrlModel UtilModel DmSurfModel CubModel CubProofs CubProps DmcModel DmcProofs.
Open Scope R_scope.
(* ---- specification: left-handed turns about the three axes, one after the other ---- *)
Definition pt : Type := (R * R * R)%type.
Definition turn_x (a : R) (v : pt) : pt := let '(x, y, z) := v in (x, y * cos a + z * sin a, - y * sin a + z * cos a).
Definition turn_y (b : R) (v : pt) : pt := let '(x, y, z) := v in (x * cos b - z * sin b, y, x * sin b + z * cos b).
Definition turn_z (g : R) (v : pt) : pt := let '(x, y, z) := v in (x * cos g + y * sin g, - x * sin g + y * cos g, z).
Definition turned (XYZ : bool) (a b g : R) (v : pt) : pt := if XYZ then turn_z g (turn_y b (turn_x a v)) else turn_x a (turn_y b (turn_z g v)).
(* no right angles *)
Definition proper_tilt (XYZ : bool) (a b g : R) : Prop := cos a <> 0 /\ cos b <> 0 /\ cos g <> 0 /\ tilt_m XYZ a b g 1 1 <> 0.
Lemma turned_m XYZ a b g x y z : turned XYZ a b g (x, y, z) = (x * tilt_m XYZ a b g 0 0 + y * tilt_m XYZ a b g 1 0 + z * tilt_m XYZ a b g 2 0, x * tilt_m XYZ a b g 0 1 + y * tilt_m XYZ a b g 1 1 + z * tilt_m XYZ a b g 2 1, x * tilt_m XYZ a b g 0 2 + y * tilt_m XYZ a b g 1 2 + z * tilt_m XYZ a b g 2 2).
Proof. destruct XYZ; unfold turned, turn_x, turn_y, turn_z, tilt_m; cbv iota beta zeta; f_equal; [f_equal| |f_equal|]; ring. Qed.
Lemma tilt_det XYZ a b g : tilt_m XYZ a b g 0 0 * tilt_m XYZ a b g 1 1 - tilt_m XYZ a b g 0 1 * tilt_m XYZ a b g 1 0 = cos a * cos b.
Proof.
  pose proof (sin2_cos2 g) as G. pose proof (sin2_cos2 b) as B. pose proof (sin2_cos2 a) as A. unfold Rsqr in *.
  destruct XYZ; unfold tilt_m; cbv iota beta zeta.
  - transitivity (cos a * cos b * (sin g * sin g + cos g * cos g)); [ring|rewrite G; ring].
  - transitivity (cos a * cos b * (sin g * sin g + cos g * cos g)); [ring|rewrite G; ring].
Qed.
Lemma tilt_ok XYZ a b g : proper_tilt XYZ a b g -> tilt_m XYZ a b g 0 0 <> 0 /\ tilt_m XYZ a b g 1 1 <> 0 /\ tilt_m XYZ a b g 0 0 * tilt_m XYZ a b g 1 1 - tilt_m XYZ a b g 0 1 * tilt_m XYZ a b g 1 0 <> 0.
Proof. intros (A & B & G & M). split; [destruct XYZ; unfold tilt_m; cbv iota beta zeta; now apply Rmult_integral_contrapositive_currified|]. split; auto. rewrite tilt_det. now apply Rmult_integral_contrapositive_currified. Qed.
(* the point of the DM seen at (x, y) is the one that the turns bring there *)
Theorem C89_projection XYZ a b g x y xs ys : proper_tilt XYZ a b g -> back_project (tilt_m XYZ a b g) x y = (xs, ys) <-> exists z, turned XYZ a b g (xs, ys, 0) = (x, y, z).
Proof.
  intros P. destruct (tilt_ok _ _ _ _ P) as (M0 & M1 & D). rewrite back_iff by auto. setoid_rewrite turned_m. split.
  - intros (-> & ->). eexists. f_equal. f_equal; ring.
  - intros (z & E). injection E as <- <- _. split; ring.
Qed.
(* an interpolator that gives back the samples at their own places, two or more away from the borders *)
Definition exact_itp (itp : interpolator) : Prop := forall g c r k X Y, (r < ydim c)%nat -> (k < xdim c)%nat -> at_x c r k = IZR X -> at_y c r k = IZR Y ->
  (2 <= X <= nc g - 2)%Z -> (2 <= Y <= nr g - 2)%Z -> itp g c r k = px g Y X.
Definition linear_itp (itp : interpolator) : Prop := forall g1 g2 g u v c r k, nr g = nr g1 -> nc g = nc g1 -> nr g = nr g2 -> nc g = nc g2 ->
  (forall Y X, px g Y X = u * px g1 Y X + v * px g2 Y X) -> itp g c r k = u * itp g1 c r k + v * itp g2 c r k.
Theorem C89_plain_cubic : exact_itp plain_cubic /\ linear_itp plain_cubic.
Proof.
  split.
  - intros g c r k X Y _ K EX EY HX HY. unfold plain_cubic. now rewrite (C88_pixels _ _ _ c r k X Y).
  - intros g1 g2 g u v c r k A B C D E. unfold plain_cubic. rewrite <- A, <- B, <- C, <- D. rewrite <- C88_linear. unfold cubic_conv, conv_px, pixel_sum. apply rsum_ext. intros j _. cbv zeta. destruct (_ || _)%bool; auto. apply rsum_ext. intros i _. destruct (_ || _)%bool; auto. f_equal. cbn [in_memory]. apply E.
Qed.
(* width in pixels of the part of the map that the DM can cover *)
Definition window (w : wfgeom) (nact mag : Z) (pitch : R) : Z := Z.min (ZnearestE (sqrt 2 * IZR (nact * mag + 18 * mag) * pitch / w_dx w)) (w_n w).
Definition rad (t : option R) : R := opt0 t * PI / 180.
Lemma near_exact mag pix : 0 < pix -> ZnearestE (IZR mag * pix / pix) = mag.
Proof. intros P. replace (IZR mag * pix / pix) with (IZR mag) by (field; lra). apply Znearest_imp. rewrite Rminus_diag_eq by auto. rewrite Rabs_R0. lra. Qed.
Lemma put_sq n d v : (0 <= d <= n)%Z -> nr v = d -> nc v = d -> let y0 := (n / 2 - d / 2)%Z in
  put n y0 (y0 + d) y0 (y0 + d) v = Ok (mkarr n n (fun i j => if ((y0 <=? i) && (i <? Z.min (y0 + d) n) && (y0 <=? j) && (j <? Z.min (y0 + d) n))%Z%bool then px v (if (d =? 1)%Z then 0 else i - y0) (if (d =? 1)%Z then 0 else j - y0) else 0)).
Proof.
  intros D R C y0. unfold put. rewrite R, C. assert (L : slice_len n y0 (y0 + d) = d). { unfold slice_len. assert (0 <= y0)%Z by (unfold y0; pose proof (Z.div_le_mono d n 2); lia). assert (y0 + d <= n)%Z by (unfold y0; Z.to_euclidean_division_equations; lia). lia. }
  rewrite L. unfold fits. rewrite Z.eqb_refl. reflexivity.
Qed.
(* the whole map, for a square DM *)
Lemma propcustom_sq itp tr w z xc yc spacing f k mag sg : (0 <= nr z)%Z -> nr z = nc z -> (1 <= mag)%Z -> 0 < i_pix f -> i_pitch f = IZR mag * i_pix f -> 0 < spacing -> 0 < w_dx w -> (0 <= w_n w)%Z ->
  (k_zyx k && k_xyz k)%bool = false -> sign_factor (k_sign k) = Ok sg -> k_nact k = None ->
  let pitch := spacing / IZR mag in let d := window w (nr z) mag pitch in let y0 := (w_n w / 2 - d / 2)%Z in
  let inf := mkarr (nr (i_map f)) (nc (i_map f)) (fun i j => sg * px (i_map f) i j) in
  let m := tilt_m (negb (k_zyx k)) (rad (k_xtilt k)) (rad (k_ytilt k)) (rad (k_ztilt k)) in
  let at_pix := fun (r c : nat) => back_project m (IZR (Z.of_nat c - d / 2) * w_dx w) (IZR (Z.of_nat r - d / 2) * w_dx w) in
  let co := Points (Z.to_nat d) (Z.to_nat d) (fun r c => (fst (at_pix r c) + xc * spacing) / pitch + IZR (off_grid mag)) (fun r c => (snd (at_pix r c) + yc * spacing) / pitch + IZR (off_grid mag)) in
  exists s, propcustom_dm itp tr w z xc yc spacing f k = Ok s /\ nr s = w_n w /\ nc s = w_n w /\
    forall i j, px s i j = if ((y0 <=? i) && (i <? y0 + d) && (y0 <=? j) && (j <? y0 + d))%Z%bool then itp (conv_same (act_grid mag z) inf) co (Z.to_nat (i - y0)) (Z.to_nat (j - y0)) else 0.
Proof.
  intros Z0 Sq M P Pit Sp Dx N Or Sg Na pitch d y0 inf m at_pix co. unfold propcustom_dm. rewrite Or, Sg. cbn [rbind]. fold inf. rewrite Pit, near_exact by auto.
  destruct (Rlt_dec (1 / 10 ^ 8) (Rabs (IZR mag - IZR mag * i_pix f / i_pix f))) as [Bad|_]. { exfalso. replace (IZR mag - IZR mag * i_pix f / i_pix f) with 0 in Bad by (field; lra). rewrite Rabs_R0 in Bad. lra. }
  rewrite Na. destruct (Req_EM_T spacing 0) as [Bad|_]; [lra|]. cbn [rbind]. assert (Mr : IZR mag <> 0) by (apply not_0_IZR; lia).
  assert (Mp : 0 < IZR mag) by (apply IZR_lt; lia). replace (i_pix f * spacing / (IZR mag * i_pix f)) with pitch by (unfold pitch; field; split; lra). cbv zeta. cbn [conv_same act_grid nr nc]. rewrite <- Sq.
  replace (nr z * mag + 2 * margin mag)%Z with (nr z * mag + 18 * mag)%Z by (unfold margin; ring). change (Z.min (ZnearestE (sqrt 2 * IZR (nr z * mag + 18 * mag) * pitch / w_dx w)) (w_n w)) with d.
  assert (D0 : (0 <= d <= w_n w)%Z). { unfold d, window. split; [|lia]. apply Z.min_glb; auto. assert (X : 0 <= sqrt 2 * IZR (nr z * mag + 18 * mag) * pitch / w_dx w). { unfold Rdiv at 1. apply Rmult_le_pos; [|left; now apply Rinv_0_lt_compat]. apply Rmult_le_pos; [apply Rmult_le_pos; [apply sqrt_pos|apply IZR_le; nia]|]. unfold pitch. apply Rlt_le, Rdiv_lt_0_compat; auto. } eapply Z.le_trans; [|apply Znearest_ge_floor]. now apply Zfloor_lub. }
  match goal with |- context [put _ _ _ _ _ ?v] => set (grid := v) end.
  assert (G1 : nr grid = d) by (unfold grid; destruct tr; reflexivity). assert (G2 : nc grid = d) by (unfold grid; destruct tr; reflexivity). fold y0. rewrite G1, G2. pose proof (put_sq (w_n w) d grid D0 G1 G2) as PS. cbv zeta in PS. fold y0 in PS. rewrite PS. eexists. split; [reflexivity|]. cbn [nr nc px]. split; auto. split; auto. intros i j. fold y0.
  assert (B : (y0 + d <= w_n w)%Z) by (unfold y0; Z.to_euclidean_division_equations; lia). rewrite Z.min_l by auto. destruct (((y0 <=? i) && (i <? y0 + d) && (y0 <=? j) && (j <? y0 + d))%Z%bool) eqn:W; auto.
  apply andb_prop in W. destruct W as (W & W4). apply andb_prop in W. destruct W as (W & W3). apply andb_prop in W. destruct W as (W1 & W2). apply Z.leb_le in W1, W3. apply Z.ltb_lt in W2, W4.
  replace (if (d =? 1)%Z then 0%Z else (i - y0)%Z) with (i - y0)%Z by (destruct (Z.eqb_spec d 1); lia). replace (if (d =? 1)%Z then 0%Z else (j - y0)%Z) with (j - y0)%Z by (destruct (Z.eqb_spec d 1); lia).
  unfold grid. destruct tr; cbn [px]; [|reflexivity]. assert (Q1 : (((i - y0) * d + (j - y0)) / d = i - y0)%Z) by (rewrite Z.div_add_l by lia; rewrite (Z.div_small (j - y0) d) by lia; lia). assert (Q2 : (((i - y0) * d + (j - y0)) mod d = j - y0)%Z) by (rewrite (Z.add_comm ((i - y0) * d)), Z_mod_plus_full; apply Z.mod_small; lia). rewrite Q1, Q2. reflexivity.
Qed.
(* inf_sign: absent or "+" leaves the influence function, "-" negates it *)
Definition sign_of (o : option string) (sg : R) : Prop := (o = None \/ o = Some "+"%string) /\ sg = 1 \/ o = Some "-"%string /\ sg = -1.
Lemma sign_of_ok o sg : sign_of o sg -> sign_factor o = Ok sg.
Proof. intros [[[-> | ->] ->]|[-> ->]]; reflexivity. Qed.
(* the surface where a pixel sees a sample of the fine grid: the sum over actuators of height times influence function *)
Theorem C89_surface itp tr w z xc yc spacing f k mag sg : exact_itp itp -> (0 <= nr z)%Z -> nr z = nc z -> (1 <= mag)%Z -> 0 < i_pix f -> i_pitch f = IZR mag * i_pix f -> 0 < spacing -> 0 < w_dx w -> (0 <= w_n w)%Z ->
  (k_zyx k && k_xyz k)%bool = false -> sign_of (k_sign k) sg -> k_nact k = None -> proper_tilt (negb (k_zyx k)) (rad (k_xtilt k)) (rad (k_ytilt k)) (rad (k_ztilt k)) ->
  let pitch := spacing / IZR mag in let d := window w (nr z) mag pitch in let y0 := (w_n w / 2 - d / 2)%Z in
  exists s, propcustom_dm itp tr w z xc yc spacing f k = Ok s /\ nr s = w_n w /\ nc s = w_n w /\
  (forall i j, ~ (y0 <= i < y0 + d /\ y0 <= j < y0 + d)%Z -> px s i j = 0) /\
  forall i j p q t, (y0 <= i < y0 + d)%Z -> (y0 <= j < y0 + d)%Z -> (-9 * mag <= p < nc z * mag + 8 * mag)%Z -> (-9 * mag <= q < nr z * mag + 8 * mag)%Z -> (4 <= mag)%Z ->
    turned (negb (k_zyx k)) (rad (k_xtilt k)) (rad (k_ytilt k)) (rad (k_ztilt k)) (IZR p * pitch - xc * spacing, IZR q * pitch - yc * spacing, 0) = (IZR (j - w_n w / 2) * w_dx w, IZR (i - w_n w / 2) * w_dx w, t) ->
    px s i j = rsum (Z.to_nat (nr z)) (fun a => rsum (Z.to_nat (nc z)) (fun b => px z (Z.of_nat a) (Z.of_nat b) *
      (sg * get0 (i_map f) (q - Z.of_nat a * mag + (nr (i_map f) - 1) / 2) (p - Z.of_nat b * mag + (nc (i_map f) - 1) / 2)))).
Proof.
  intros Ex Z0 Sq M P Pit Sp Dx N Or Sg Na Ti pitch d y0. apply sign_of_ok in Sg.
  destruct (propcustom_sq itp tr w z xc yc spacing f k mag sg) as (s & E & S1 & S2 & V); auto. exists s. split; auto. split; auto. split; auto. fold pitch in V. fold d in V. fold y0 in V. split.
  - intros i j H. rewrite V. destruct (Z.leb_spec y0 i), (Z.ltb_spec i (y0 + d)), (Z.leb_spec y0 j), (Z.ltb_spec j (y0 + d)); cbn [andb]; auto. exfalso. apply H. lia.
  - intros i j p q t I J Hp Hq M4 T. rewrite V. destruct (Z.leb_spec y0 i); [|lia]. destruct (Z.ltb_spec i (y0 + d)); [|lia]. destruct (Z.leb_spec y0 j); [|lia]. destruct (Z.ltb_spec j (y0 + d)); [|lia]. cbn [andb]. clear V.
    assert (Mp : 0 < IZR mag) by (apply IZR_lt; lia). assert (Pp : 0 < pitch) by (unfold pitch; apply Rdiv_lt_0_compat; auto).
    match goal with |- itp ?g ?c ?r ?k' = _ => rewrite (Ex g c r k' (off_grid mag + p)%Z (off_grid mag + q)%Z) end.
    + rewrite conv_superpose by lia. apply rsum_ext. intros a A. apply rsum_ext. intros b B. f_equal. cbn [nr nc]. unfold get0. cbn [nr nc px]. replace (off_grid mag + q - (Z.of_nat a * mag + off_grid mag) + (nr (i_map f) - 1) / 2)%Z with (q - Z.of_nat a * mag + (nr (i_map f) - 1) / 2)%Z by ring. replace (off_grid mag + p - (Z.of_nat b * mag + off_grid mag) + (nc (i_map f) - 1) / 2)%Z with (p - Z.of_nat b * mag + (nc (i_map f) - 1) / 2)%Z by ring. destruct (((_ && _) && _) && _)%bool; ring.
    + cbn [ydim]. lia.
    + cbn [xdim]. lia.
    + cbn [at_x]. rewrite !Z2Nat.id by lia. replace (j - y0 - d / 2)%Z with (j - w_n w / 2)%Z by (unfold y0; ring). replace (i - y0 - d / 2)%Z with (i - w_n w / 2)%Z by (unfold y0; ring).
      assert (Bk := proj2 (C89_projection _ _ _ _ _ _ _ _ Ti) (ex_intro _ t T)). rewrite Bk. cbn [fst]. rewrite plus_IZR. field. lra.
    + cbn [at_y]. rewrite !Z2Nat.id by lia. replace (j - y0 - d / 2)%Z with (j - w_n w / 2)%Z by (unfold y0; ring). replace (i - y0 - d / 2)%Z with (i - w_n w / 2)%Z by (unfold y0; ring).
      assert (Bk := proj2 (C89_projection _ _ _ _ _ _ _ _ Ti) (ex_intro _ t T)). rewrite Bk. cbn [snd]. rewrite plus_IZR. field. lra.
    + cbn [conv_same act_grid nr nc]. unfold off_grid, margin. Z.to_euclidean_division_equations; nia.
    + cbn [conv_same act_grid nr nc]. unfold off_grid, margin. Z.to_euclidean_division_equations; nia.
Qed.
(* linear in the command *)
Theorem C89_linear itp tr w z1 z2 z u v xc yc spacing f k s1 s2 : linear_itp itp -> nr z = nr z1 -> nc z = nc z1 -> nr z = nr z2 -> nc z = nc z2 -> (forall a b, px z a b = u * px z1 a b + v * px z2 a b) ->
  propcustom_dm itp tr w z1 xc yc spacing f k = Ok s1 -> propcustom_dm itp tr w z2 xc yc spacing f k = Ok s2 ->
  exists s, propcustom_dm itp tr w z xc yc spacing f k = Ok s /\ nr s = nr s1 /\ nc s = nc s1 /\ forall i j, px s i j = u * px s1 i j + v * px s2 i j.
Proof.
  intros Li R1 C1 R2 C2 Lz. unfold propcustom_dm. destruct (k_zyx k && k_xyz k)%bool; [discriminate|]. destruct (sign_factor (k_sign k)) as [sg|]; cbn [rbind]; [|discriminate]. destruct (Rlt_dec _ _); [discriminate|].
  match goal with |- context [rbind ?q _] => destruct q as [dxdm|]; cbn [rbind]; [|discriminate] end. cbv zeta. set (mag := ZnearestE (i_pitch f / i_pix f)). set (inf := mkarr (nr (i_map f)) (nc (i_map f)) (fun i j => sg * px (i_map f) i j)).
  cbn [conv_same act_grid nr nc]. rewrite <- R1, <- C1, <- R2, <- C2.
  set (pit := i_pix f * dxdm / i_pitch f). set (yd := Z.min (ZnearestE (sqrt 2 * IZR (nr z * mag + 2 * margin mag) * pit / w_dx w)) (w_n w)). set (xd := Z.min (ZnearestE (sqrt 2 * IZR (nc z * mag + 2 * margin mag) * pit / w_dx w)) (w_n w)). match goal with |- context [Points _ _ ?X ?Y] => set (co := Points (Z.to_nat xd) (Z.to_nat yd) X Y) end.
  assert (G : forall r c, itp (conv_same (act_grid mag z) inf) co r c = u * itp (conv_same (act_grid mag z1) inf) co r c + v * itp (conv_same (act_grid mag z2) inf) co r c).
  { intros r c. apply Li; cbn [conv_same act_grid nr nc]; try congruence. intros Y X. unfold conv_same. cbn [px nr nc act_grid]. rewrite <- R1, <- C1, <- R2, <- C2. rewrite <- !rsum_scal, <- rsum_plus. apply rsum_ext. intros s _. rewrite <- !rsum_scal, <- rsum_plus. apply rsum_ext. intros t _. cbv zeta. destruct (_ && _)%bool; [rewrite Lz|]; ring. }
  unfold put. destruct tr; cbn [nr nc px].
  - destruct (_ && _)%bool; [|discriminate]. intros E1 E2. injection E1 as <-. injection E2 as <-. eexists. split; [reflexivity|]. cbn [nr nc px]. split; auto. split; auto. intros i j. destruct (_ && _)%bool; [|ring]. cbn [px]. apply G.
  - destruct (_ && _)%bool; [|discriminate]. intros E1 E2. injection E1 as <-. injection E2 as <-. eexists. split; [reflexivity|]. cbn [nr nc px]. split; auto. split; auto. intros i j. destruct (_ && _)%bool; [|ring]. cbn [px]. apply G.
Qed.

(* N_ACT_ACROSS_PUPIL = m instead of a spacing: the pitch at which m actuators span the beam's diameter *)
Theorem C89_across_pupil itp tr w z xc yc f k m p : k_nact k = Some m -> (m <> 0)%Z -> IZR m * p = 2 * w_beam w -> p <> 0 ->
  propcustom_dm itp tr w z xc yc 0 f k =
  propcustom_dm itp tr w z xc yc p f (mkkw (k_xyz k) (k_zyx k) (k_xtilt k) (k_ytilt k) (k_ztilt k) (k_sign k) None (k_noapply k)).
Proof.
  intros K M P NZ. assert (IZR m <> 0) by now apply not_0_IZR. replace p with (2 * w_beam w / IZR m) in * by (rewrite <- P; field; auto).
  unfold propcustom_dm. cbn [k_xyz k_zyx k_xtilt k_ytilt k_ztilt k_sign k_nact k_noapply]. rewrite K.
  destruct (Req_EM_T 0 0) as [_|]; [|congruence]. destruct (Z.eqb_spec m 0); [contradiction|]. destruct (Req_EM_T (2 * w_beam w / IZR m) 0); [contradiction|]. reflexivity.
Qed.
Print Assumptions C89_across_pupil.
(* a DM whose two sides take different numbers of pixels is refused *)
Theorem C89_oblong_fails itp tr w z xc yc spacing f k mag sg : (1 <= mag)%Z -> 0 < i_pix f -> i_pitch f = IZR mag * i_pix f -> 0 < spacing -> (0 <= w_n w)%Z ->
  (k_zyx k && k_xyz k)%bool = false -> sign_of (k_sign k) sg -> k_nact k = None ->
  let pitch := spacing / IZR mag in (0 <= window w (nr z) mag pitch)%Z -> (0 <= window w (nc z) mag pitch)%Z -> window w (nr z) mag pitch <> window w (nc z) mag pitch ->
  propcustom_dm itp tr w z xc yc spacing f k = Raise ValueError.
Proof.
  intros M P Pit Sp N Or Sg Na pitch P1 P2 Ne. apply sign_of_ok in Sg. unfold propcustom_dm. rewrite Or, Sg. cbn [rbind]. rewrite Pit, near_exact by auto.
  destruct (Rlt_dec (1 / 10 ^ 8) (Rabs (IZR mag - IZR mag * i_pix f / i_pix f))) as [Bad|_]; auto.
  rewrite Na. destruct (Req_EM_T spacing 0) as [Bad|_]; [lra|]. cbn [rbind]. assert (Mp : 0 < IZR mag) by (apply IZR_lt; lia).
  replace (i_pix f * spacing / (IZR mag * i_pix f)) with pitch by (unfold pitch; field; split; lra). cbv zeta. cbn [conv_same act_grid nr nc].
  assert (W : forall m, Z.min (ZnearestE (sqrt 2 * IZR (m * mag + 2 * margin mag) * pitch / w_dx w)) (w_n w) = window w m mag pitch) by (intros m; unfold window, margin; replace (m * mag + 2 * (9 * mag))%Z with (m * mag + 18 * mag)%Z by ring; reflexivity). rewrite !W.
  set (yd := window w (nr z) mag pitch) in *. set (xd := window w (nc z) mag pitch) in *. assert (Y1 : (yd <= w_n w)%Z) by (unfold yd, window; lia). assert (X1 : (xd <= w_n w)%Z) by (unfold xd, window; lia).
  unfold put, slice_len, fits. destruct tr; cbn [nr nc].
  - set (a := (w_n w / 2 - yd / 2)%Z). set (b := (w_n w / 2 - xd / 2)%Z). assert (A0 : (0 <= a /\ a + yd <= w_n w)%Z) by (unfold a; Z.to_euclidean_division_equations; lia). assert (B0 : (0 <= b /\ b + xd <= w_n w)%Z) by (unfold b; Z.to_euclidean_division_equations; lia).
    replace (Z.max 0 (Z.min (a + yd) (w_n w) - Z.min a (w_n w))) with yd by lia. replace (Z.max 0 (Z.min (b + xd) (w_n w) - Z.min b (w_n w))) with xd by lia.
    destruct (Z.eqb_spec xd yd), (Z.eqb_spec xd 1), (Z.eqb_spec yd xd), (Z.eqb_spec yd 1); cbn [orb andb]; auto; lia.
  - set (a := (w_n w / 2 - yd / 2)%Z). set (b := (w_n w / 2 - xd / 2)%Z). assert (A0 : (0 <= a /\ a + yd <= w_n w)%Z) by (unfold a; Z.to_euclidean_division_equations; lia). assert (B0 : (0 <= b /\ b + xd <= w_n w)%Z) by (unfold b; Z.to_euclidean_division_equations; lia).
    destruct (Z_lt_le_dec xd yd) as [L|L].
    + replace (Z.max 0 (Z.min (a + xd) (w_n w) - Z.min a (w_n w))) with xd by lia. destruct (Z.eqb_spec yd xd); [lia|]. destruct (Z.eqb_spec yd 1); cbn [orb andb]; auto. assert (xd = 0)%Z by lia. destruct (Z.eqb_spec xd (Z.max 0 (Z.min (b + yd) (w_n w) - Z.min b (w_n w)))) as [Q|Q]; [lia|]. destruct (Z.eqb_spec xd 1); [lia|]. reflexivity.
    + replace (Z.max 0 (Z.min (b + yd) (w_n w) - Z.min b (w_n w))) with yd by lia. destruct (Z.eqb_spec xd yd); [lia|]. destruct (Z.eqb_spec xd 1); cbn [orb]; [|now rewrite andb_false_r]. assert (yd = 0)%Z by lia. destruct (Z.eqb_spec yd (Z.max 0 (Z.min (a + xd) (w_n w) - Z.min a (w_n w)))) as [Q|Q]; [lia|]. destruct (Z.eqb_spec yd 1); [lia|]. reflexivity.
Qed.
(* what is refused *)
Theorem C89_refused itp tr w z xc yc spacing f k : ((k_zyx k = true /\ k_xyz k = true) \/ (exists n, k_nact k = Some n /\ spacing <> 0) \/ (k_nact k = None /\ spacing = 0) \/
  (exists s, k_sign k = Some s /\ s <> "+"%string /\ s <> "-"%string) \/ 1 / 10 ^ 8 < Rabs (IZR (ZnearestE (i_pitch f / i_pix f)) - i_pitch f / i_pix f)) -> exists e, propcustom_dm itp tr w z xc yc spacing f k = Raise e.
Proof.
  unfold propcustom_dm. intros H. destruct (k_zyx k && k_xyz k)%bool eqn:O; [eauto|]. destruct (sign_factor (k_sign k)) as [sg|] eqn:S; cbn [rbind]; [|eauto]. destruct (Rlt_dec _ _); [eauto|].
  destruct H as [(A & B)|[(m & A & B)|[(A & B)|[(q & A & B & C)|A]]]].
  - rewrite A, B in O. discriminate.
  - rewrite A. destruct (Req_EM_T spacing 0); [contradiction|]. cbn [rbind]. eauto.
  - rewrite A. destruct (Req_EM_T spacing 0); [|contradiction]. cbn [rbind]. eauto.
  - unfold sign_factor in S. rewrite A in S. destruct (String.eqb_spec q "+"); [contradiction|]. destruct (String.eqb_spec q "-"); [contradiction|]. discriminate.
  - contradiction.
Qed.
(* ---- C90 ---- *)
(* the poke cube turns actuator positions as the surface model turns the mirror *)
Theorem C90_turns_agree XYZ xtilt ytilt zrot xc yc a b : exists z, turned XYZ (xtilt * PI / 180) (ytilt * PI / 180) (zrot * PI / 180) (IZR b - xc, IZR a - yc, 0) = (poke_center XYZ xtilt ytilt zrot xc yc a b, z).
Proof.
  rewrite turned_m. eexists. f_equal. unfold poke_center, rot_xy. replace (- zrot * PI / 180) with (- (zrot * PI / 180)) by field. set (A := xtilt * PI / 180). set (B := ytilt * PI / 180). set (G := zrot * PI / 180).
  destruct XYZ; unfold Mrot, tilt_m; cbv iota beta zeta; rewrite sin_neg, cos_neg; f_equal; ring.
Qed.
(* the point of the DM that the surface model shows u columns and v rows from pixel n//2, in actuators from the first *)
Definition shown (XYZ : bool) (xtilt ytilt zrot xc yc spacing dx u v : R) : R * R :=
  let q := back_project (tilt_m XYZ (xtilt * PI / 180) (ytilt * PI / 180) (zrot * PI / 180)) (u * dx) (v * dx) in (fst q / spacing + xc, snd q / spacing + yc).
Lemma shown_iff XYZ xtilt ytilt zrot xc yc spacing dx u v cb ca : proper_tilt XYZ (xtilt * PI / 180) (ytilt * PI / 180) (zrot * PI / 180) -> spacing <> 0 ->
  shown XYZ xtilt ytilt zrot xc yc spacing dx u v = (cb, ca) <-> exists z, turned XYZ (xtilt * PI / 180) (ytilt * PI / 180) (zrot * PI / 180) ((cb - xc) * spacing, (ca - yc) * spacing, 0) = (u * dx, v * dx, z).
Proof.
  intros P S. rewrite <- C89_projection by auto. unfold shown. cbv zeta. destruct (back_project _ _ _) as [X Y]. cbn [fst snd]. split.
  - intros E. injection E as <- <-. f_equal; field; auto.
  - intros E. injection E as -> ->. f_equal; field; auto.
Qed.
(* pixel-centred arrays: an actuator is shown exactly where the poke cube centres its influence function *)
Theorem C90_pixel_centred XYZ xtilt ytilt zrot xc yc spacing dx nout u v a b : proper_tilt XYZ (xtilt * PI / 180) (ytilt * PI / 180) (zrot * PI / 180) -> 0 < spacing -> 0 < dx -> 0 < nout ->
  let s := cshift false nout dx spacing in
  shown XYZ xtilt ytilt zrot (xc - s) (yc - s) spacing dx u v = (IZR b, IZR a) <-> (u, v) = (fst (poke_center XYZ xtilt ytilt zrot xc yc a b) * (spacing / dx), snd (poke_center XYZ xtilt ytilt zrot xc yc a b) * (spacing / dx)).
Proof.
  intros P S D N s. unfold s, cshift. rewrite !Rminus_0_r. rewrite shown_iff by (auto; lra). destruct (C90_turns_agree XYZ xtilt ytilt zrot xc yc a b) as (z0 & T). destruct (poke_center XYZ xtilt ytilt zrot xc yc a b) as (c1 & c2). cbn [fst snd]. rewrite turned_m in T. injection T as T1 T2 _. setoid_rewrite turned_m.
  set (m := tilt_m XYZ (xtilt * PI / 180) (ytilt * PI / 180) (zrot * PI / 180)) in *. split.
  - intros (z & E). injection E as E1 E2 _. f_equal; apply Rmult_eq_reg_r with dx; try lra; [rewrite <- E1, <- T1|rewrite <- E2, <- T2]; field; lra.
  - intros E. injection E as -> ->. eexists. f_equal. rewrite <- T1, <- T2. f_equal; field; lra.
Qed.

(* in the poke cube, array index ndmpad/2 + t sees the influence function at t pixels minus the actuator's position *)
Theorem C90_stamps x spacing dx ndmpad nbox idx : dx <> 0 -> stamp_sample x spacing dx ndmpad nbox idx = (idx - IZR ndmpad / 2) * dx - x * spacing.
Proof. intros D. unfold stamp_sample. cbv zeta. field. auto. Qed.
(* arrays centred between pixels: without rotation the surface model shows the actuator half a pixel before that place, as it should,
   since the middle of such an array is at (n-1)/2; the poke cube keeps it at n/2 *)
Theorem C90_interpixel_refuted xc yc spacing dx nout u v a b : 0 < spacing -> 0 < dx -> 0 < nout -> let s := cshift true nout dx spacing in
  shown true 0 0 0 (xc - s) (yc - s) spacing dx u v = (IZR b, IZR a) <-> (u, v) = (fst (poke_center true 0 0 0 xc yc a b) * (spacing / dx) - 1 / 2, snd (poke_center true 0 0 0 xc yc a b) * (spacing / dx) - 1 / 2).
Proof.
  intros S D N s. assert (Es : s = - dx / (2 * spacing)) by (unfold s, cshift; field; lra). rewrite shown_iff; [| |lra].
  2:{ unfold proper_tilt, tilt_m. replace (0 * PI / 180) with 0 by field. rewrite cos_0, sin_0. repeat split; lra. }
  unfold poke_center, rot_xy, Mrot. cbv zeta iota. replace (- 0 * PI / 180) with 0 by field. setoid_rewrite turned_m. unfold tilt_m. cbv zeta iota. replace (0 * PI / 180) with 0 by field. rewrite cos_0, sin_0. cbn [fst snd]. rewrite Es. split.
  - intros (z & E). injection E as E1 E2 _. f_equal; apply Rmult_eq_reg_r with dx; try lra; [rewrite <- E1|rewrite <- E2]; field; lra.
  - intros E. injection E as -> ->. eexists. f_equal. f_equal; field; lra.
Qed.
(* with a rotation about z the half-pixel shift of the surface model turns with the mirror, so that a half turn puts it on the other side *)
Theorem C90_interpixel_turns xc yc spacing dx nout u v a b : 0 < spacing -> 0 < dx -> 0 < nout -> let s := cshift true nout dx spacing in
  shown true 0 0 180 (xc - s) (yc - s) spacing dx u v = (IZR b, IZR a) <-> (u, v) = (fst (poke_center true 0 0 180 xc yc a b) * (spacing / dx) + 1 / 2, snd (poke_center true 0 0 180 xc yc a b) * (spacing / dx) + 1 / 2).
Proof.
  intros S D N s. assert (Es : s = - dx / (2 * spacing)) by (unfold s, cshift; field; lra). assert (A : 180 * PI / 180 = PI) by field. rewrite shown_iff; [| |lra].
  2:{ rewrite A. unfold proper_tilt, tilt_m. replace (0 * PI / 180) with 0 by field. rewrite cos_0, sin_0, cos_PI, sin_PI. repeat split; lra. }
  unfold poke_center, rot_xy, Mrot. cbv zeta iota. replace (- (180) * PI / 180) with (- PI) by field. setoid_rewrite turned_m. unfold tilt_m. cbv zeta iota. rewrite A. replace (0 * PI / 180) with 0 by field. rewrite cos_neg, sin_neg, cos_0, sin_0, cos_PI, sin_PI. cbn [fst snd]. rewrite Es. split.
  - intros (z & E). injection E as E1 E2 _. f_equal; apply Rmult_eq_reg_r with dx; try lra; [rewrite <- E1|rewrite <- E2]; field; lra.
  - intros E. injection E as -> ->. eexists. f_equal. f_equal; field; lra.
Qed.
(* Example: one actuator of two by two, pixels of the size of an actuator, no tilt *)
Theorem C90_example : poke_center true 0 0 0 (1 / 2) (1 / 2) 0 1 = (1 / 2, - (1 / 2)) /\ proper_tilt true (0 * PI / 180) (0 * PI / 180) (0 * PI / 180).
Proof.
  split.
  - unfold poke_center, rot_xy, Mrot. cbv zeta iota. replace (- 0 * PI / 180) with 0 by field. replace (0 * PI / 180) with 0 by field. rewrite cos_0, sin_0. f_equal; field.
  - unfold proper_tilt, tilt_m. replace (0 * PI / 180) with 0 by field. rewrite cos_0, sin_0. repeat split; lra.
Qed.
(* Example: one actuator of height 5, an influence function of 9 by 9 with 4 pixels per actuator; pixels of a quarter actuator: the middle pixel shows five times the peak *)
Theorem C89_example : let f := mkinf (mkarr 9 9 (fun i j => if ((i =? 4) && (j =? 4))%Z%bool then 1 else 0)) 1 4 in
  let w := mkwf 8 1 4 in let k := mkkw true false None None None None None true in
  exists s, propcustom_dm plain_cubic false w (mkarr 1 1 (fun _ _ => 5)) 0 0 4 f k = Ok s /\ px s 4 4 = 5.
Proof.
  intros f w k.
  assert (T : proper_tilt true (rad None) (rad None) (rad None)) by (unfold proper_tilt, tilt_m, rad; cbn [opt0]; replace (0 * PI / 180) with 0 by field; rewrite cos_0, sin_0; repeat split; lra).
  destruct (C89_surface plain_cubic false w (mkarr 1 1 (fun _ _ => 5)) 0 0 4 f k 4 1) as (s & E & _ & _ & _ & V); cbn; try lia; try lra; try reflexivity; try apply C89_plain_cubic; auto; try (left; split; [now left|reflexivity]).
  exists s. split; auto. cbn [nr nc] in V. specialize (V 4%Z 4%Z 0%Z 0%Z 0).
  assert (Wd : window w 1 4 (4 / 4) = 8%Z). { unfold window. cbn [w_dx w_n w]. apply Z.min_r. change (1 * 4 + 18 * 4)%Z with 76%Z. eapply Z.le_trans; [|apply Znearest_ge_floor]. apply Zfloor_lub. assert (1 <= sqrt 2) by (rewrite <- sqrt_1 at 1; apply sqrt_le_1; lra). replace (sqrt 2 * 76 * (4 / 4) / 1) with (sqrt 2 * 76) by field. lra. }
  rewrite Wd in V. cbn in V. rewrite V; try lia.
  - unfold get0. cbn. change (Pos.to_nat 1) with 1%nat. cbn. lra.
  - unfold rad, opt0. replace (0 * PI / 180) with 0 by field. rewrite cos_0, sin_0. f_equal; [f_equal|]; field.
Qed.
