(* Property theorems C44 (software dark-hole mask). *)
From Verif Require Import Base RBase StrBase UtilModel UtilSpec UtilProofs MaskModel MaskSpec MaskProofs.
From Verif Require EstModel EstProofs2.
Open Scope R_scope.

Lemma lookup_cons {A} s k (v : A) l : lookup s ((k, v) :: l) = if String.eqb s k then Some v else lookup s l.
Proof. unfold lookup. cbn. destruct (String.eqb s k); reflexivity. Qed.
Lemma sides_table s : match lookup s side_names with
  | Some (c, b) => side_angle s = Some c /\ two_sided s = b
  | None => side_angle s = None end.
Proof.
  unfold side_names. rewrite !lookup_cons. unfold side_angle, two_sided, str_in. cbn [existsb].
  repeat match goal with |- context [String.eqb s ?k] => destruct (String.eqb_spec s k); [subst s; cbn; try (split; reflexivity)|] end.
  reflexivity.
Qed.
Lemma holes_table s : lookup s hole_names = hole_of s.
Proof.
  unfold hole_names. rewrite !lookup_cons. unfold hole_of, str_in. cbn [existsb].
  repeat match goal with |- context [String.eqb s ?k] => destruct (String.eqb_spec s k); [subst s; reflexivity|] end.
  reflexivity.
Qed.
Lemma inter_table s : match lookup s inter_names with
  | Some b => str_in s ["pixel"; "interpixel"]%string = true /\ String.eqb s "interpixel" = b
  | None => str_in s ["pixel"; "interpixel"]%string = false end.
Proof.
  unfold inter_names. rewrite !lookup_cons. unfold str_in. cbn [existsb].
  repeat match goal with |- context [String.eqb s ?k] => destruct (String.eqb_spec s k); [subst s; cbn; try (split; reflexivity)|] end.
  reflexivity.
Qed.

(* parts of the configuration, defaults filled in *)
Definition cen_of (p : sw_in) := dget (centering p) "pixel"%string.
Definition shape_of (p : sw_in) := lower (dget (shape p) "circle"%string).
Definition xo_of (p : sw_in) := dget (xiOffset p) 0.
Definition eo_of (p : sw_in) := dget (etaOffset p) 0.
Definition clk_of (p : sw_in) := radians (dget (clockAngDeg p) 0).

(* The call succeeds exactly when the names are known; an unknown name is a ValueError. *)
Theorem C44_accepts : forall p, pixresFP p <> 0 ->
  ((exists out, falco_gen_SW_mask p = Ok out) <->
   lookup (cen_of p) inter_names <> None /\ lookup (whichSide p) side_names <> None /\ lookup (shape_of p) hole_names <> None)
  /\ (forall e, falco_gen_SW_mask p = Raise e -> e = ValueError).
Proof.
  intros p Hr. pose proof (inter_table (cen_of p)) as T1. pose proof (sides_table (whichSide p)) as T2. pose proof (holes_table (shape_of p)) as T3.
  rewrite T3. unfold falco_gen_SW_mask. fold (cen_of p) (shape_of p).
  destruct (lookup (cen_of p) inter_names); [destruct T1 as [-> _]|rewrite T1]; cbn [negb].
  2:{ split; [|intros e Q; congruence]. split; [intros [o Q]; discriminate|]. intros (Q & _). congruence. }
  destruct (Req_EM_T (pixresFP p) 0); [contradiction|].
  destruct (lookup (whichSide p) side_names) as [[c two]|]; [destruct T2 as [-> _]|rewrite T2].
  2:{ split; [|intros e Q; congruence]. split; [intros [o Q]; discriminate|]. intros (_ & Q & _). congruence. }
  destruct (hole_of (shape_of p)) as [h|] eqn:Eh.
  - destruct (shape_test_some (shape_of p) h 0 0 0 0 0 Eh) as [b0 ->]. split; [|intros e Q; discriminate].
    split; [|eauto]. intros _. repeat split; discriminate.
  - rewrite (shape_test_none _ _ _ _ _ _ Eh). split; [|intros e Q; congruence]. split; [intros [o Q]; discriminate|]. intros (_ & _ & Q). congruence.
Qed.

(* A pixel away from the centre of the region is selected iff its coordinates are in the configured shape
   (radii widened by 13 machine epsilons) and in the cone around the chosen side, or around the opposite
   side for the two-sided names. *)
Theorem C44_selects_exactly : forall p inter c two h,
  lookup (cen_of p) inter_names = Some inter -> lookup (whichSide p) side_names = Some (c, two) ->
  lookup (shape_of p) hole_names = Some h ->
  pixresFP p <> 0 -> 0 <= rhoInner p -> 0 <= rhoOuter p -> 0 <= angDeg p <= 360 ->
  exists out, falco_gen_SW_mask p = Ok out /\
  forall i j, let x := sw_xis out j - xo_of p in let y := sw_etas out i - eo_of p in
    let C := c + clk_of p in let a := angDeg p * PI / 180 in
    (x <> 0 \/ y <> 0) ->
    (px (sw_mask out) i j = true <->
     in_hole h C (rhoInner p - 13 * eps) (rhoOuter p + 13 * eps) x y /\
     (in_cone a C x y \/ (two = true /\ in_cone a (C + PI) x y))).
Proof.
  intros p inter c two h H1 H2 H3 Hres Hri Hro Ha.
  pose proof (inter_table (cen_of p)) as T1. pose proof (sides_table (whichSide p)) as T2. rewrite holes_table in H3. rewrite H1 in T1. rewrite H2 in T2.
  destruct T1 as [T1 T1']. destruct T2 as [T2 T2'].
  destruct (shape_test_some (shape_of p) h 0 0 0 0 0 H3) as [b0 Eb].
  unfold falco_gen_SW_mask. fold (cen_of p) (shape_of p). rewrite T1. cbn [negb].
  destruct (Req_EM_T (pixresFP p) 0); [contradiction|]. rewrite T2, Eb. eexists. split; [reflexivity|].
  intros i j. cbn [sw_xis sw_etas sw_mask px]. fold (xo_of p) (eo_of p) (clk_of p).
  set (x := sw_axis _ _ _ j - xo_of p). set (y := sw_axis _ _ _ i - eo_of p). cbv zeta. intros Hxy.
  destruct (shape_spec (shape_of p) h (c + clk_of p) (rhoInner p - 13 * eps) (rhoOuter p + 13 * eps) x y H3) as (b & -> & Hb).
  { lra. }
  assert (Hrad : 0 <= radians (angDeg p) <= 2 * PI) by (unfold radians; pose proof PI_RGT_0; split; nra).
  rewrite T2', orb_true_iff, !andb_true_iff, Hb, !sector_cone by auto. unfold radians. tauto.
Qed.
(* With an inner radius above 13 machine epsilons the centre of the region itself is never selected. *)
Theorem C44_centre_excluded : forall p out i j, falco_gen_SW_mask p = Ok out -> 13 * eps < rhoInner p ->
  sw_xis out j = xo_of p -> sw_etas out i = eo_of p -> px (sw_mask out) i j = false.
Proof.
  intros p out i j E Hri Hx Hy. unfold falco_gen_SW_mask in E. fold (shape_of p) in E.
  destruct (negb _); [discriminate|]. destruct (Req_EM_T _ 0); [discriminate|]. destruct (side_angle _) as [c0|]; [|discriminate].
  destruct (hole_of (shape_of p)) as [h|] eqn:Eh; [|rewrite (shape_test_none _ _ _ _ _ _ Eh) in E; discriminate].
  destruct (shape_test_some _ _ 0 0 0 0 0 Eh) as [b Eb]. rewrite Eb in E. injection E as <-.
  cbn [sw_xis sw_etas sw_mask px] in *. unfold xo_of, eo_of in Hx, Hy. rewrite Hx, Hy. fold (xo_of p) (eo_of p).
  replace (xo_of p - xo_of p) with 0 by ring. replace (eo_of p - eo_of p) with 0 by ring. rewrite Rmult_0_l, Rplus_0_l, sqrt_0.
  assert (F : forall th c ri ro b, 0 < ri -> shape_test (shape_of p) 0 th c ri ro = Some b -> b = false).
  { intros th c ri ro bb Hp. unfold shape_test. rewrite !Rmult_0_l.
    assert (R1 : Rle_bool ri 0 = false) by (apply Rle_bool_false; lra). assert (R2 : Rle_bool 0 (- ri) = false) by (apply Rle_bool_false; lra).
    rewrite R1, R2, ?andb_false_r, ?andb_false_l, ?orb_false_r, ?orb_false_l.
    repeat match goal with |- context [str_in ?a ?l] => destruct (str_in a l) end; intros Q; (discriminate || (inversion Q; reflexivity)). }
  match goal with |- match ?t with _ => _ end = _ => destruct t as [b1|] eqn:E1; [|reflexivity] end.
  apply F in E1; [|lra]. subst b1. now rewrite andb_false_l, andb_false_r.
Qed.

(* Coordinates and size of the array. *)
Theorem C44_coordinates : forall p out inter, falco_gen_SW_mask p = Ok out -> lookup (cen_of p) inter_names = Some inter ->
  forall k,
  ((0 < nc (sw_mask out))%Z -> sw_xis out k = (IZR k - (if inter then (IZR (nc (sw_mask out)) - 1) / 2 else IZR (nc (sw_mask out)) / 2)) / pixresFP p) /\
  ((0 < nr (sw_mask out))%Z -> sw_etas out k = (IZR k - (if inter then (IZR (nr (sw_mask out)) - 1) / 2 else IZR (nr (sw_mask out)) / 2)) / pixresFP p).
Proof.
  intros p out inter E Hi k. pose proof (inter_table (cen_of p)) as T1. rewrite Hi in T1. destruct T1 as [_ T1].
  unfold falco_gen_SW_mask in E. fold (shape_of p) (cen_of p) in E. rewrite T1 in E.
  destruct (negb _); [discriminate|]. destruct (Req_EM_T _ 0); [discriminate|]. destruct (side_angle _) as [c0|]; [|discriminate].
  destruct (shape_test _ 0 0 0 0 0); [|discriminate]. injection E as <-. cbn [sw_mask nr nc sw_xis sw_etas].
  split; intros Hk; rewrite Z.max_r by lia; unfold sw_axis; destruct inter; unfold Rdiv; ring.
Qed.
Theorem C44_default_size_even : forall p out, falco_gen_SW_mask p = Ok out -> Nxi p = None -> Neta p = None ->
  (nc (sw_mask out) mod 2 = 0 /\ nr (sw_mask out) mod 2 = 0)%Z.
Proof.
  intros p out E H1 H2. unfold falco_gen_SW_mask in E. destruct (negb _); [discriminate|]. destruct (Req_EM_T _ 0); [discriminate|].
  destruct (side_angle _); [|discriminate]. destruct (shape_test _ 0 0 0 0 0); [|discriminate]. injection E as <-. cbn [sw_mask nr nc]. rewrite H1, H2. cbn [dget].
  assert (G : forall i f q0, (Z.max 0 (default_size i f q0) mod 2 = 0)%Z).
  { intros i f q0. unfold default_size. destruct i; match goal with |- context [ceil_even ?q] => destruct (ceil_even_ge q) as [_ [k ->]] end; lia. }
  auto.
Qed.

(* With default sizes the array covers the region: every point of the (infinite) pixel grid whose distance
   from the centre of the region is at most the (widened) outer radius has a pixel in the array, as long as the
   widening is below half a pixel. *)
Lemma axis_covers inter minFOV res d k : 0 < res -> 0 <= minFOV -> d * res < 1/2 -> Rabs ((IZR k + (if inter : bool then 1/2 else 0)) / res) <= minFOV + d ->
  let N := default_size inter minFOV res in
  (0 <= k + N / 2 < Z.max 0 N)%Z /\ sw_axis inter (Z.max 0 N) (1 / res) (k + N / 2) = (IZR k + (if inter then 1/2 else 0)) / res.
Proof.
  intros Hr Hf Hd Hk N. apply Rabs_le_inv in Hk.
  assert (Hk2 : - (minFOV * res + d * res) <= IZR k + (if inter then 1/2 else 0) <= minFOV * res + d * res).
  { destruct Hk as [Ha Hb]. split.
    - apply (Rmult_le_compat_r res) in Ha; [|lra]. unfold Rdiv in Ha. rewrite Rmult_assoc, Rinv_l in Ha by lra. lra.
    - apply (Rmult_le_compat_r res) in Hb; [|lra]. unfold Rdiv in Hb. rewrite Rmult_assoc, Rinv_l in Hb by lra. lra. }
  assert (HN : exists m, (N = 2 * m)%Z /\ minFOV * res + (if inter then 0 else 1/2) <= IZR m).
  { unfold N, default_size. destruct inter; match goal with |- context [ceil_even ?q] => destruct (ceil_even_ge q) as [G [m Em]] end; exists m; (split; [exact Em|]);
      rewrite Em, mult_IZR in G; lra. }
  destruct HN as (m & Em & Hm). rewrite Em, Z.mul_comm, Z.div_mul by lia.
  assert (Hkm : (- m <= k < m)%Z).
  { destruct inter.
    - split.
      + assert (IZR (- m - 1) < IZR k) by (rewrite minus_IZR, opp_IZR; lra). apply lt_IZR in H. lia.
      + apply lt_IZR. lra.
    - split.
      + assert (IZR (- m - 1) < IZR k) by (rewrite minus_IZR, opp_IZR; lra). apply lt_IZR in H. lia.
      + apply lt_IZR. lra. }
  split; [lia|]. rewrite Z.max_r by lia. unfold sw_axis. rewrite mult_IZR, plus_IZR. destruct inter; unfold Rdiv; field; lra.
Qed.
Lemma dist_x x y r : dist x y <= r -> Rabs x <= r /\ Rabs y <= r.
Proof.
  unfold dist. intros H. rewrite <- (sqrt_Rsqr_abs x), <- (sqrt_Rsqr_abs y). unfold Rsqr. split; eapply Rle_trans; try exact H; apply sqrt_le_1_alt; nra.
Qed.
Lemma covers_box p out inter kx ky d : falco_gen_SW_mask p = Ok out -> lookup (cen_of p) inter_names = Some inter -> 0 < pixresFP p ->
  xiFOV p = None -> etaFOV p = None -> Nxi p = None -> Neta p = None ->
  let x := (IZR kx + (if inter then 1/2 else 0)) / pixresFP p in let y := (IZR ky + (if inter then 1/2 else 0)) / pixresFP p in
  let W := max_extent (shape_of p) (dget (clockAngDeg p) 0) * dget (FOV p) (rhoOuter p) in
  0 <= W -> d * pixresFP p < 1/2 -> Rabs (x - xo_of p) <= W + d -> Rabs (y - eo_of p) <= W + d ->
  exists i j, (0 <= i < nr (sw_mask out))%Z /\ (0 <= j < nc (sw_mask out))%Z /\ sw_xis out j = x /\ sw_etas out i = y.
Proof.
  intros E Hi Hr F1 F2 F3 F4 x y W HW Hd Hx Hy. pose proof (inter_table (cen_of p)) as T1. rewrite Hi in T1. destruct T1 as [_ T1].
  unfold falco_gen_SW_mask in E. fold (shape_of p) (cen_of p) (xo_of p) (eo_of p) in E. rewrite T1 in E.
  destruct (negb _); [discriminate|]. destruct (Req_EM_T _ 0); [discriminate|]. destruct (side_angle _) as [c0|]; [|discriminate].
  destruct (shape_test _ 0 0 0 0 0); [|discriminate]. rewrite F1, F2, F3, F4 in E. cbn [dget] in E. fold W in E. injection E as <-. cbn [sw_mask nr nc sw_xis sw_etas].
  assert (Q : forall o k, Rabs ((IZR k + (if inter then 1/2 else 0)) / pixresFP p - o) <= W + d ->
    exists i, (0 <= i < Z.max 0 (default_size inter (W + Rabs o) (pixresFP p)))%Z /\
      sw_axis inter (default_size inter (W + Rabs o) (pixresFP p)) (1 / pixresFP p) i = (IZR k + (if inter then 1/2 else 0)) / pixresFP p).
  { intros o k Hk. pose proof (Rabs_pos o).
    destruct (axis_covers inter (W + Rabs o) (pixresFP p) d k) as [A B]; [auto|lra|auto| |].
    - replace ((IZR k + (if inter then 1/2 else 0)) / pixresFP p) with (((IZR k + (if inter then 1/2 else 0)) / pixresFP p - o) + o) by ring.
      eapply Rle_trans; [apply Rabs_triang|]. lra.
    - eexists. split; [exact A|]. rewrite Z.max_r in B by lia. exact B. }
  destruct (Q _ _ Hx) as (j & J1 & J2). destruct (Q _ _ Hy) as (i & I1 & I2). exists i, j. auto.
Qed.
Theorem C44_covers_round : forall p out inter kx ky, falco_gen_SW_mask p = Ok out -> lookup (cen_of p) inter_names = Some inter -> 0 < pixresFP p ->
  xiFOV p = None -> etaFOV p = None -> Nxi p = None -> Neta p = None -> 0 <= rhoOuter p <= dget (FOV p) (rhoOuter p) -> 13 * eps * pixresFP p < 1/2 ->
  let x := (IZR kx + (if inter then 1/2 else 0)) / pixresFP p in let y := (IZR ky + (if inter then 1/2 else 0)) / pixresFP p in
  dist (x - xo_of p) (y - eo_of p) <= rhoOuter p + 13 * eps ->
  exists i j, (0 <= i < nr (sw_mask out))%Z /\ (0 <= j < nc (sw_mask out))%Z /\ sw_xis out j = x /\ sw_etas out i = y.
Proof.
  intros p out inter kx ky E Hi Hr F1 F2 F3 F4 HF Heps x y Hd. destruct (dist_x _ _ _ Hd) as [Hx Hy].
  assert (HW : rhoOuter p <= max_extent (shape_of p) (dget (clockAngDeg p) 0) * dget (FOV p) (rhoOuter p)).
  { assert (1 <= max_extent (shape_of p) (dget (clockAngDeg p) 0)) by (unfold max_extent; destruct (str_in _ _); [apply Rmax_l|lra]). nra. }
  eapply (covers_box p out inter kx ky (13 * eps)); eauto; try lra; fold x y; lra.
Qed.
(* Also for squares and rectangles that are not clocked. *)
Theorem C44_covers_square : forall p out inter c two h kx ky, falco_gen_SW_mask p = Ok out -> lookup (cen_of p) inter_names = Some inter -> 0 < pixresFP p ->
  lookup (whichSide p) side_names = Some (c, two) -> lookup (shape_of p) hole_names = Some h -> (h = SquareHole \/ h = Slab) ->
  xiFOV p = None -> etaFOV p = None -> Nxi p = None -> Neta p = None -> FOV p = None -> clockAngDeg p = None -> 0 <= rhoOuter p -> 13 * eps * pixresFP p < 1/2 ->
  let x := (IZR kx + (if inter then 1/2 else 0)) / pixresFP p in let y := (IZR ky + (if inter then 1/2 else 0)) / pixresFP p in
  in_hole h c (rhoInner p - 13 * eps) (rhoOuter p + 13 * eps) (x - xo_of p) (y - eo_of p) ->
  exists i j, (0 <= i < nr (sw_mask out))%Z /\ (0 <= j < nc (sw_mask out))%Z /\ sw_xis out j = x /\ sw_etas out i = y.
Proof.
  intros p out inter c two h kx ky E Hi Hr Hs Hh Hsq F1 F2 F3 F4 F5 F6 Hro Heps x y Hin.
  assert (Hab : Rabs (along c (x - xo_of p) (y - eo_of p)) <= rhoOuter p + 13 * eps /\ Rabs (across c (x - xo_of p) (y - eo_of p)) <= rhoOuter p + 13 * eps).
  { destruct Hsq as [-> | ->]; cbn in Hin; tauto. }
  assert (Hxy : Rabs (x - xo_of p) <= rhoOuter p + 13 * eps /\ Rabs (y - eo_of p) <= rhoOuter p + 13 * eps).
  { assert (cos c = 0 /\ (sin c = 1 \/ sin c = -1) \/ (sin c = 0 /\ (cos c = 1 \/ cos c = -1))) as Hc.
    { assert (C32 : cos (3 / 2 * PI) = 0 /\ sin (3 / 2 * PI) = -1).
      { replace (3 / 2 * PI) with (PI / 2 + PI) by field. rewrite neg_cos, neg_sin, cos_PI2, sin_PI2. lra. }
      unfold side_names in Hs. rewrite !lookup_cons in Hs.
      repeat match type of Hs with context [String.eqb ?a ?k] => destruct (String.eqb a k); [injection Hs as <- <-; first [rewrite cos_0, sin_0; lra|rewrite cos_PI, sin_PI; lra|rewrite cos_PI2, sin_PI2; lra|lra]|] end.
      discriminate. }
    unfold along, across in Hab. destruct Hab as [A B].
    destruct Hc as [[Hc [Hs1|Hs1]]|[Hs1 [Hc|Hc]]]; rewrite Hc, Hs1 in A, B; rewrite abs_le in A, B; rewrite !abs_le; lra. }
  assert (HW : rhoOuter p <= max_extent (shape_of p) (dget (clockAngDeg p) 0) * dget (FOV p) (rhoOuter p)).
  { rewrite F5. cbn [dget]. assert (1 <= max_extent (shape_of p) (dget (clockAngDeg p) 0)) by (unfold max_extent; destruct (str_in _ _); [apply Rmax_l|lra]). nra. }
  eapply (covers_box p out inter kx ky (13 * eps)); eauto; try lra; fold x y; lra.
Qed.
(* Refuted for clocked squares: at 60 degrees the array is as small as for a circle and part of the square is cut off. *)
Definition clocked : sw_in := mksw 10 0 10 360 "both" None (Some "square"%string) (Some 60) None None None None None None None.
Theorem C44_clocked_square_cut_refuted : exists out kx ky, falco_gen_SW_mask clocked = Ok out /\
  (let x := IZR kx / pixresFP clocked in let y := IZR ky / pixresFP clocked in
   in_hole SquareHole (60 * PI / 180) (rhoInner clocked) (rhoOuter clocked) x y /\
   forall j, (0 <= j < nc (sw_mask out))%Z -> sw_xis out j <> x).
Proof.
  destruct (C44_selects_exactly clocked false 0 true SquareHole) as (out & E & _); try reflexivity; try (cbn; lra).
  exists out, 130%Z, 35%Z. split; [exact E|]. cbv zeta. cbn [pixresFP clocked rhoInner rhoOuter].
  assert (C60 : cos (60 * PI / 180) = 1 / 2 /\ sin (60 * PI / 180) = sqrt 3 / 2) by (replace (60 * PI / 180) with (PI / 3) by field; split; [apply cos_PI3|apply sin_PI3]).
  destruct C60 as [Cc Cs]. assert (S3 : 1.7 < sqrt 3 < 1.74) by (split; [rewrite <- (sqrt_square 1.7) by lra|rewrite <- (sqrt_square 1.74) by lra]; apply sqrt_lt_1; lra).
  split.
  - cbn. unfold along, across. rewrite Cc, Cs. split; [apply Rabs_le; lra|]. split; [apply Rabs_le; lra|apply sqrt_pos].
  - intros j Hj. destruct (C44_coordinates clocked out false E eq_refl j) as [Q _]. rewrite Q by lia.
    assert (HN : nc (sw_mask out) = 202%Z).
    { unfold falco_gen_SW_mask, clocked in E. cbn [centering dget shape clockAngDeg xiOffset etaOffset FOV xiFOV etaFOV Nxi Neta pixresFP rhoOuter] in E.
      destruct (negb _); [discriminate|]. destruct (Req_EM_T _ 0); [discriminate|]. destruct (side_angle _) as [c0|]; [|discriminate].
      destruct (shape_test _ 0 0 0 0 0); [|discriminate]. injection E as <-. cbn [sw_mask nc].
      assert (M : max_extent (lower "square") 60 = 1) by (unfold max_extent, radians; cbn [lower str_in existsb]; change (str_in (lower "square") ["square"; "rect"; "rectangle"]%string) with true; cbn iota; rewrite Cc, Rabs_pos_eq by lra; apply Rmax_left; lra).
      match goal with |- context [max_extent ?w 60] => change w with (lower "square") end. rewrite M, Rabs_R0.
      replace (2 * ((1 * 10 + 0) * 10 + 1 / 2)) with 201 by field. unfold ceil_even. replace (/ 2 * 201) with (100 + /2) by field.
      rewrite (Zceil_imp 101); [reflexivity|]. cbn. lra. }
    rewrite HN in *. intros Q2. cbn [pixresFP clocked] in Q2. assert (IZR j <= 201) by (apply IZR_le; lia). lra.
Qed.

(* The mask and the image use the same coordinates (create_axis is what the propagation uses), except for
   user-given odd sizes with pixel centring, where the mask is half a pixel off. *)
Theorem C44_same_axis_as_image : forall inter N d k, (0 < N)%Z -> 0 < d -> (inter = true \/ (N mod 2 = 0)%Z) -> (0 <= k < N)%Z ->
  exists ax, create_axis N d inter = Ok ax /\ sw_axis inter N d k = nth (Z.to_nat k) ax 0.
Proof.
  intros inter N d k HN Hd Hp Hk. destruct (create_axis_spec N d inter HN Hd) as (ax & E & L & H). exists ax. split; [auto|]. rewrite H by auto. unfold sw_axis.
  rewrite minus_IZR. destruct (N mod 2 =? 0)%Z eqn:P.
  - apply Z.eqb_eq in P. assert (HN2 : IZR N = 2 * IZR (N / 2)) by (rewrite <- mult_IZR; f_equal; lia). rewrite HN2. destruct inter; cbn [andb]; field.
  - apply Z.eqb_neq in P. destruct Hp as [-> | Hp]; [|lia]. cbn [andb]. assert (HN2 : IZR N = 2 * IZR (N / 2) + 1) by (rewrite <- mult_IZR, <- plus_IZR; f_equal; lia). rewrite HN2. field.
Qed.
Theorem C44_odd_pixel_axis_refuted : forall N d k, (0 < N)%Z -> 0 < d -> (N mod 2 = 1)%Z -> (0 <= k < N)%Z ->
  exists ax, create_axis N d false = Ok ax /\ sw_axis false N d k = nth (Z.to_nat k) ax 0 - d / 2.
Proof.
  intros N d k HN Hd Hp Hk. destruct (create_axis_spec N d false HN Hd) as (ax & E & L & H). exists ax. split; [auto|]. rewrite H by auto. unfold sw_axis.
  cbn [andb]. rewrite minus_IZR. assert (HN2 : IZR N = 2 * IZR (N / 2) + 1) by (rewrite <- mult_IZR, <- plus_IZR; f_equal; lia). rewrite HN2. field.
Qed.
Print Assumptions C44_accepts. Print Assumptions C44_selects_exactly. Print Assumptions C44_centre_excluded. Print Assumptions C44_coordinates.
Print Assumptions C44_default_size_even. Print Assumptions C44_covers_round. Print Assumptions C44_covers_square.
Print Assumptions C44_clocked_square_cut_refuted. Print Assumptions C44_same_axis_as_image. Print Assumptions C44_odd_pixel_axis_refuted.
