From Verif Require Import Base RBase StrBase UtilModel UtilSpec UtilProofs MaskModel MaskSpec MaskProofs MaskProps HoleModel.
Open Scope R_scope.

(* is the pixel at this offset from the array centre selected *)
Definition sel (m : arr bool) (dy dx : Z) : bool := default false (at_offset m dy dx).

Lemma grow_sel (m : arr bool) r c : (0 <= nr m)%Z -> (0 <= nc m)%Z -> (0 < r)%Z -> (0 < c)%Z -> (nr m <= r)%Z -> (nc m <= c)%Z ->
  exists o, pad_crop m r c false = Ok o /\ nr o = r /\ nc o = c /\ forall dy dx, sel o dy dx = sel m dy dx.
Proof.
  intros H1 H2 H3 H4 H5 H6. destruct (pad_crop_recentred m r c false H1 H2 H3 H4) as (o & E & HR). exists o. split; [auto|].
  pose proof HR as (R1 & R2 & _). split; [auto|]. split; [auto|]. intros dy dx. unfold sel. rewrite (at_offset_recentred _ _ _ _ _ dy dx HR).
  destruct (in_size (r, c) dy dx) eqn:Ei; [reflexivity|]. cbn [default]. unfold at_offset.
  match goal with |- _ = default _ (if ?b then _ else _) => destruct b eqn:Eb end; [|reflexivity].
  exfalso. unfold in_size in Ei. assert (nr m / 2 <= r / 2)%Z by (apply Z.div_le_mono; lia). assert (nc m / 2 <= c / 2)%Z by (apply Z.div_le_mono; lia). lia.
Qed.
Lemma combine_sel acc m : (0 < nr acc)%Z -> (0 < nc acc)%Z -> (0 <= nr m)%Z -> (0 <= nc m)%Z ->
  exists o, combine acc m = Ok o /\ nr o = Z.max (nr m) (nr acc) /\ nc o = Z.max (nc m) (nc acc) /\
    forall dy dx, sel o dy dx = sel acc dy dx || sel m dy dx.
Proof.
  intros H1 H2 H3 H4. unfold combine.
  destruct (grow_sel acc (Z.max (nr m) (nr acc)) (Z.max (nc m) (nc acc))) as (a & -> & A1 & A2 & A3); try lia.
  destruct (grow_sel m (Z.max (nr m) (nr acc)) (Z.max (nc m) (nc acc))) as (b & -> & B1 & B2 & B3); try lia.
  cbn [rbind]. eexists. split; [reflexivity|]. cbn [mor nr nc]. rewrite A1, A2. split; [auto|]. split; [auto|]. intros dy dx.
  rewrite <- A3, <- B3. unfold sel, at_offset. cbn [mor nr nc px]. rewrite A1, A2, B1, B2.
  match goal with |- default _ (if ?b then _ else _) = _ => destruct b end; reflexivity.
Qed.
Lemma sw_size p o : falco_gen_SW_mask p = Ok o -> (0 <= nr (sw_mask o))%Z /\ (0 <= nc (sw_mask o))%Z.
Proof.
  unfold falco_gen_SW_mask. destruct (negb _); [discriminate|]. destruct (Req_EM_T _ 0); [discriminate|]. destruct (side_angle _); [|discriminate].
  destruct (shape_test _ 0 0 0 0 0); [|discriminate]. intros Q. injection Q as <-. cbn [sw_mask nr nc]. lia.
Qed.
Definition zone (f : fend) (i : nat) (p : sw_in) (o : sw_out) : Prop := corr_in f i = Ok p /\ falco_gen_SW_mask p = Ok o.
Lemma corr_loop_spec f : forall zones acc out, (0 < nr acc)%Z -> (0 < nc acc)%Z -> corr_loop f zones acc = Ok out ->
  (forall i, In i zones -> exists p o, zone f i p o) /\
  (forall dy dx, sel out dy dx = true <-> sel acc dy dx = true \/ exists i p o, In i zones /\ zone f i p o /\ sel (sw_mask o) dy dx = true) /\
  (nr acc <= nr out)%Z /\ (nc acc <= nc out)%Z /\
  (nr out = nr acc \/ exists i p o, In i zones /\ zone f i p o /\ nr out = nr (sw_mask o)) /\
  (nc out = nc acc \/ exists i p o, In i zones /\ zone f i p o /\ nc out = nc (sw_mask o)) /\
  (forall i p o, In i zones -> zone f i p o -> (nr (sw_mask o) <= nr out)%Z /\ (nc (sw_mask o) <= nc out)%Z).
Proof.
  induction zones as [|z t IH]; intros acc out P1 P2 E; cbn in E.
  - injection E as <-. split; [intros i []|]. split; [|split; [lia|split; [lia|split; [auto|split; [auto|intros ? ? ? []]]]]].
    intros. split; [auto|]. intros [H|(i & p & o & [] & _)]; auto.
  - destruct (corr_in f z) as [p|] eqn:E1; [|discriminate]. cbn [rbind] in E. destruct (falco_gen_SW_mask p) as [o|] eqn:E2; [|discriminate]. cbn [rbind] in E.
    destruct (sw_size p o E2) as [S1 S2]. destruct (combine_sel acc (sw_mask o) P1 P2 S1 S2) as (a & E3 & A1 & A2 & A3). rewrite E3 in E. cbn [rbind] in E.
    destruct (IH a out) as (Q1 & Q2 & Q3 & Q4 & Q5 & Q6 & Q7); [lia|lia|auto|]. assert (Hz : zone f z p o) by (split; auto).
    split; [intros i [<-|Hi]; eauto|]. split; [|split; [lia|split; [lia|split; [|split]]]].
    + intros dy dx. rewrite Q2, A3, orb_true_iff. split.
      * intros [[H|H]|(i & p' & o' & Hi & H)]; [auto|right; exists z, p, o; cbn; auto|right; exists i, p', o'; cbn; tauto].
      * intros [H|(i & p' & o' & [<-|Hi] & Hz' & H)]; [auto| |right; exists i, p', o'; auto].
        destruct Hz' as [Z1 Z2]. assert (p' = p) by congruence. subst p'. assert (o' = o) by congruence. subst o'. auto.
    + destruct Q5 as [Q|(i & p' & o' & Hi & Q)]; [|right; exists i, p', o'; cbn; tauto]. rewrite Q, A1.
      destruct (Z.max_spec (nr (sw_mask o)) (nr acc)) as [[_ ->]|[_ ->]]; [auto|]. right. exists z, p, o. cbn. auto.
    + destruct Q6 as [Q|(i & p' & o' & Hi & Q)]; [|right; exists i, p', o'; cbn; tauto]. rewrite Q, A2.
      destruct (Z.max_spec (nc (sw_mask o)) (nc acc)) as [[_ ->]|[_ ->]]; [auto|]. right. exists z, p, o. cbn. auto.
    + intros i p' o' [<-|Hi] Hz'; [|eauto]. destruct Hz' as [Z1 Z2]. assert (p' = p) by congruence. subst p'. assert (o' = o) by congruence. subst o'. lia.
Qed.

(* fields of the dictionaries *)
Lemma corr_in_fields f i p : corr_in f i = Ok p ->
  pixresFP p = f_res f /\ centering p = Some (f_cen f) /\ FOV p = f_FOV f /\ xiFOV p = f_xiFOV f /\ etaFOV p = f_etaFOV f /\ Nxi p = f_Nxi f /\ Neta p = f_Neta f /\
  nth_error (cRin f) i = Some (rhoInner p) /\ nth_error (cRout f) i = Some (rhoOuter p) /\ nth_error (cang f) i = Some (angDeg p) /\
  nth_error (f_sides f) i = Some (whichSide p) /\ (match f_xo f with Some l => nth_error l i = xiOffset p | None => xiOffset p = None end) /\
  (match f_eo f with Some l => nth_error l i = etaOffset p | None => etaOffset p = None end) /\
  (match f_clock f with Some l => nth_error l i = clockAngDeg p | None => clockAngDeg p = None end) /\ nth_error (shapes f) i = shape p.
Proof.
  unfold corr_in, idx, oidx. intros E.
  destruct (nth_error (cRin f) i); [|discriminate]. destruct (nth_error (cRout f) i); [|discriminate]. destruct (nth_error (cang f) i); [|discriminate].
  destruct (nth_error (f_sides f) i); [|discriminate]. destruct (nth_error (shapes f) i); [|discriminate]. cbn [rbind] in E.
  destruct (f_clock f) as [lc|]; [unfold idx in E; destruct (nth_error lc i); [|discriminate]|]; cbn [rbind] in E;
  (destruct (f_xo f) as [lx|]; [unfold idx in E; destruct (nth_error lx i); [|discriminate]|]; cbn [rbind] in E);
  (destruct (f_eo f) as [le|]; [unfold idx in E; destruct (nth_error le i); [|discriminate]|]; cbn [rbind] in E); injection E as <-; cbn; auto 20.
Qed.

(* selected pixels are in the (widened) region; the centre included *)
Lemma selected_in_region p out c two h : falco_gen_SW_mask p = Ok out -> lookup (whichSide p) side_names = Some (c, two) ->
  lookup (shape_of p) hole_names = Some h -> 0 <= rhoInner p -> 0 <= rhoOuter p -> 0 <= angDeg p <= 360 ->
  forall i j, px (sw_mask out) i j = true ->
    in_region h (c + clk_of p) (angDeg p * PI / 180) two (rhoInner p - 13 * eps) (rhoOuter p + 13 * eps) (sw_xis out j - xo_of p) (sw_etas out i - eo_of p).
Proof.
  intros E H2 H3 Hri Hro Ha i j. pose proof (sides_table (whichSide p)) as T2. rewrite holes_table in H3. rewrite H2 in T2. destruct T2 as [T2 T2'].
  unfold falco_gen_SW_mask in E. fold (shape_of p) in E. destruct (negb _); [discriminate|]. destruct (Req_EM_T _ 0); [discriminate|]. rewrite T2 in E.
  destruct (shape_test_some (shape_of p) h 0 0 0 0 0 H3) as [b0 Eb]. rewrite Eb in E. injection E as <-. cbn [sw_xis sw_etas sw_mask px].
  fold (xo_of p) (eo_of p) (clk_of p). set (x := sw_axis _ _ _ j - xo_of p). set (y := sw_axis _ _ _ i - eo_of p).
  destruct (shape_spec (shape_of p) h (c + clk_of p) (rhoInner p - 13 * eps) (rhoOuter p + 13 * eps) x y H3) as (b & -> & Hb); [lra|].
  assert (Hrad : 0 <= radians (angDeg p) <= 2 * PI) by (unfold radians; pose proof PI_RGT_0; split; nra).
  rewrite T2', orb_true_iff, !andb_true_iff, Hb. intros Q. unfold in_region. split; [tauto|].
  destruct (Req_EM_T x 0) as [Hx|Hx]; [destruct (Req_EM_T y 0) as [Hy|Hy]|].
  - left. unfold in_cone, dist, along. rewrite Hx, Hy. rewrite Rmult_0_l, Rplus_0_l, sqrt_0. lra.
  - rewrite !sector_cone in Q by auto. unfold radians in Q. tauto.
  - rewrite !sector_cone in Q by auto. unfold radians in Q. tauto.
Qed.
Lemma region_selected p out c two h : falco_gen_SW_mask p = Ok out -> lookup (whichSide p) side_names = Some (c, two) ->
  lookup (shape_of p) hole_names = Some h -> 13 * eps < rhoInner p -> 0 <= rhoOuter p -> 0 <= angDeg p <= 360 ->
  forall i j,
    in_region h (c + clk_of p) (angDeg p * PI / 180) two (rhoInner p - 13 * eps) (rhoOuter p + 13 * eps) (sw_xis out j - xo_of p) (sw_etas out i - eo_of p) ->
    px (sw_mask out) i j = true.
Proof.
  intros E H2 H3 Hri Hro Ha i j. pose proof (sides_table (whichSide p)) as T2. rewrite holes_table in H3. rewrite H2 in T2. destruct T2 as [T2 T2'].
  unfold falco_gen_SW_mask in E. fold (shape_of p) in E. destruct (negb _); [discriminate|]. destruct (Req_EM_T _ 0); [discriminate|]. rewrite T2 in E.
  destruct (shape_test_some (shape_of p) h 0 0 0 0 0 H3) as [b0 Eb]. rewrite Eb in E. injection E as <-. cbn [sw_xis sw_etas sw_mask px].
  fold (xo_of p) (eo_of p) (clk_of p). set (x := sw_axis _ _ _ j - xo_of p). set (y := sw_axis _ _ _ i - eo_of p).
  destruct (shape_spec (shape_of p) h (c + clk_of p) (rhoInner p - 13 * eps) (rhoOuter p + 13 * eps) x y H3) as (b & -> & Hb); [pose proof eps_pos; lra|].
  assert (Hrad : 0 <= radians (angDeg p) <= 2 * PI) by (unfold radians; pose proof PI_RGT_0; split; nra).
  intros [Hin Hcone]. assert (Hxy : x <> 0 \/ y <> 0).
  { destruct (Req_EM_T x 0) as [Hx|Hx]; [destruct (Req_EM_T y 0) as [Hy|Hy]|]; auto. exfalso. rewrite Hx, Hy in Hin. unfold in_hole, dist, along, across in Hin.
    rewrite !Rmult_0_l, !Rplus_0_l, sqrt_0, Rabs_R0 in Hin. destruct h; lra. }
  rewrite T2', orb_true_iff, !andb_true_iff, Hb, !sector_cone by auto. unfold radians.
  tauto.
Qed.

(* coordinates by offset from the centre, even axis *)
Lemma axis_grid (inter : bool) N res k : (N mod 2 = 0)%Z -> (IZR (N / 2 + k) - (if inter then (IZR N - 1) / 2 else IZR N / 2)) / res = grid inter res k.
Proof.
  intros H. unfold grid. assert (HN2 : IZR N = 2 * IZR (N / 2)) by (rewrite <- mult_IZR; f_equal; lia). rewrite plus_IZR, HN2. unfold Rdiv. destruct inter; f_equal; field.
Qed.
Lemma sel_px m dy dx : sel m dy dx = true <-> (0 <= nr m / 2 + dy < nr m)%Z /\ (0 <= nc m / 2 + dx < nc m)%Z /\ px m (nr m / 2 + dy) (nc m / 2 + dx) = true.
Proof.
  unfold sel, at_offset. match goal with |- context [if ?b then Some _ else None] => destruct b eqn:E end; cbn [default].
  - split; [intros H; split; [lia|split; [lia|exact H]]|tauto].
  - split; [discriminate|]. intros (H1 & H2 & _). lia.
Qed.

(* a zone's mask by grid offset: exactly its region *)
Definition zone_ok (p : sw_in) : Prop := 13 * eps < rhoInner p /\ 0 <= rhoOuter p /\ 0 <= angDeg p <= 360.
(* shapes whose default array covers them *)
Definition covered (p : sw_in) (h : hole) : Prop := h = Annulus \/ h = DShape \/ clockAngDeg p = None.
Lemma zone_sel p o inter c two h : falco_gen_SW_mask p = Ok o -> lookup (cen_of p) inter_names = Some inter ->
  lookup (whichSide p) side_names = Some (c, two) -> lookup (shape_of p) hole_names = Some h -> zone_ok p -> covered p h ->
  0 < pixresFP p -> 13 * eps * pixresFP p < 1/2 ->
  FOV p = None -> xiFOV p = None -> etaFOV p = None -> Nxi p = None -> Neta p = None ->
  forall dy dx, sel (sw_mask o) dy dx = true <->
    in_region h (c + clk_of p) (angDeg p * PI / 180) two (rhoInner p - 13 * eps) (rhoOuter p + 13 * eps)
      (grid inter (pixresFP p) dx - xo_of p) (grid inter (pixresFP p) dy - eo_of p).
Proof.
  intros E Hi Hs Hh (Z1 & Z2 & Z3) Hcov Hr He F0 F1 F2 F3 F4 dy dx. pose proof eps_pos as Hep.
  destruct (C44_default_size_even p o E F3 F4) as [Ex Ey].
  assert (Cx : forall k, (0 < nc (sw_mask o))%Z -> sw_xis o (nc (sw_mask o) / 2 + k) = grid inter (pixresFP p) k).
  { intros k Hk. destruct (C44_coordinates p o inter E Hi (nc (sw_mask o) / 2 + k)) as [Q _]. rewrite Q by auto. now apply axis_grid. }
  assert (Cy : forall k, (0 < nr (sw_mask o))%Z -> sw_etas o (nr (sw_mask o) / 2 + k) = grid inter (pixresFP p) k).
  { intros k Hk. destruct (C44_coordinates p o inter E Hi (nr (sw_mask o) / 2 + k)) as [_ Q]. rewrite Q by auto. now apply axis_grid. }
  rewrite sel_px. split.
  - intros (H1 & H2 & H3). apply (selected_in_region p o c two h E Hs Hh) in H3; auto; try lra. rewrite Cx, Cy in H3 by lia. exact H3.
  - intros Hin.
    assert (Hex : exists i j, (0 <= i < nr (sw_mask o))%Z /\ (0 <= j < nc (sw_mask o))%Z /\ sw_xis o j = grid inter (pixresFP p) dx /\ sw_etas o i = grid inter (pixresFP p) dy).
    { destruct Hin as [Hhole _].
      assert (Hround : dist (grid inter (pixresFP p) dx - xo_of p) (grid inter (pixresFP p) dy - eo_of p) <= rhoOuter p + 13 * eps ->
        exists i j, (0 <= i < nr (sw_mask o))%Z /\ (0 <= j < nc (sw_mask o))%Z /\ sw_xis o j = grid inter (pixresFP p) dx /\ sw_etas o i = grid inter (pixresFP p) dy).
      { intros Q. apply (C44_covers_round p o inter dx dy); auto. rewrite F0. cbn [dget]. lra. }
      destruct h; cbn [in_hole] in Hhole; [apply Hround; tauto| | |apply Hround; tauto].
      - destruct Hcov as [Q | [Q | Q]]; [discriminate|discriminate|]. apply (C44_covers_square p o inter c two SquareHole dx dy); auto.
        unfold clk_of, radians in Hhole. rewrite Q in Hhole. cbn [dget] in Hhole. replace (c + 0 * PI / 180) with c in Hhole by field. exact Hhole.
      - destruct Hcov as [Q | [Q | Q]]; [discriminate|discriminate|]. apply (C44_covers_square p o inter c two Slab dx dy); auto.
        unfold clk_of, radians in Hhole. rewrite Q in Hhole. cbn [dget] in Hhole. replace (c + 0 * PI / 180) with c in Hhole by field. exact Hhole. }
    destruct Hex as (i & j & Hi2 & Hj2 & Qx & Qy).
    assert (j = nc (sw_mask o) / 2 + dx)%Z.
    { replace j with (nc (sw_mask o) / 2 + (j - nc (sw_mask o) / 2))%Z in Qx by lia. rewrite Cx in Qx by lia. unfold grid in Qx.
      apply (f_equal (fun t => t * pixresFP p)) in Qx. unfold Rdiv in Qx. rewrite !Rmult_assoc, Rinv_l in Qx by lra. assert (IZR (j - nc (sw_mask o) / 2) = IZR dx) by lra. apply eq_IZR in H. lia. }
    assert (i = nr (sw_mask o) / 2 + dy)%Z.
    { replace i with (nr (sw_mask o) / 2 + (i - nr (sw_mask o) / 2))%Z in Qy by lia. rewrite Cy in Qy by lia. unfold grid in Qy.
      apply (f_equal (fun t => t * pixresFP p)) in Qy. unfold Rdiv in Qy. rewrite !Rmult_assoc, Rinv_l in Qy by lra. assert (IZR (i - nr (sw_mask o) / 2) = IZR dy) by lra. apply eq_IZR in H0. lia. }
    subst i j. split; [auto|]. split; [auto|]. apply (region_selected p o c two h E Hs Hh); auto. rewrite Qx, Qy. exact Hin.
Qed.
Lemma default_size_pos inter m res : 0 < res -> 0 < m -> (2 <= default_size inter m res)%Z.
Proof.
  intros Hr Hm. unfold default_size. assert (0 < m * res) by nra. destruct inter; match goal with |- context [ceil_even ?q] => destruct (ceil_even_ge q) as [G [k Ek]] end; rewrite Ek in *;
    rewrite mult_IZR in G; assert (0 < IZR k) by lra; apply lt_IZR in H0; lia.
Qed.
Lemma zone_size_pos p o : falco_gen_SW_mask p = Ok o -> 0 < pixresFP p -> 0 < rhoOuter p -> FOV p = None -> xiFOV p = None -> etaFOV p = None -> Nxi p = None -> Neta p = None ->
  (2 <= nr (sw_mask o))%Z /\ (2 <= nc (sw_mask o))%Z.
Proof.
  intros E Hr Ho F0 F1 F2 F3 F4. unfold falco_gen_SW_mask in E. rewrite F0, F1, F2, F3, F4 in E. cbn [dget] in E. destruct (negb _); [discriminate|]. destruct (Req_EM_T _ 0); [discriminate|].
  destruct (side_angle _); [|discriminate]. destruct (shape_test _ 0 0 0 0 0); [|discriminate]. injection E as <-. cbn [sw_mask nr nc].
  assert (G : forall a b1, 0 < max_extent a b1 * rhoOuter p) by (intros a b1; assert (1 <= max_extent a b1) by (unfold max_extent; destruct (str_in _ _); [apply Rmax_l|lra]); nra).
  specialize (G (lower (dget (shape p) "circle"%string)) (dget (clockAngDeg p) 0)).
  split; match goal with |- context [default_size ?i (?e * _ + Rabs ?x) ?q] => pose proof (Rabs_pos x); pose proof (default_size_pos i (e * rhoOuter p + Rabs x) q Hr ltac:(lra)) end;
    (eapply Z.le_trans; [eassumption|apply Z.le_max_r]).
Qed.
