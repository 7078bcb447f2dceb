(* Property theorems C58 (correction and scoring regions). *)
From Verif Require Import Base RBase StrBase UtilModel UtilSpec UtilProofs MaskModel MaskSpec MaskProofs MaskProps HoleModel HoleProofs.
From Coq Require Import Sorted.
Open Scope R_scope.

(* no field of view or array size forced by the user; sampling below 1.7e14 pixels per lambda/D *)
Definition plain (f : fend) : Prop :=
  f_FOV f = None /\ f_xiFOV f = None /\ f_etaFOV f = None /\ f_Nxi f = None /\ f_Neta f = None /\ 0 < f_res f /\ 13 * eps * f_res f < 1/2.
(* point (x, y) is in the region that a mask dictionary asks for *)
Definition asks (p : sw_in) (x y : R) : Prop :=
  exists c two h, lookup (whichSide p) side_names = Some (c, two) /\ lookup (shape_of p) hole_names = Some h /\
    in_region h (c + clk_of p) (angDeg p * PI / 180) two (rhoInner p - 13 * eps) (rhoOuter p + 13 * eps) (x - xo_of p) (y - eo_of p).
Definition zones_ok (f : fend) : Prop := forall k p, (k < length (cRin f))%nat -> corr_in f k = Ok p ->
  zone_ok p /\ 0 < rhoOuter p /\ forall h, lookup (shape_of p) hole_names = Some h -> covered p h.

Lemma configure_inv f h : configure_dark_hole f = Ok h -> exists last axes ev sc,
  corr_mask f = Ok (corr_bool h) /\ (0 < length (cRin f))%nat /\ corr_in f (length (cRin f) - 1) = Ok last /\
  falco_gen_SW_mask (with_size last (nc (corr_bool h)) (nr (corr_bool h)) (f_res f)) = Ok axes /\ h_xis h = sw_xis axes /\ h_etas h = sw_etas axes /\
  h_Nxi h = nc (corr_bool h) /\ h_Neta h = nr (corr_bool h) /\ falco_gen_SW_mask (with_size last (ev_Nxi h) (ev_Neta h) (f_eval_res f)) = Ok ev /\
  score_loop f (f_eo f) (h_Nxi h) (h_Neta h) (seq 0 (length (sRin f))) None = Ok (Some sc, etaOffset_after h) /\ score_bool h = sc /\
  score_in_corr h = map (fun '(i, j) => px (score_bool h) i j) (pixels (corr_bool h)) /\
  ev_Nxi h = ceil_even (f_eval_res f / f_res f * IZR (h_Nxi h)) /\ ev_Neta h = ceil_even (f_eval_res f / f_res f * IZR (h_Neta h)).
Proof.
  unfold configure_dark_hole. intros E. destruct (corr_mask f) as [corr|] eqn:E1; [|discriminate]. cbn [rbind] in E.
  destruct (Nat.eqb_spec (length (cRin f)) 0); [discriminate|]. destruct (corr_in f (length (cRin f) - 1)) as [last|] eqn:E2; [|discriminate]. cbn [rbind] in E.
  destruct (falco_gen_SW_mask (with_size last (nc corr) (nr corr) (f_res f))) as [axes|] eqn:E3; [|discriminate]. cbn [rbind] in E.
  destruct (falco_gen_SW_mask (with_size last _ _ (f_eval_res f))) as [ev|] eqn:E4; [|discriminate]. cbn [rbind] in E.
  destruct (score_loop _ _ _ _ _ _) as [[sc eo]|] eqn:E5; [|discriminate]. cbn [rbind] in E. destruct sc as [s|]; [|discriminate]. injection E as <-. cbn.
  exists last, axes, ev, s. repeat (split; [try reflexivity; auto; lia|]). auto.
Qed.
Lemma zone_plain f k p : plain f -> corr_in f k = Ok p -> 0 < pixresFP p /\ 13 * eps * pixresFP p < 1/2 /\ FOV p = None /\ xiFOV p = None /\ etaFOV p = None /\ Nxi p = None /\ Neta p = None /\ cen_of p = f_cen f.
Proof.
  intros (P1 & P2 & P3 & P4 & P5 & P6 & P7) E. destruct (corr_in_fields f k p E) as (F1 & F2 & F3 & F4 & F5 & F6 & F7 & _).
  unfold cen_of. rewrite F1, F2, F3, F4, F5, F6, F7. cbn [dget]. auto 10.
Qed.
Lemma lookups_some p o : falco_gen_SW_mask p = Ok o -> exists inter c two h, lookup (cen_of p) inter_names = Some inter /\
  lookup (whichSide p) side_names = Some (c, two) /\ lookup (shape_of p) hole_names = Some h.
Proof.
  intros E. assert (Hr : pixresFP p <> 0) by (unfold falco_gen_SW_mask in E; destruct (negb _); [discriminate|]; destruct (Req_EM_T (pixresFP p) 0); [discriminate|auto]).
  destruct (C44_accepts p Hr) as [[A _] _]. destruct A as (A1 & A2 & A3); [eauto|].
  destruct (lookup (cen_of p) inter_names); [|congruence]. destruct (lookup (whichSide p) side_names) as [[c two]|]; [|congruence]. destruct (lookup (shape_of p) hole_names); [|congruence]. eauto 10.
Qed.

(* The correction mask is the union of the zones, in the coordinates given with it; nothing is cut off. *)
Theorem C58_correction_region : forall f h inter, configure_dark_hole f = Ok h -> plain f -> lookup (f_cen f) inter_names = Some inter -> zones_ok f ->
  nc (corr_bool h) = h_Nxi h /\ nr (corr_bool h) = h_Neta h /\ (h_Nxi h mod 2 = 0)%Z /\ (h_Neta h mod 2 = 0)%Z /\
  (forall i j, (0 <= i < h_Neta h)%Z -> (0 <= j < h_Nxi h)%Z ->
     h_xis h j = grid inter (f_res f) (j - h_Nxi h / 2) /\ h_etas h i = grid inter (f_res f) (i - h_Neta h / 2) /\
     (px (corr_bool h) i j = true <-> exists k p, (k < length (cRin f))%nat /\ corr_in f k = Ok p /\ asks p (h_xis h j) (h_etas h i))) /\
  (forall k p kx ky, (k < length (cRin f))%nat -> corr_in f k = Ok p -> asks p (grid inter (f_res f) kx) (grid inter (f_res f) ky) ->
     (0 <= kx + h_Nxi h / 2 < h_Nxi h)%Z /\ (0 <= ky + h_Neta h / 2 < h_Neta h)%Z).
Proof.
  intros f h inter E HP Hc HZ. destruct (configure_inv f h E) as (last & axes & ev & sc & E1 & Hn & E2 & E3 & Ex & Ee & En & Em & _).
  unfold corr_mask in E1. apply corr_loop_spec in E1; [|reflexivity|reflexivity]. destruct E1 as (Q1 & Q2 & Q3 & Q4 & Q5 & Q6 & Q7). cbn [nr nc] in *.
  assert (Hsize : forall k p o, zone f k p o -> (k < length (cRin f))%nat -> (2 <= nr (sw_mask o))%Z /\ (2 <= nc (sw_mask o))%Z /\ (nc (sw_mask o) mod 2 = 0)%Z /\ (nr (sw_mask o) mod 2 = 0)%Z).
  { intros k p o [Z1 Z2] Hk. destruct (zone_plain f k p HP Z1) as (A1 & A2 & A3 & A4 & A5 & A6 & A7 & A8). destruct (HZ k p Hk Z1) as (_ & B & _).
    destruct (zone_size_pos p o Z2 A1 B A3 A4 A5 A6 A7). destruct (C44_default_size_even p o Z2 A6 A7). auto. }
  assert (Hrow : (2 <= nr (corr_bool h))%Z /\ (nr (corr_bool h) mod 2 = 0)%Z).
  { destruct Q5 as [Q|(k & p & o & Hk & Hz & Q)].
    - destruct (Q1 0%nat) as (p & o & Hz); [apply in_seq; lia|]. destruct (Hsize _ _ _ Hz Hn) as (S1 & _). destruct (Q7 0%nat p o) as [S2 _]; [apply in_seq; lia|auto|]. lia.
    - apply in_seq in Hk. rewrite Q. destruct (Hsize _ _ _ Hz) as (S1 & S2 & S3 & S4); [lia|]. auto. }
  assert (Hcol : (2 <= nc (corr_bool h))%Z /\ (nc (corr_bool h) mod 2 = 0)%Z).
  { destruct Q6 as [Q|(k & p & o & Hk & Hz & Q)].
    - destruct (Q1 0%nat) as (p & o & Hz); [apply in_seq; lia|]. destruct (Hsize _ _ _ Hz Hn) as (_ & S1 & _). destruct (Q7 0%nat p o) as [_ S2]; [apply in_seq; lia|auto|]. lia.
    - apply in_seq in Hk. rewrite Q. destruct (Hsize _ _ _ Hz) as (S1 & S2 & S3 & S4); [lia|]. auto. }
  assert (Hsel : forall dy dx, sel (corr_bool h) dy dx = true <-> exists k p, (k < length (cRin f))%nat /\ corr_in f k = Ok p /\ asks p (grid inter (f_res f) dx) (grid inter (f_res f) dy)).
  { intros dy dx. rewrite Q2. split.
    - intros [S|(k & p & o & Hk & [Z1 Z2] & S)].
      + exfalso. unfold sel, at_offset in S. cbn in S. destruct (_ && _)%bool in S; discriminate.
      + apply in_seq in Hk. exists k, p. split; [lia|]. split; [auto|].
        destruct (lookups_some p o Z2) as (inter' & c & two & hh & L1 & L2 & L3). exists c, two, hh. split; [auto|]. split; [auto|].
        destruct (zone_plain f k p HP Z1) as (A1 & A2 & A3 & A4 & A5 & A6 & A7 & A8). destruct (HZ k p ltac:(lia) Z1) as (B1 & B2 & B3).
        destruct (corr_in_fields f k p Z1) as (F1 & _). rewrite <- F1. rewrite A8, Hc in L1. injection L1 as <-. rewrite <- A8 in Hc.
        apply (zone_sel p o inter c two hh); auto.
    - intros (k & p & Hk & Z1 & (c & two & hh & L2 & L3 & R)). right.
      destruct (Q1 k) as (p' & o & [Z1' Z2]); [apply in_seq; lia|]. assert (p' = p) by congruence. subst p'. exists k, p, o. split; [apply in_seq; lia|]. split; [split; auto|].
      destruct (zone_plain f k p HP Z1) as (A1 & A2 & A3 & A4 & A5 & A6 & A7 & A8). destruct (HZ k p ltac:(lia) Z1) as (B1 & B2 & B3).
      destruct (corr_in_fields f k p Z1) as (F1 & _). rewrite <- F1 in R. rewrite <- A8 in Hc. apply (zone_sel p o inter c two hh); auto. }
  assert (Hcl : lookup (cen_of (with_size last (nc (corr_bool h)) (nr (corr_bool h)) (f_res f))) inter_names = Some inter).
  { destruct (zone_plain f _ last HP E2) as (_ & _ & _ & _ & _ & _ & _ & A8). change (cen_of (with_size last (nc (corr_bool h)) (nr (corr_bool h)) (f_res f))) with (cen_of last). now rewrite A8. }
  assert (Hax : nc (sw_mask axes) = nc (corr_bool h) /\ nr (sw_mask axes) = nr (corr_bool h)).
  { clear - E3 Hrow Hcol. unfold falco_gen_SW_mask in E3. cbn [with_size Nxi Neta dget] in E3. destruct (negb _); [discriminate|]. destruct (Req_EM_T _ 0); [discriminate|]. destruct (side_angle _); [|discriminate].
    destruct (shape_test _ 0 0 0 0 0); [|discriminate]. injection E3 as <-. cbn [sw_mask nr nc]. lia. }
  destruct Hax as [Hax1 Hax2].
  split; [auto|]. split; [auto|]. rewrite En, Em. split; [tauto|]. split; [tauto|]. split.
  - intros i j Hi Hj. destruct (C44_coordinates _ axes inter E3 Hcl j) as [Cx _]. destruct (C44_coordinates _ axes inter E3 Hcl i) as [_ Cy].
    rewrite Hax1 in Cx. rewrite Hax2 in Cy. cbn [with_size pixresFP] in Cx, Cy.
    assert (Gx : h_xis h j = grid inter (f_res f) (j - nc (corr_bool h) / 2)).
    { rewrite Ex, Cx by lia. rewrite <- (axis_grid inter (nc (corr_bool h))) by tauto. do 3 f_equal. lia. }
    assert (Gy : h_etas h i = grid inter (f_res f) (i - nr (corr_bool h) / 2)).
    { rewrite Ee, Cy by lia. rewrite <- (axis_grid inter (nr (corr_bool h))) by tauto. do 3 f_equal. lia. }
    split; [auto|]. split; [auto|]. rewrite Gx, Gy. rewrite <- Hsel, sel_px.
    replace (nr (corr_bool h) / 2 + (i - nr (corr_bool h) / 2))%Z with i by lia. replace (nc (corr_bool h) / 2 + (j - nc (corr_bool h) / 2))%Z with j by lia. tauto.
  - intros k p kx ky Hk Z1 R. assert (S : sel (corr_bool h) ky kx = true) by (apply Hsel; eauto). apply sel_px in S. lia.
Qed.
Print Assumptions C58_correction_region.

(* ---- scoring region ---- *)
Lemma score_in_eo f eo nx ne k : (eo = None <-> f_eo f = None) -> score_in f eo nx ne k = score_in f (f_eo f) nx ne k.
Proof.
  intros H. unfold score_in. destruct eo, (f_eo f); try reflexivity; [destruct H as [_ H]; discriminate H; reflexivity|destruct H as [H _]; discriminate H; reflexivity].
Qed.
Lemma score_in_next f eo nx ne k p eo' : score_in f eo nx ne k = Ok (p, eo') -> (eo = None <-> f_eo f = None) -> (eo' = None <-> f_eo f = None) /\ (eo <> None -> eo' = f_xo f).
Proof.
  unfold score_in. intros E H. destruct (idx (sRin f) k); [|discriminate]. destruct (idx (sRout f) k); [|discriminate]. destruct (idx (sang f) k); [|discriminate].
  destruct (idx (f_sides f) k); [|discriminate]. destruct (idx (shapes f) k); [|discriminate]. cbn [rbind] in E.
  destruct (oidx (f_clock f) k); [|discriminate]. destruct (oidx (f_xo f) k); [|discriminate]. cbn [rbind] in E.
  destruct eo as [l|].
  - destruct (f_xo f) as [lx|]; [|discriminate]. cbn [rbind] in E. destruct (oidx (Some lx) k); [|discriminate]. cbn [rbind] in E. injection E as <- <-.
    split; [|auto]. rewrite <- H. split; discriminate.
  - cbn [rbind oidx] in E. injection E as <- <-. split; [auto|congruence].
Qed.
Lemma score_in_fields f eo nx ne k p eo' : score_in f eo nx ne k = Ok (p, eo') ->
  pixresFP p = f_res f /\ centering p = Some (f_cen f) /\ Nxi p = Some nx /\ Neta p = Some ne /\
  nth_error (sRin f) k = Some (rhoInner p) /\ nth_error (sRout f) k = Some (rhoOuter p) /\ nth_error (sang f) k = Some (angDeg p) /\
  nth_error (f_sides f) k = Some (whichSide p) /\ nth_error (shapes f) k = shape p /\
  (match f_xo f with Some l => nth_error l k = xiOffset p | None => xiOffset p = None end) /\
  (match f_clock f with Some l => nth_error l k = clockAngDeg p | None => clockAngDeg p = None end) /\
  etaOffset p = match eo with Some _ => xiOffset p | None => None end.
Proof.
  unfold score_in. intros E. unfold idx in E.
  destruct (nth_error (sRin f) k); [|discriminate]. destruct (nth_error (sRout f) k); [|discriminate]. destruct (nth_error (sang f) k); [|discriminate].
  destruct (nth_error (f_sides f) k); [|discriminate]. destruct (nth_error (shapes f) k); [|discriminate]. cbn [rbind] in E.
  unfold oidx, idx in E. destruct (f_clock f) as [lc|]; [destruct (nth_error lc k); [|discriminate]|]; cbn [rbind] in E;
  (destruct (f_xo f) as [lx|]; [destruct (nth_error lx k) eqn:Ex; [|discriminate]|]; cbn [rbind] in E);
  (destruct eo as [le|]; cbn [rbind] in E; try discriminate; try rewrite Ex in E; cbn [rbind] in E); injection E as <- <-; cbn; auto 20.
Qed.
Lemma sw_given p o inter nx ne : falco_gen_SW_mask p = Ok o -> lookup (cen_of p) inter_names = Some inter -> Nxi p = Some nx -> Neta p = Some ne ->
  nr (sw_mask o) = Z.max 0 ne /\ nc (sw_mask o) = Z.max 0 nx /\ sw_xis o = sw_axis inter nx (1 / pixresFP p) /\ sw_etas o = sw_axis inter ne (1 / pixresFP p).
Proof.
  intros E Hi H1 H2. pose proof (inter_table (cen_of p)) as T1. rewrite Hi in T1. destruct T1 as [_ T1].
  unfold falco_gen_SW_mask in E. fold (cen_of p) in E. rewrite T1, H1, H2 in E. cbn [dget] in E. destruct (negb _); [discriminate|]. destruct (Req_EM_T _ 0); [discriminate|]. destruct (side_angle _); [|discriminate].
  destruct (shape_test _ 0 0 0 0 0); [|discriminate]. injection E as <-. cbn. auto.
Qed.
Lemma score_loop_spec f nx ne : forall zones eo acc s eo', (eo = None <-> f_eo f = None) -> score_loop f eo nx ne zones acc = Ok (Some s, eo') ->
  (eo' = None <-> f_eo f = None) /\ (zones <> [] -> eo <> None -> eo' = f_xo f) /\
  (forall i j, px s i j = true <-> (exists a, acc = Some a /\ px a i j = true) \/
     exists k p e o, In k zones /\ score_in f (f_eo f) nx ne k = Ok (p, e) /\ falco_gen_SW_mask p = Ok o /\ px (sw_mask o) i j = true).
Proof.
  induction zones as [|z t IH]; intros eo acc s eo' He E; cbn [score_loop] in E.
  - injection E as -> <-. split; [auto|]. split; [congruence|]. intros i j. split; [eauto|]. intros [(a & Q & H)|(k & p & e & o & [] & _)]. injection Q as ->. auto.
  - destruct (score_in f eo nx ne z) as [[p e1]|] eqn:E1; [|discriminate]. cbn [rbind] in E. destruct (falco_gen_SW_mask p) as [o|] eqn:E2; [|discriminate]. cbn [rbind] in E.
    destruct (score_in_next _ _ _ _ _ _ _ E1 He) as [N1 N2]. destruct (IH _ _ _ _ N1 E) as (A1 & A2 & A3). rewrite (score_in_eo f eo nx ne z He) in E1.
    split; [auto|]. split.
    { intros _ Hne. specialize (N2 Hne). destruct t as [|z' t']; [cbn in E; injection E as _ <-; auto|]. apply A2; [discriminate|]. rewrite N1, <- He. auto. }
    intros i j. rewrite A3. split.
    + intros [(a & Q & H)|(k & p' & e & o' & Hk & H)]; [|right; exists k, p', e, o'; cbn; tauto]. injection Q as <-. destruct acc as [a|].
      * cbn [mor px] in H. apply orb_true_iff in H. destruct H as [H|H]; [left; eauto|]. right. exists z, p, e1, o. cbn. auto.
      * right. exists z, p, e1, o. cbn. auto.
    + intros [(a & -> & H)|(k & p' & e & o' & [<-|Hk] & S1 & S2 & H)].
      * left. eexists. split; [reflexivity|]. cbn [mor px]. now rewrite H.
      * left. eexists. split; [reflexivity|]. assert (p' = p) by congruence. subst p'. assert (o' = o) by congruence. subst o'. destruct acc; [cbn [mor px]; rewrite H; apply orb_true_r|auto].
      * right. exists k, p', e, o'. auto.
Qed.

(* The scoring mask is the union of its zones, each with its own radii and opening angle, in the same coordinates. *)
Theorem C58_scoring_region : forall f h inter, configure_dark_hole f = Ok h -> lookup (f_cen f) inter_names = Some inter ->
  (0 < h_Nxi h)%Z -> (0 < h_Neta h)%Z ->
  (forall k p e, score_in f (f_eo f) (h_Nxi h) (h_Neta h) k = Ok (p, e) -> zone_ok p) ->
  forall i j, px (score_bool h) i j = true <->
    exists k p e, (k < length (sRin f))%nat /\ score_in f (f_eo f) (h_Nxi h) (h_Neta h) k = Ok (p, e) /\ asks p (h_xis h j) (h_etas h i).
Proof.
  intros f h inter E Hc N1 N2 HZ i j. destruct (configure_inv f h E) as (last & axes & ev & sc & E1 & Hn & E2 & E3 & Ex & Ee & En & Em & E4 & E5 & -> & _).
  destruct (score_loop_spec f _ _ _ _ _ _ _ (iff_refl _) E5) as (_ & _ & A). rewrite A. rewrite Ex, Ee.
  assert (Hcl : lookup (cen_of (with_size last (nc (corr_bool h)) (nr (corr_bool h)) (f_res f))) inter_names = Some inter).
  { change (cen_of (with_size last (nc (corr_bool h)) (nr (corr_bool h)) (f_res f))) with (cen_of last). destruct (corr_in_fields f _ last E2) as (_ & F2 & _). unfold cen_of. now rewrite F2. }
  destruct (sw_given _ _ inter (nc (corr_bool h)) (nr (corr_bool h)) E3 Hcl eq_refl eq_refl) as (_ & _ & Gx & Gy). rewrite Gx, Gy. cbn [with_size pixresFP].
  split.
  - intros [(a & Q & _)|(k & p & e & o & Hk & S1 & S2 & H)]; [discriminate|]. apply in_seq in Hk. exists k, p, e. split; [lia|]. split; [auto|].
    destruct (score_in_fields _ _ _ _ _ _ _ S1) as (F1 & F2 & F3 & F4 & _). destruct (lookups_some p o S2) as (inter' & c & two & hh & L1 & L2 & L3).
    unfold cen_of in L1. rewrite F2 in L1. cbn [dget] in L1. assert (inter' = inter) by congruence. subst inter'.
    assert (L1' : lookup (cen_of p) inter_names = Some inter) by (unfold cen_of; rewrite F2; auto).
    destruct (sw_given p o inter _ _ S2 L1' F3 F4) as (_ & _ & Hx & Hy). rewrite F1, En in Hx. rewrite F1, Em in Hy.
    exists c, two, hh. split; [auto|]. split; [auto|]. rewrite <- Hx, <- Hy. destruct (HZ _ _ _ S1) as (Z1 & Z2 & Z3). apply (selected_in_region p o c two hh); auto. pose proof eps_pos. lra.
  - intros (k & p & e & Hk & S1 & (c & two & hh & L2 & L3 & R)). right.
    destruct (score_in_fields _ _ _ _ _ _ _ S1) as (F1 & F2 & F3 & F4 & _).
    assert (L1' : lookup (cen_of p) inter_names = Some inter) by (unfold cen_of; rewrite F2; auto).
    assert (Hr : pixresFP p <> 0).
    { rewrite F1. clear - E3. unfold falco_gen_SW_mask in E3. destruct (negb _); [discriminate|]. cbn [with_size pixresFP] in E3. destruct (Req_EM_T (f_res f) 0); [discriminate|auto]. }
    destruct (C44_accepts p Hr) as [[_ A2] _]. destruct A2 as [o S2]; [rewrite L1', L2, L3; repeat split; discriminate|].
    destruct (sw_given p o inter _ _ S2 L1' F3 F4) as (_ & _ & Hx & Hy). rewrite F1, En in Hx. rewrite F1, Em in Hy.
    exists k, p, e, o. split; [apply in_seq; lia|]. split; [auto|]. split; [auto|]. destruct (HZ _ _ _ S1) as (Z1 & Z2 & Z3).
    apply (region_selected p o c two hh); auto. rewrite Hx, Hy. exact R.
Qed.
(* ... but the vertical offset of every scoring zone is replaced by the horizontal one whenever a vertical
   offset is configured, and the configured value itself is overwritten. *)
Theorem C58_score_vertical_offset_refuted : forall f h, configure_dark_hole f = Ok h -> f_eo f <> None ->
  etaOffset_after h = f_xo f /\
  forall k p e, score_in f (f_eo f) (h_Nxi h) (h_Neta h) k = Ok (p, e) -> eo_of p = xo_of p.
Proof.
  intros f h E He. destruct (configure_inv f h E) as (last & axes & ev & sc & _ & _ & _ & _ & _ & _ & _ & _ & _ & E5 & _).
  destruct (score_loop_spec f _ _ _ _ _ _ _ (iff_refl _) E5) as (_ & A & A3). split.
  - apply A; auto. intros Q. rewrite Q in E5. cbn in E5. discriminate.
  - intros k p e S. destruct (score_in_fields _ _ _ _ _ _ _ S) as (_ & _ & _ & _ & _ & _ & _ & _ & _ & _ & _ & F). unfold eo_of, xo_of. rewrite F. destruct (f_eo f); [auto|congruence].
Qed.
(* A vertical offset without a horizontal one never works. *)
Theorem C58_vertical_offset_alone_fails : forall f h, f_eo f <> None -> f_xo f = None -> configure_dark_hole f <> Ok h.
Proof.
  intros f h He Hx E. destruct (configure_inv f h E) as (last & axes & ev & sc & _ & _ & _ & _ & _ & _ & _ & _ & _ & E5 & _).
  destruct (score_loop_spec f _ _ _ _ _ _ _ (iff_refl _) E5) as (B & A & _). rewrite A in B; [rewrite Hx in B; apply He, B; reflexivity| |auto].
  intros Q. rewrite Q in E5. cbn in E5. discriminate.
Qed.

(* Scoring pixels are correction pixels when every scoring zone is inside its correction zone (no vertical offset). *)
Lemma in_cone_mono a b c x y : 0 <= a <= b -> b <= 2 * PI -> in_cone a c x y -> in_cone b c x y.
Proof.
  unfold in_cone. intros H1 H2 H. eapply Rle_trans; [|exact H]. apply Rmult_le_compat_l; [apply sqrt_pos|]. apply cos_decr_1; lra.
Qed.
Lemma in_hole_mono h c ri ro ri' ro' x y : ri' <= ri -> ro <= ro' -> in_hole h c ri ro x y -> in_hole h c ri' ro' x y.
Proof. intros H1 H2. destruct h; cbn; lra. Qed.
Lemma zone_exists f h k : configure_dark_hole f = Ok h -> (k < length (cRin f))%nat -> exists p, corr_in f k = Ok p.
Proof.
  intros E Hk. destruct (configure_inv f h E) as (last & axes & ev & sc & E1 & _). unfold corr_mask in E1. apply corr_loop_spec in E1; [|reflexivity|reflexivity].
  destruct E1 as (Q1 & _). destruct (Q1 k) as (p & o & [Z1 _]); [apply in_seq; lia|]. eauto.
Qed.
Theorem C58_score_inside_correction : forall f h inter, configure_dark_hole f = Ok h -> plain f -> lookup (f_cen f) inter_names = Some inter -> zones_ok f ->
  f_eo f = None ->
  (forall k rs os as_, nth_error (sRin f) k = Some rs -> nth_error (sRout f) k = Some os -> nth_error (sang f) k = Some as_ -> 13 * eps < rs /\ 0 <= os /\ 0 <= as_ /\
     exists rc oc ac, nth_error (cRin f) k = Some rc /\ nth_error (cRout f) k = Some oc /\ nth_error (cang f) k = Some ac /\ rc <= rs /\ os <= oc /\ as_ <= ac <= 360) ->
  forall i j, (0 <= i < h_Neta h)%Z -> (0 <= j < h_Nxi h)%Z -> px (score_bool h) i j = true -> px (corr_bool h) i j = true.
Proof.
  intros f h inter E HP Hc HZ He Hnest i j Hi Hj Hs. destruct (C58_correction_region f h inter E HP Hc HZ) as (_ & _ & _ & _ & HC & _).
  destruct (HC i j Hi Hj) as (_ & _ & HC2). apply HC2.
  apply (C58_scoring_region f h inter E Hc) in Hs; try lia.
  - destruct Hs as (k & p & e & Hk & S1 & (c & two & hh & L2 & L3 & R)).
    destruct (score_in_fields _ _ _ _ _ _ _ S1) as (F1 & F2 & F3 & F4 & F5 & F6 & F7 & F8 & F9 & F10 & F11 & F12).
    destruct (Hnest k _ _ _ F5 F6 F7) as (G1 & G2 & G3 & rc & oc & ac & I1 & I2 & I3 & I4 & I5 & I6).
    assert (Hk' : (k < length (cRin f))%nat) by (apply nth_error_Some; congruence).
    destruct (zone_exists f h k E Hk') as [q Z1]. exists k, q. split; [auto|]. split; [auto|].
    destruct (corr_in_fields f k q Z1) as (_ & _ & _ & _ & _ & _ & _ & J1 & J2 & J3 & J4 & J5 & J6 & J7 & J8).
    assert (rhoInner q = rc) by congruence. assert (rhoOuter q = oc) by congruence. assert (angDeg q = ac) by congruence.
    assert (K1 : whichSide q = whichSide p) by congruence. assert (K2 : shape q = shape p) by congruence.
    assert (K3 : clockAngDeg q = clockAngDeg p) by (destruct (f_clock f); congruence). assert (K4 : xiOffset q = xiOffset p) by (destruct (f_xo f); congruence).
    assert (K5 : etaOffset q = etaOffset p) by (rewrite He in J6, F12; congruence).
    exists c, two, hh. rewrite K1. split; [auto|]. unfold shape_of, clk_of, xo_of, eo_of in *. rewrite K2, K3, K4, K5. split; [auto|].
    destruct R as [R1 R2]. split; [revert R1; apply in_hole_mono; lra|].
    assert (PP := PI_RGT_0). assert (A0 : 0 <= angDeg p * PI / 180 <= angDeg q * PI / 180) by (split; [|]; nra).
    assert (A1 : angDeg q * PI / 180 <= 2 * PI) by nra.
    destruct R2 as [R2|[R2 R3]]; [left|right; split; [auto|]]; eapply in_cone_mono; eauto.
  - intros k p e S1. destruct (score_in_fields _ _ _ _ _ _ _ S1) as (_ & _ & _ & _ & F5 & F6 & F7 & _).
    destruct (Hnest k _ _ _ F5 F6 F7) as (G1 & G2 & G3 & rc & oc & ac & I1 & I2 & I3 & I4 & I5 & I6). unfold zone_ok. lra.
Qed.

(* Success: at least one correction zone and one scoring zone, every list long enough for the zones, known names. *)
Definition olong {A} (o : option (list A)) (n : nat) : Prop := match o with Some l => (n <= length l)%nat | None => True end.
Definition well_formed (f : fend) : Prop :=
  lookup (f_cen f) inter_names <> None /\ f_res f <> 0 /\ f_eval_res f <> 0 /\ (0 < length (cRin f))%nat /\ (0 < length (sRin f))%nat /\
  (length (cRin f) <= length (cRout f))%nat /\ (length (cRin f) <= length (cang f))%nat /\
  (length (sRin f) <= length (sRout f))%nat /\ (length (sRin f) <= length (sang f))%nat /\
  let n := Nat.max (length (cRin f)) (length (sRin f)) in
  (n <= length (f_sides f))%nat /\ (n <= length (shapes f))%nat /\ olong (f_clock f) n /\ olong (f_xo f) n /\ olong (f_eo f) n /\
  (f_eo f <> None -> f_xo f <> None) /\
  (forall s, In s (f_sides f) -> lookup s side_names <> None) /\ (forall s, In s (shapes f) -> lookup (lower s) hole_names <> None).
Lemma idx_ok {A} (l : list A) k : (k < length l)%nat -> exists x, idx l k = Ok x /\ nth_error l k = Some x.
Proof. intros H. unfold idx. destruct (nth_error l k) eqn:E; [eauto|]. apply nth_error_None in E. lia. Qed.
Lemma oidx_ok {A} (o : option (list A)) n k : olong o n -> (k < n)%nat -> exists x, oidx o k = Ok x.
Proof. destruct o as [l|]; cbn; [|eauto]. intros H Hk. destruct (idx_ok l k) as (x & -> & _); [lia|]. cbn. eauto. Qed.
Lemma corr_in_ok f k : well_formed f -> (k < length (cRin f))%nat -> exists p, corr_in f k = Ok p /\ In (whichSide p) (f_sides f) /\ exists s, shape p = Some s /\ In s (shapes f).
Proof.
  intros (W1 & W2 & W3 & W4 & W5 & W6 & W7 & W8 & W9 & W10 & W11 & W12 & W13 & W14 & W15 & W16 & W17) Hk. unfold corr_in.
  destruct (idx_ok (cRin f) k) as (x1 & -> & _); [lia|]. destruct (idx_ok (cRout f) k) as (x2 & -> & _); [lia|]. destruct (idx_ok (cang f) k) as (x3 & -> & _); [lia|].
  destruct (idx_ok (f_sides f) k) as (x4 & -> & I4); [lia|]. destruct (idx_ok (shapes f) k) as (x5 & -> & I5); [lia|]. cbn [rbind].
  destruct (oidx_ok _ _ k W12) as [y1 ->]; [lia|]. destruct (oidx_ok _ _ k W13) as [y2 ->]; [lia|]. destruct (oidx_ok _ _ k W14) as [y3 ->]; [lia|]. cbn [rbind].
  eexists. split; [reflexivity|]. cbn. apply nth_error_In in I4, I5. eauto.
Qed.
Lemma score_in_ok f nx ne k : well_formed f -> (k < length (sRin f))%nat -> exists p e, score_in f (f_eo f) nx ne k = Ok (p, e) /\ In (whichSide p) (f_sides f) /\ exists s, shape p = Some s /\ In s (shapes f).
Proof.
  intros (W1 & W2 & W3 & W4 & W5 & W6 & W7 & W8 & W9 & W10 & W11 & W12 & W13 & W14 & W15 & W16 & W17) Hk. unfold score_in.
  destruct (idx_ok (sRin f) k) as (x1 & -> & _); [lia|]. destruct (idx_ok (sRout f) k) as (x2 & -> & _); [lia|]. destruct (idx_ok (sang f) k) as (x3 & -> & _); [lia|].
  destruct (idx_ok (f_sides f) k) as (x4 & -> & I4); [lia|]. destruct (idx_ok (shapes f) k) as (x5 & -> & I5); [lia|]. cbn [rbind].
  destruct (oidx_ok _ _ k W12) as [y1 ->]; [lia|]. destruct (oidx_ok _ _ k W13) as [y2 E2]; [lia|]. rewrite E2. cbn [rbind].
  apply nth_error_In in I4, I5. destruct (f_eo f) as [le|].
  - destruct (f_xo f) as [lx|] eqn:Ex; [|exfalso; apply W15; congruence]. cbn [rbind]. rewrite E2. cbn [rbind]. do 2 eexists. split; [reflexivity|]. cbn. eauto.
  - cbn [rbind oidx]. do 2 eexists. split; [reflexivity|]. cbn. eauto.
Qed.
Lemma mask_ok f p : well_formed f -> pixresFP p <> 0 -> centering p = Some (f_cen f) -> In (whichSide p) (f_sides f) -> (exists s, shape p = Some s /\ In s (shapes f)) -> exists o, falco_gen_SW_mask p = Ok o.
Proof.
  intros (W1 & _ & _ & _ & _ & _ & _ & _ & _ & _ & _ & _ & _ & _ & _ & W16 & W17) Hr Hc Hs (s & Hp & Hi). apply C44_accepts; [auto|]. unfold cen_of, shape_of. rewrite Hc, Hp. cbn [dget]. auto.
Qed.
Theorem C58_succeeds : forall f, well_formed f -> exists h, configure_dark_hole f = Ok h.
Proof.
  intros f W. pose proof W as (W1 & W2 & W3 & W4 & W5 & _). unfold configure_dark_hole.
  assert (HL : forall zones acc, (forall k, In k zones -> (k < length (cRin f))%nat) -> (0 < nr acc)%Z -> (0 < nc acc)%Z -> exists m, corr_loop f zones acc = Ok m).
  { induction zones as [|z t IH]; intros acc Hz P1 P2; cbn [corr_loop]; [eauto|].
    destruct (corr_in_ok f z W) as (p & E & I1 & I2); [apply Hz; left; auto|]. rewrite E. cbn [rbind]. destruct (corr_in_fields f z p E) as (F1 & F2 & _).
    destruct (mask_ok f p W) as [o E2]; auto; [congruence|]. rewrite E2. cbn [rbind]. destruct (sw_size p o E2) as [S1 S2].
    destruct (combine_sel acc (sw_mask o) P1 P2 S1 S2) as (a & -> & A1 & A2 & _). cbn [rbind]. apply IH; [|lia|lia]. intros k Hk. apply Hz. now right. }
  unfold corr_mask. destruct (HL (seq 0 (length (cRin f))) (mkarr 1 1 (fun _ _ => false))) as [m ->]; [intros k Hk; apply in_seq in Hk; lia|reflexivity|reflexivity|]. cbn [rbind].
  destruct (Nat.eqb_spec (length (cRin f)) 0); [lia|]. destruct (corr_in_ok f (length (cRin f) - 1) W) as (p & E & I1 & I2); [lia|]. rewrite E. cbn [rbind].
  destruct (corr_in_fields f _ p E) as (F1 & F2 & _).
  destruct (mask_ok f (with_size p (nc m) (nr m) (f_res f)) W) as [o1 ->]; auto. cbn [rbind].
  match goal with |- context [falco_gen_SW_mask ?q] => destruct (mask_ok f q W) as [o2 ->]; auto end. cbn [rbind].
  assert (HS : forall zones eo acc, (eo = None <-> f_eo f = None) -> (forall k, In k zones -> (k < length (sRin f))%nat) -> zones <> [] \/ acc <> None -> exists s e, score_loop f eo (nc m) (nr m) zones acc = Ok (Some s, e)).
  { induction zones as [|z t IH]; intros eo acc He Hz Ha; cbn [score_loop].
    - destruct Ha as [Ha|Ha]; [congruence|]. destruct acc; [eauto|congruence].
    - rewrite (score_in_eo f eo _ _ z He). destruct (score_in_ok f (nc m) (nr m) z W) as (q & e & E2 & J1 & J2); [apply Hz; left; auto|]. rewrite E2. cbn [rbind].
      destruct (score_in_fields _ _ _ _ _ _ _ E2) as (G1 & G2 & _). destruct (mask_ok f q W) as [o ->]; auto; [congruence|]. cbn [rbind].
      destruct (score_in_next _ _ _ _ _ _ _ E2 (iff_refl _)) as [N1 _]. apply IH; [auto| |right; discriminate]. intros k Hk. apply Hz. now right. }
  destruct (HS (seq 0 (length (sRin f))) (f_eo f) None) as (s & e & ->); [reflexivity|intros k Hk; apply in_seq in Hk; lia|left; intros Q; apply (f_equal (@length nat)) in Q; rewrite seq_length in Q; cbn in Q; lia|].
  cbn [rbind]. eauto.
Qed.

(* scoreInCorr has one entry per correction pixel, in row-major order, telling whether that pixel is scored. *)
Definition before (a b : Z * Z) : Prop := (fst a < fst b)%Z \/ (fst a = fst b /\ (snd a < snd b)%Z).
Lemma pixels_in m i j : In (i, j) (pixels m) <-> (0 <= i < nr m)%Z /\ (0 <= j < nc m)%Z /\ px m i j = true.
Proof.
  unfold pixels. rewrite filter_In, in_flat_map. split.
  - intros [(a & Ha & H) P]. apply in_map_iff in H. destruct H as (b & Q & Hb). apply in_seq in Ha, Hb. injection Q as <- <-. split; [lia|]. split; [lia|]. exact P.
  - intros (H1 & H2 & P). split; [|exact P]. exists (Z.to_nat i). split; [apply in_seq; lia|]. apply in_map_iff. exists (Z.to_nat j). split; [f_equal; lia|apply in_seq; lia].
Qed.
Lemma sorted_app {A} (R : A -> A -> Prop) l1 l2 : StronglySorted R l1 -> StronglySorted R l2 -> (forall a b, In a l1 -> In b l2 -> R a b) -> StronglySorted R (l1 ++ l2).
Proof.
  induction 1 as [|x l S IH F]; intros S2 H; [auto|]. cbn [app]. constructor.
  - apply IH; auto. intros a b0 Ha Hb. apply H; [now right|auto].
  - apply Forall_app. split; [auto|]. apply Forall_forall. intros y Hy. apply H; [now left|auto].
Qed.
Lemma sorted_filter {A} (R : A -> A -> Prop) g l : StronglySorted R l -> StronglySorted R (filter g l).
Proof.
  induction 1 as [|x l S IH F]; [constructor|]. cbn. destruct (g x); [|auto]. constructor; [auto|]. rewrite Forall_forall in *. intros y Hy. apply filter_In in Hy. apply F. tauto.
Qed.
Lemma pixels_sorted m : StronglySorted before (pixels m).
Proof.
  unfold pixels. apply sorted_filter.
  assert (Hrow : forall i n s, StronglySorted before (map (fun j => (Z.of_nat i, Z.of_nat j)) (seq s n))).
  { intros i n. induction n as [|n IH]; intros s; cbn [seq map]; constructor; [apply IH|]. apply Forall_forall. intros y Hy. apply in_map_iff in Hy. destruct Hy as (k & <- & Hk). apply in_seq in Hk. right. cbn. lia. }
  set (cols := seq 0 (Z.to_nat (nc m))) in *. assert (Hc : forall i, StronglySorted before (map (fun j => (Z.of_nat i, Z.of_nat j)) cols)) by (intros; apply Hrow). clearbody cols.
  generalize 0%nat as s. induction (Z.to_nat (nr m)) as [|n IH]; intros s; cbn [seq flat_map]; [constructor|].
  apply sorted_app; [apply Hc|apply IH|]. intros a b Ha Hb. apply in_map_iff in Ha. destruct Ha as (k & <- & _). apply in_flat_map in Hb. destruct Hb as (i' & Hi' & Hb).
  apply in_map_iff in Hb. destruct Hb as (k' & <- & _). apply in_seq in Hi'. left. cbn. lia.
Qed.
Theorem C58_score_in_corr : forall f h, configure_dark_hole f = Ok h -> exists order,
  (forall i j, In (i, j) order <-> (0 <= i < nr (corr_bool h))%Z /\ (0 <= j < nc (corr_bool h))%Z /\ px (corr_bool h) i j = true) /\
  StronglySorted before order /\
  length (score_in_corr h) = length order /\
  forall n i j, nth_error order n = Some (i, j) -> nth_error (score_in_corr h) n = Some (px (score_bool h) i j).
Proof.
  intros f h E. destruct (configure_inv f h E) as (last & axes & ev & sc & _ & _ & _ & _ & _ & _ & _ & _ & _ & _ & _ & E6 & _). exists (pixels (corr_bool h)).
  split; [apply pixels_in|]. split; [apply pixels_sorted|]. rewrite E6. split; [apply map_length|]. intros n i j Hn. now rewrite nth_error_map, Hn.
Qed.

(* A concrete configuration: two zones, no offsets. *)
Definition two_zones : fend := mkfend 3 "pixel" None None None None None [2; 3] [10; 12] [180; 60] ["both"; "top"]%string None
  None None None 6 [3; 4] [9; 11] [180; 50].
Example two_zones_wf : well_formed two_zones.
Proof.
  unfold well_formed. cbn. repeat (split; [try discriminate; try lra; try lia|]); try lia; try exact I; try congruence.
  - intros s [<-|[<-|[]]]; discriminate.
  - intros s [<-|[<-|[]]]; discriminate.
Qed.
Lemma eps_small : 13 * eps * 3 < 1/2.
Proof. unfold eps. assert (/ 2 ^ 52 <= / 100) by (apply Rinv_le_contravar; cbn; lra). lra. Qed.
Example two_zones_ok : plain two_zones /\ zones_ok two_zones /\ exists h, configure_dark_hole two_zones = Ok h /\
  forall i j, (0 <= i < h_Neta h)%Z -> (0 <= j < h_Nxi h)%Z -> px (score_bool h) i j = true -> px (corr_bool h) i j = true.
Proof.
  pose proof eps_small as ES.
  assert (P : plain two_zones) by (unfold plain; cbn; repeat (split; [try reflexivity; lra|]); lra).
  assert (Z : zones_ok two_zones).
  { intros k p Hk E. cbn in Hk. destruct (corr_in_fields _ _ _ E) as (_ & _ & _ & _ & _ & _ & _ & J1 & J2 & J3 & J4 & J5 & J6 & J7 & J8). cbn in J1, J2, J3, J7.
    destruct k as [|[|k]]; [| |lia]; cbn in J1, J2, J3; injection J1 as J1; injection J2 as J2; injection J3 as J3; unfold zone_ok, covered; rewrite <- J1, <- J2, <- J3; (split; [lra|split; [lra|auto]]). }
  split; [auto|]. split; [auto|]. destruct (C58_succeeds two_zones two_zones_wf) as [h E]. exists h. split; [auto|].
  apply (C58_score_inside_correction two_zones h false E P eq_refl Z eq_refl).
  intros k rs os as_ J1 J2 J3. cbn in J1, J2, J3. destruct k as [|[|k]]; [| |destruct k; discriminate]; cbn in J1, J2, J3; injection J1 as <-; injection J2 as <-; injection J3 as <-.
  - split; [lra|]. split; [lra|]. split; [lra|]. exists 2, 10, 180. cbn. repeat split; lra.
  - split; [lra|]. split; [lra|]. split; [lra|]. exists 3, 12, 60. cbn. repeat split; lra.
Qed.

(* Offsets: with a vertical offset and equal radii the scored region is displaced from the corrected one. *)
Definition shifted : fend := mkfend 1 "pixel" None None None None None [1] [2] [360] ["both"%string] None None (Some [0]) (Some [10]) 2 [1] [2] [360].
Theorem C58_scoring_displaced_refuted : exists h, configure_dark_hole shifted = Ok h /\
  forall i j, (0 <= i < h_Neta h)%Z -> (0 <= j < h_Nxi h)%Z -> px (corr_bool h) i j && px (score_bool h) i j = false.
Proof.
  assert (ES : 0 < eps /\ 13 * eps < 1/8) by (unfold eps; assert (/ 2 ^ 52 <= / 1000) by (apply Rinv_le_contravar; cbn; lra); split; [apply eps_pos|lra]).
  assert (W : well_formed shifted).
  { unfold well_formed. cbn. repeat (split; [try discriminate; try lra; try lia|]); try lia; try exact I; try congruence; intros s [<-|[]]; discriminate. }
  assert (P : plain shifted) by (unfold plain; cbn; repeat (split; [try reflexivity; lra|]); lra).
  assert (Z : zones_ok shifted).
  { intros k p Hk E. cbn in Hk. destruct (corr_in_fields _ _ _ E) as (_ & _ & _ & _ & _ & _ & _ & J1 & J2 & J3 & J4 & J5 & J6 & J7 & J8). cbn in J1, J2, J3, J7.
    destruct k as [|k]; [|lia]; cbn in J1, J2, J3; injection J1 as J1; injection J2 as J2; injection J3 as J3; unfold zone_ok, covered; rewrite <- J1, <- J2, <- J3; (split; [lra|split; [lra|auto]]). }
  destruct (C58_succeeds shifted W) as [h E]. exists h. split; [auto|]. intros i j Hi Hj. apply not_true_is_false. intros H. apply andb_prop in H. destruct H as [H1 H2].
  destruct (C58_correction_region shifted h false E P eq_refl Z) as (_ & _ & _ & _ & HC & _). destruct (HC i j Hi Hj) as (_ & _ & HC2). apply HC2 in H1.
  apply (C58_scoring_region shifted h false E eq_refl) in H2; try lia.
  2:{ intros k p e S. destruct (score_in_fields _ _ _ _ _ _ _ S) as (_ & _ & _ & _ & F5 & F6 & F7 & _). destruct k as [|k]; [|destruct k; discriminate F5]. cbn in F5, F6, F7. unfold zone_ok. injection F5 as <-. injection F6 as <-. injection F7 as <-. lra. }
  destruct H1 as (k & p & Hk & Z1 & (c & two & hh & L2 & L3 & R1 & _)). destruct k as [|k]; [|cbn in Hk; lia]. vm_compute in Z1. injection Z1 as <-. vm_compute in L3. injection L3 as <-.
  destruct H2 as (k & q & e & Hk2 & S1 & (c2 & two2 & hh2 & L4 & L5 & R2 & _)). destruct k as [|k]; [|cbn in Hk2; lia]. vm_compute in S1. injection S1 as <- <-. vm_compute in L5. injection L5 as <-.
  cbn in R1, R2. unfold dist in R1, R2. unfold xo_of, eo_of in R1, R2. cbn in R1, R2.
  set (x := h_xis h j) in *. set (y := h_etas h i) in *. clearbody x y.
  assert (Y : forall a b, sqrt (a * a + b * b) <= 2 + 13 * eps -> Rabs b <= 3).
  { intros a b0 Hs. assert (sqrt (b0 * b0) <= sqrt (a * a + b0 * b0)) by (apply sqrt_le_1_alt; nra). change (b0 * b0) with (Rsqr b0) in Hs, H; rewrite sqrt_Rsqr_abs in H. clear - H Hs ES. lra. }
  destruct R1 as [_ R1]. destruct R2 as [_ R2]. apply Y in R1, R2.
  rewrite abs_le in R1, R2. lra.
Qed.
Print Assumptions C58_correction_region. Print Assumptions C58_scoring_region. Print Assumptions C58_score_vertical_offset_refuted. Print Assumptions C58_vertical_offset_alone_fails.
Print Assumptions C58_score_inside_correction. Print Assumptions C58_succeeds. Print Assumptions C58_score_in_corr. Print Assumptions C58_scoring_displaced_refuted.
