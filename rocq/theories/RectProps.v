(* C102: rectangles of PROPER, antialiased along the lines, and polygons with the corners of a rectangle *)
From Coquelicot Require Import Coquelicot.
From Verif Require Import Base StrBase RBase UtilModel UtilSpec UtilProofs CBase PropModel PropProofs OptModel PrpModel PrpProofs PrpProofs5 DmSurfProofs2 EllProofs ApModel ApSpec ApProofs ApProofs2 ApProofs3 RectModel RectSpec RectProofs RectProofs2 RectProofs3 RectProofs4 RectProofs5.
Open Scope R_scope.
(* the image of a rectangle of any place, size and rotation: never an exception, each pixel the mean section length, or 1 minus it with DARK *)
Theorem C102_value mag w q : (1 <= mag)%nat -> 0 < w_dx w -> 0 < len w (r_norm q) (r_xsize q) -> 0 < len w (r_norm q) (r_ysize q) ->
  exists m, prop_rectangle mag w q = Ok m /\ frows m = w_n w /\ fcols m = w_n w /\ forall i j, (i < w_n w)%nat -> (j < w_n w)%nat ->
    exists v, line_mean (w_n w) mag (w_dx w) (len w (r_norm q) (r_xsize q)) (len w (r_norm q) (r_ysize q)) (place w (r_norm q) (r_xc q)) (place w (r_norm q) (r_yc q)) (r_rot q) i j v /\
      fpx m i j = if r_dark q then 1 - v else v.
Proof. apply rectangle_ok. Qed.
Print Assumptions C102_value.
(* the mean section length is one number *)
Theorem C102_one_value n mag dx xs ys xc yc rot i j v v' : line_mean n mag dx xs ys xc yc rot i j v -> line_mean n mag dx xs ys xc yc rot i j v' -> v = v'.
Proof. intros [a [A ->]] [b [B ->]]. f_equal. apply rsum_ext. intros k K. apply (has_length_unique _ _ _ (A k K) (B k K)). Qed.
Print Assumptions C102_one_value.
Lemma len_01 n dx xs ys xc yc rot i j s a : has_length (section n dx xs ys xc yc rot i j s) a -> 0 <= a <= 1.
Proof.
  intros [[_ ->]|[x [y [H [-> G]]]]]; [lra|]. pose proof (proj1 (proj2 (G x) ltac:(lra))). pose proof (proj1 (proj2 (G y) ltac:(lra))). lra.
Qed.
Lemma row_pos mag k : (k < mag)%nat -> 0 < (INR k + 1 / 2) / INR mag < 1.
Proof. intros H. pose proof (line_y_in mag 0 k H) as L. unfold line_y in L. simpl (INR 0) in L. replace (1 / 2 + INR k) with (INR k + 1 / 2) in L by ring. lra. Qed.
(* between 0 and 1; 1 where all of the pixel is in the rectangle, 0 where none of it is *)
Theorem C102_range n mag dx xs ys xc yc rot i j v : (1 <= mag)%nat -> line_mean n mag dx xs ys xc yc rot i j v ->
  0 <= v <= 1 /\ (all_of n dx xs ys xc yc rot i j -> v = 1) /\ (none_of n dx xs ys xc yc rot i j -> v = 0).
Proof.
  intros Hm [a [A ->]]. assert (M : 0 < INR mag) by (apply lt_0_INR; lia). split; [|split].
  - assert (B : INR mag * 0 <= rsum mag a <= INR mag * 1) by (apply rsum_bounds; intros k K; apply (len_01 _ _ _ _ _ _ _ _ _ _ _ (A k K))).
    destruct (div_between (rsum mag a) 1 (INR mag) M) as [U _]. destruct (div_between (rsum mag a) 0 (INR mag) M) as [_ V]. split; [apply V|apply U]; lra.
  - intros F. rewrite (rsum_ext mag a (fun _ => 1)); [rewrite rsum_const; field; lra|]. intros k K. apply (has_length_unique _ _ _ (A k K)).
    right. exists (INR j - 1 / 2), (INR j + 1 / 2). split; [lra|]. split; [lra|]. intros u. unfold section. split; [tauto|]. intros U. split; auto. apply F; auto. pose proof (row_pos mag k K). lra.
  - intros F. rewrite (rsum_zero mag a); [unfold Rdiv; ring|]. intros k K. apply (has_length_unique _ _ _ (A k K)). left. split; auto. intros u [U G]. apply (F u (INR i - 1 / 2 + (INR k + 1 / 2) / INR mag)); auto. pose proof (row_pos mag k K). lra.
Qed.
Print Assumptions C102_range.
(* apertures and obscurations: the centred field of an even grid multiplied by the values, or by 1 minus them *)
Theorem C102_aperture mag w width height xc yc rot norm : (1 <= mag)%nat -> square_w w -> Nat.even (w_n w) = true -> 0 < w_dx w -> 0 < len w norm width -> 0 < len w norm height ->
  exists w1 w2, rectangular_aperture mag w width height xc yc rot norm = Ok w1 /\ rectangular_obscuration mag w width height xc yc rot norm = Ok w2 /\
    square_w w1 /\ square_w w2 /\ w1 = set_arr w (w_arr w1) /\ w2 = set_arr w (w_arr w2) /\
    forall i j, (i < w_n w)%nat -> (j < w_n w)%nat -> exists v, line_mean (w_n w) mag (w_dx w) (len w norm width) (len w norm height) (len w norm xc) (len w norm yc) rot i j v /\
      centred w1 i j = Cmult (centred w i j) (RtoC v) /\ centred w2 i j = Cmult (centred w i j) (RtoC (1 - v)).
Proof.
  intros M S EV D X Y. destruct (rectangle_ok mag w (mkrp width height (Some xc) (Some yc) rot norm false) M D X Y) as (m & E1 & M1 & M2 & V).
  destruct (rectangle_ok mag w (mkrp width height (Some xc) (Some yc) rot norm true) M D X Y) as (d & E2 & D1 & D2 & U).
  destruct (times_ok w m S M1 M2) as (F & T & T1 & T2 & TV). destruct (times_ok w d S D1 D2) as (G & T' & T1' & T2' & TV'). destruct S as [S1 S2].
  unfold rectangular_aperture, rectangular_obscuration. rewrite E1, E2. cbn [rbind]. exists (set_arr w F), (set_arr w G). split; [exact T|]. split; [exact T'|]. split; [split; auto|]. split; [split; auto|]. split; [reflexivity|]. split; [reflexivity|].
  intros i j Hi Hj. destruct (V i j Hi Hj) as [v [Lv Ev]]. destruct (U i j Hi Hj) as [v' [Lv' Ev']]. cbn [r_dark r_norm r_xc r_yc r_xsize r_ysize r_rot place] in *. assert (v' = v) by (eapply C102_one_value; eauto). subst v'.
  exists v. split; auto. unfold centred. cbn [shift_center roll2 set_arr w_arr frows fcols fpx]. rewrite T1, T2, T1', T2', S1, S2. rewrite TV, TV' by (apply roll_lt; lia). rewrite !roll_twice_even by auto. rewrite Ev, Ev'. auto.
Qed.
Print Assumptions C102_aperture.
(* ROTATION turns a rectangle and an ellipse in opposite directions: the ellipse of the same axes and the opposite angle is inside the rectangle, that of
   the same angle is not *)
Theorem C102_turns_opposite xr yr xc yc rot X Y : 0 < xr -> 0 < yr -> inside 1 xr yr xc yc (- rot) X Y -> in_rectangle (2 * xr) (2 * yr) xc yc rot X Y.
Proof.
  intros Hx Hy. unfold inside, in_rectangle. cbv zeta. replace (- rot * PI / 180) with (- (rot * PI / 180)) by (unfold Rdiv; ring). rewrite cos_neg, sin_neg. set (t := rot * PI / 180).
  replace (cos t * (X - xc) - - sin t * (Y - yc)) with (cos t * (X - xc) + sin t * (Y - yc)) by ring. replace (- sin t * (X - xc) + cos t * (Y - yc)) with (cos t * (Y - yc) - sin t * (X - xc)) by ring.
  set (u := cos t * (X - xc) + sin t * (Y - yc)). set (v := cos t * (Y - yc) - sin t * (X - xc)). intros H.
  assert (A : forall a r, 0 < r -> (a / r) ^ 2 <= 1 -> Rabs a <= r).
  { intros a r R G. assert (E : a = a / r * r) by (field; lra). rewrite E, Rabs_mult, (Rabs_right r) by lra. apply Rle_trans with (1 * r); [|lra]. apply Rmult_le_compat_r; [lra|].
    rewrite <- (Rabs_right 1) by lra. apply Rsqr_le_abs_0. unfold Rsqr. lra. }
  pose proof (pow2_ge_0 (u / xr)). pose proof (pow2_ge_0 (v / yr)). replace (2 * xr / 2) with xr by field. replace (2 * yr / 2) with yr by field. split; apply A; auto; lra.
Qed.
Print Assumptions C102_turns_opposite.
Theorem C102_turns_same_refuted : exists X Y, inside 1 4 1 0 0 45 X Y /\ ~ in_rectangle 8 2 0 0 45 X Y.
Proof.
  assert (E : 45 * PI / 180 = PI / 4) by field. exists (4 * cos (PI / 4)), (- (4 * sin (PI / 4))). unfold inside, in_rectangle. cbv zeta. rewrite E. rewrite !Rminus_0_r. pose proof (cs1 (PI / 4)) as C. set (c := cos (PI / 4)) in *. set (s := sin (PI / 4)) in *. split.
  - replace (c * (4 * c) - s * - (4 * s)) with (4 * (c * c + s * s)) by ring. replace (s * (4 * c) + c * - (4 * s)) with 0 by ring. rewrite C. right. field.
  - intros [_ G]. replace (c * - (4 * s) - s * (4 * c)) with (- (8 * (s * c))) in G by ring. unfold s, c in G. rewrite sin_PI4, cos_PI4 in G.
    replace (8 * (1 / sqrt 2 * (1 / sqrt 2))) with 4 in G. { rewrite Rabs_Ropp, Rabs_right in G by lra. lra. }
    replace (8 * (1 / sqrt 2 * (1 / sqrt 2))) with (8 / (sqrt 2 * sqrt 2)) by (field; apply Rgt_not_eq, Rlt_gt, sqrt_lt_R0; lra). rewrite sqrt_sqrt by lra. field.
Qed.
Print Assumptions C102_turns_same_refuted.
Lemma upright xs ys X Y : in_rectangle xs ys 0 0 0 X Y <-> Rabs X <= xs / 2 /\ Rabs Y <= ys / 2.
Proof.
  unfold in_rectangle. replace (0 * PI / 180) with 0 by (unfold Rdiv; ring). rewrite cos_0, sin_0. replace (1 * (X - 0) + 0 * (Y - 0)) with X by ring. replace (1 * (Y - 0) - 0 * (X - 0)) with Y by ring. tauto.
Qed.
(* the value is not the area: of a square of 2 x 2 pixels centred on a pixel, half of the pixel to the right is inside and half of the pixel above, but the
   first is 1/2 and the second (h + 1) / (2 h + 1) with 2 h + 1 lines *)
Theorem C102_sides_refuted h w m : w_n w = 8%nat -> w_dx w = 1 -> prop_rectangle (2 * h + 1) w (mkrp 2 2 None None 0 false false) = Ok m ->
  fpx m 4 5 = 1 / 2 /\ fpx m 5 4 = (INR h + 1) / (2 * INR h + 1) /\ fpx m 4 4 = 1.
Proof.
  intros Hn Hd E. destruct (rectangle_ok (2 * h + 1) w (mkrp 2 2 None None 0 false false)) as (m' & E' & _ & _ & V); try (cbn; unfold len; cbn; lra); [lia|].
  rewrite E in E'. injection E' as <-. rewrite Hn, Hd in V. cbn [r_dark r_norm r_xc r_yc r_xsize r_ysize r_rot place len] in V.
  assert (HM : INR (2 * h + 1) = 2 * INR h + 1) by (rewrite plus_INR, mult_INR; simpl; ring). pose proof (pos_INR h) as Ph.
  assert (P4 : INR (8 / 2) = 4) by (simpl; ring).
  split; [|split].
  - destruct (V 4%nat 5%nat) as [v [[a [A Ea]] ->]]; try lia. rewrite Ea. rewrite (rsum_ext _ a (fun _ => 1 / 2)); [rewrite rsum_const, HM; field; lra|].
    intros k K. apply (has_length_unique _ _ _ (A k K)). right. exists (9 / 2), 5. split; [lra|]. split; [lra|]. intros u. unfold section, metres. rewrite upright, P4.
    pose proof (row_pos _ k K). replace (INR 5) with 5 by (simpl; ring). replace (INR 4) with 4 by (simpl; ring). split; [intros [U [G _]]; unfold Rabs in G; destruct (Rcase_abs _); lra|]. intros U. split; [lra|]. split; apply Rabs_le; lra.
  - destruct (V 5%nat 4%nat) as [v [[a [A Ea]] ->]]; try lia. rewrite Ea. rewrite HM. f_equal.
    assert (B : forall k, (k < 2 * h + 1)%nat -> a k = if (k <=? h)%nat then 1 else 0).
    { intros k K. apply (has_length_unique _ _ _ (A k K)). assert (Q : INR (2 * h + 1) > 0) by lra. pose proof (row_pos _ k K).
      destruct (div_between (INR k + 1 / 2) (1 / 2) _ Q) as [D _]. rewrite HM in D. 
      destruct (Nat.leb_spec k h) as [L|L].
      - apply le_INR in L. right. exists (7 / 2), (9 / 2). split; [lra|]. split; [lra|]. intros u. unfold section, metres. rewrite upright, P4. rewrite HM in *. replace (INR 5) with 5 by (simpl; ring). replace (INR 4) with 4 by (simpl; ring).
        split; [intros [U _]; lra|]. intros U. split; [lra|]. assert ((INR k + 1 / 2) / (2 * INR h + 1) <= 1 / 2) by (apply D; lra). split; apply Rabs_le; lra.
      - left. split; auto. intros u. unfold section, metres. rewrite upright, P4. rewrite HM in *. replace (INR 5) with 5 by (simpl; ring). intros [_ [_ G]]. apply lt_INR in L. 
        assert (1 / 2 < (INR k + 1 / 2) / (2 * INR h + 1)). { apply Rnot_le_lt. intros W. apply D in W. assert (INR h + 1 <= INR k) by (rewrite <- S_INR; apply le_INR; apply INR_lt in L; lia). lra. }
        unfold Rabs in G. destruct (Rcase_abs _); lra. }
    rewrite (rsum_ext _ _ _ B). clear. assert (C : forall n, rsum n (fun k => if (k <=? h)%nat then 1 else 0) = INR (Nat.min n (h + 1))).
    { induction n; [reflexivity|]. cbn [rsum]. rewrite IHn. destruct (Nat.leb_spec n h).
      - rewrite Nat.min_l by lia. rewrite Nat.min_l by lia. rewrite S_INR. reflexivity.
      - rewrite Nat.min_r by lia. rewrite Nat.min_r by lia. ring. }
    rewrite C. rewrite Nat.min_r by lia. rewrite plus_INR. simpl. reflexivity.
  - destruct (V 4%nat 4%nat) as [v [L ->]]; try lia. assert (H1 : (1 <= 2 * h + 1)%nat) by lia. apply (C102_range _ _ _ _ _ _ _ _ _ _ _ H1 L). intros u y U Yy. unfold metres. rewrite upright, P4. replace (INR 4) with 4 in U, Yy by (simpl; ring). split; apply Rabs_le; lra.
Qed.
Print Assumptions C102_sides_refuted.
Theorem C102_sides_example : exists w m, w_n w = 8%nat /\ w_dx w = 1 /\ prop_rectangle 11 w (mkrp 2 2 None None 0 false false) = Ok m /\ fpx m 5 4 = 6 / 11.
Proof.
  destruct (prop_begin 8 1 8 1) as [w|] eqn:E; [|unfold prop_begin in E; destruct (Req_EM_T 1 0); [lra|]; destruct (Req_EM_T (INR 8 * 1) 0) as [Z|]; [simpl in Z; lra|discriminate]].
  assert (Hw : w_n w = 8%nat /\ w_dx w = 1). { unfold prop_begin in E. destruct (Req_EM_T 1 0); [lra|]. destruct (Req_EM_T (INR 8 * 1) 0); [discriminate|]. injection E as <-. cbn [w_n w_dx]. split; auto. simpl. field. }
  destruct Hw as [Hn Hd]. destruct (rectangle_ok (2 * 5 + 1) w (mkrp 2 2 None None 0 false false)) as (m & Em & _ & _ & _); try (cbn; unfold len; cbn; lra); [lia|].
  exists w, m. split; auto. split; auto. split; [exact Em|]. destruct (C102_sides_refuted 5 w m Hn Hd Em) as [_ [-> _]]. simpl. field.
Qed.
Print Assumptions C102_sides_example.
(* prop_irregular_polygon with a rectangle's corners, in either order, paints the same as prop_rectangle when all of the rectangle is left of the right edge *)
Theorem C102_polygon_agrees mag w cw xs ys xc yc rot norm dark : (1 <= mag)%nat -> 0 < w_dx w -> 0 < len w norm xs -> 0 < len w norm ys ->
  (forall u v, in_rectangle (len w norm xs) (len w norm ys) (len w norm xc) (len w norm yc) rot (metres (w_n w) (w_dx w) u) (metres (w_n w) (w_dx w) v) -> - (1 / 2) < u < INR (w_n w) - 1 / 2) ->
  exists m r, prop_irregular_polygon mag w (corners cw xs ys xc yc rot) norm dark = Ok m /\ prop_rectangle mag w (mkrp xs ys (Some xc) (Some yc) rot norm dark) = Ok r /\
    frows m = frows r /\ fcols m = fcols r /\ forall i j, (i < w_n w)%nat -> (j < w_n w)%nat -> fpx m i j = fpx r i j.
Proof.
  intros M D X Y H. destruct (polygon_core mag w cw xs ys xc yc rot norm dark M D X Y) as (m & E & M1 & M2 & V).
  { intros u v Hv G. exists u. split; auto. eapply H; eauto. }
  destruct (rectangle_ok mag w (mkrp xs ys (Some xc) (Some yc) rot norm dark) M D X Y) as (r & F & R1 & R2 & U). exists m, r. do 2 (split; [assumption|]). do 2 (split; [congruence|]).
  intros i j Hi Hj. destruct (V i j Hi Hj) as [v [Ev [Lv _]]]. destruct (U i j Hi Hj) as [v' [Lv' Ev']]. cbn [r_dark r_norm r_xc r_yc r_xsize r_ysize r_rot place] in *. rewrite Ev, Ev'.
  assert (v = v'). { eapply C102_one_value; [apply Lv|exact Lv']. right. intros u v0 G. apply (H u v0 G). } subst v'. reflexivity.
Qed.
Print Assumptions C102_polygon_agrees.
(* in general, in all columns but the last *)
Theorem C102_polygon_columns mag w cw xs ys xc yc rot norm dark : (1 <= mag)%nat -> 0 < w_dx w -> 0 < len w norm xs -> 0 < len w norm ys ->
  lines_meet (w_n w) (w_dx w) (len w norm xs) (len w norm ys) (len w norm xc) (len w norm yc) rot ->
  exists m r, prop_irregular_polygon mag w (corners cw xs ys xc yc rot) norm dark = Ok m /\ prop_rectangle mag w (mkrp xs ys (Some xc) (Some yc) rot norm dark) = Ok r /\
    forall i j, (i < w_n w)%nat -> (S j < w_n w)%nat -> fpx m i j = fpx r i j.
Proof.
  intros M D X Y H. destruct (polygon_core mag w cw xs ys xc yc rot norm dark M D X Y H) as (m & E & M1 & M2 & V).
  destruct (rectangle_ok mag w (mkrp xs ys (Some xc) (Some yc) rot norm dark) M D X Y) as (r & F & R1 & R2 & U). exists m, r. do 2 (split; [assumption|]).
  intros i j Hi Hj. destruct (V i j Hi ltac:(lia)) as [v [Ev [Lv _]]]. destruct (U i j Hi ltac:(lia)) as [v' [Lv' Ev']]. cbn [r_dark r_norm r_xc r_yc r_xsize r_ysize r_rot place] in *. rewrite Ev, Ev'.
  assert (v = v') by (eapply C102_one_value; [apply Lv; left; auto|exact Lv']). subst v'. reflexivity.
Qed.
Print Assumptions C102_polygon_columns.
(* the last column of the array is left empty by a polygon that reaches over it from further left: prop_rectangle fills it *)
Theorem C102_polygon_last_column_refuted mag w cw xs ys xc yc rot norm dark : (1 <= mag)%nat -> 0 < w_dx w -> (2 <= w_n w)%nat -> 0 < len w norm xs -> 0 < len w norm ys ->
  (forall i j, (i < w_n w)%nat -> (w_n w - 2 <= j <= w_n w)%nat -> all_of (w_n w) (w_dx w) (len w norm xs) (len w norm ys) (len w norm xc) (len w norm yc) rot i j) ->
  exists m r, prop_irregular_polygon mag w (corners cw xs ys xc yc rot) norm dark = Ok m /\ prop_rectangle mag w (mkrp xs ys (Some xc) (Some yc) rot norm dark) = Ok r /\
    forall i, (i < w_n w)%nat -> fpx m i (w_n w - 1)%nat = (if dark then 1 else 0) /\ fpx r i (w_n w - 1)%nat = (if dark then 0 else 1).
Proof.
  intros M D N2 X Y H.
  assert (HN : INR (w_n w - 2) = INR (w_n w) - 2) by (rewrite minus_INR by lia; simpl; ring). assert (HN1 : INR (w_n w - 1) = INR (w_n w) - 1) by (rewrite minus_INR by lia; simpl; ring).
  assert (HN2 : 2 <= INR (w_n w)) by (replace 2 with (INR 2) by (simpl; ring); apply le_INR; lia).
  assert (HL : lines_meet (w_n w) (w_dx w) (len w norm xs) (len w norm ys) (len w norm xc) (len w norm yc) rot).
  { intros u v Hv G. exists (INR (w_n w) - 2). split; [lra|].
    assert (HZ : exists i, (i < w_n w)%nat /\ INR i - 1 / 2 <= v <= INR i + 1 / 2).
    { assert (B1 : (0 <= ZnearestE v)%Z) by (apply near_ge; simpl; lra). assert (B2 : (ZnearestE v < Z.of_nat (w_n w))%Z) by (apply near_lt; rewrite <- INR_IZR_INZ; lra).
      exists (Z.to_nat (ZnearestE v)). split; [lia|]. rewrite INR_IZR_INZ, Z2Nat.id by auto. destruct (near_up v). lra. }
    destruct HZ as [i [Hi Hiv]]. apply (H i (w_n w - 2)%nat Hi ltac:(lia)); rewrite ?HN; lra. }
  destruct (polygon_core mag w cw xs ys xc yc rot norm dark M D X Y HL) as (m & E & M1 & M2 & V).
  destruct (rectangle_ok mag w (mkrp xs ys (Some xc) (Some yc) rot norm dark) M D X Y) as (r & F & R1 & R2 & U). exists m, r. do 2 (split; [assumption|]).
  intros i Hi. destruct (V i (w_n w - 1)%nat Hi ltac:(lia)) as [v [Ev [_ Lv]]]. destruct (U i (w_n w - 1)%nat Hi ltac:(lia)) as [v' [Lv' Ev']]. cbn [r_dark r_norm r_xc r_yc r_xsize r_ysize r_rot place] in *. rewrite Ev, Ev'.
  assert (v' = 1) by (apply (C102_range _ _ _ _ _ _ _ _ _ _ _ M Lv'), H; lia). subst v'.
  assert (v = 0).
  { apply Lv; [lia|]. intros k K. exists (INR (w_n w) - 2), (INR (w_n w)). rewrite HN1. split; [lra|]. split; [lra|]. pose proof (line_y_in mag i k K).
    split; [apply (H i (w_n w - 2)%nat Hi ltac:(lia))|apply (H i (w_n w) Hi ltac:(lia))]; rewrite ?HN; lra. }
  subst v. destruct dark; lra.
Qed.
Print Assumptions C102_polygon_last_column_refuted.
(* an upright rectangle's corners wholly to the right of the array: an IndexError, where prop_rectangle paints nothing *)
Theorem C102_polygon_right_refuted mag w cw xs ys xc yc norm dark : (1 <= mag)%nat -> 0 < w_dx w -> 0 < len w norm ys -> w_dx w < len w norm xs ->
  metres (w_n w) (w_dx w) (INR (w_n w) - 1 / 2) < len w norm xc - len w norm xs / 2 ->
  (exists i k, (i < w_n w)%nat /\ (k < mag)%nat /\ Rabs (metres (w_n w) (w_dx w) (INR i - 1 / 2 + (INR k + 1 / 2) / INR mag) - len w norm yc) <= len w norm ys / 2) ->
  prop_irregular_polygon mag w (corners cw xs ys xc yc 0) norm dark = Raise IndexError /\
  exists r, prop_rectangle mag w (mkrp xs ys (Some xc) (Some yc) 0 norm dark) = Ok r /\ forall i j, (i < w_n w)%nat -> (j < w_n w)%nat -> fpx r i j = (if dark then 1 else 0).
Proof.
  intros M D Y X1 HL [i [k [Hi [Hk G]]]]. split.
  - apply polygon_err; auto. exists i, k. split; auto. split; auto. replace (line_y mag i k) with (INR i - 1 / 2 + (INR k + 1 / 2) / INR mag) by (unfold line_y; rewrite (Rplus_comm (1 / 2) (INR k)); ring). auto.
  - destruct (rectangle_ok mag w (mkrp xs ys (Some xc) (Some yc) 0 norm dark)) as (r & F & R1 & R2 & U); auto; [cbn [r_norm r_xsize]; lra|]. exists r. split; auto.
    intros a b Ha Hb. destruct (U a b Ha Hb) as [v [Lv ->]]. cbn [r_dark r_norm r_xc r_yc r_xsize r_ysize r_rot place] in *.
    assert (v = 0).
    { apply (C102_range _ _ _ _ _ _ _ _ _ _ _ M Lv). intros u y Hu _ [Q _]. replace (0 * PI / 180) with 0 in Q by (unfold Rdiv; ring). rewrite cos_0, sin_0 in Q.
      assert (IB : INR b + 1 <= INR (w_n w)) by (rewrite <- S_INR; apply le_INR; lia).
      assert (metres (w_n w) (w_dx w) u <= metres (w_n w) (w_dx w) (INR (w_n w) - 1 / 2)) by (unfold metres; apply Rmult_le_compat_r; lra).
      unfold Rabs in Q. destruct (Rcase_abs _); lra. }
    subst v. destruct dark; lra.
Qed.
Print Assumptions C102_polygon_right_refuted.
(* such a wavefront and such rectangles exist: a turned square over the whole array, an upright one right of it *)
Theorem C102_polygon_example : exists w, w_n w = 8%nat /\ w_dx w = 1 /\
  (exists m, prop_irregular_polygon 11 w (corners true 60 60 0 0 30) false false = Ok m /\ fpx m 3 7 = 0) /\
  prop_irregular_polygon 11 w (corners false 3 3 10 0 0) false false = Raise IndexError.
Proof.
  destruct (prop_begin 8 1 8 1) as [w|] eqn:E; [|unfold prop_begin in E; destruct (Req_EM_T 1 0); [lra|]; destruct (Req_EM_T (INR 8 * 1) 0) as [Z|]; [simpl in Z; lra|discriminate]].
  assert (Hw : w_n w = 8%nat /\ w_dx w = 1). { unfold prop_begin in E. destruct (Req_EM_T 1 0); [lra|]. destruct (Req_EM_T (INR 8 * 1) 0); [discriminate|]. injection E as <-. cbn [w_n w_dx]. split; auto. simpl. field. }
  destruct Hw as [Hn Hd]. assert (P4 : INR (8 / 2) = 4) by (simpl; ring). exists w. split; auto. split; auto. split.
  - destruct (C102_polygon_last_column_refuted 11 w true 60 60 0 0 30 false false) as (m & r & Em & _ & V); rewrite ?Hn, ?Hd; try lia; try (unfold len; lra).
    + unfold len. intros i j Hi Hj u v U Vv. unfold in_rectangle, metres. rewrite P4. set (t := 30 * PI / 180). 
      assert (BI : INR i <= 8) by (replace 8 with (INR 8) by (simpl; ring); apply le_INR; lia). assert (BJ : INR j <= 8) by (replace 8 with (INR 8) by (simpl; ring); apply le_INR; lia).
      pose proof (pos_INR i). pose proof (pos_INR j). destruct (COS_bound t). destruct (SIN_bound t).
      assert (L : forall a b c s, -1 <= c <= 1 -> -1 <= s <= 1 -> Rabs a <= 5 -> Rabs b <= 5 -> Rabs (c * a + s * b) <= 60 / 2).
      { intros a b c s C S A B. eapply Rle_trans; [apply Rabs_triang|]. rewrite !Rabs_mult. assert (Rabs c <= 1) by (apply Rabs_le; lra). assert (Rabs s <= 1) by (apply Rabs_le; lra).
        assert (Rabs c * Rabs a <= 1 * 5) by (apply Rmult_le_compat; auto; apply Rabs_pos). assert (Rabs s * Rabs b <= 1 * 5) by (apply Rmult_le_compat; auto; apply Rabs_pos). lra. }
      split; [|replace (cos t * ((v - 4) * 1 - 0) - sin t * ((u - 4) * 1 - 0)) with (cos t * ((v - 4) * 1 - 0) + (- sin t) * ((u - 4) * 1 - 0)) by ring]; apply L; try lra; apply Rabs_le; lra.
    + exists m. split; auto. rewrite Hn in V. apply (V 3%nat). lia.
  - apply (C102_polygon_right_refuted 11 w false 3 3 10 0 false false); rewrite ?Hn, ?Hd; try lia; unfold len; try lra.
    + unfold metres. rewrite P4. simpl (INR 8). lra.
    + exists 4%nat, 5%nat. split; [lia|]. split; [lia|]. unfold metres. rewrite P4. apply Rabs_le. simpl. lra.
Qed.
Print Assumptions C102_polygon_example.
