(* C107: PROPER's regular polygons *)
From Verif Require Import Base StrBase RBase CBase PropModel PrpModel DmSurfProofs2 EllProofs ApModel ApSpec RectModel RectSpec PolySpec PolyProofs PolyProofs2 PolyProofs3 PolyProofs4 PolyProps NgonModel NgonSpec.
Open Scope R_scope.
Lemma rows_at pt ptx n p mag cnt : forall i s img, (i + cnt <= n)%nat -> (forall k, (k < n)%nat -> ptx k = pt) -> scan_rows_at ptx p mag i cnt s img = scan_rows pt p mag i cnt s img.
Proof.
  induction cnt as [|c IH]; intros i s img H E; [reflexivity|]. cbn [scan_rows_at scan_rows]. rewrite E by lia. destruct (scan_subs pt p mag i 0 mag s (img i)) as [sr|]; [|reflexivity]. cbn [rbind]. apply IH; [lia|exact E].
Qed.
Lemma sum_angle q k : (1 <= g_nv q)%nat -> let a := if Req_EM_T (g_rot q) 0 then 0 else g_rot q * PI / 180 in let t := - (INR k / INR (g_nv q)) * 2 * PI in
  cos t * cos a - sin t * sin a = cos (g_rot q * PI / 180 - 2 * PI * INR k / INR (g_nv q)) /\ cos t * sin a + sin t * cos a = sin (g_rot q * PI / 180 - 2 * PI * INR k / INR (g_nv q)).
Proof.
  intros N a t. assert (P : 0 < INR (g_nv q)) by (apply lt_0_INR; lia). assert (A : a = g_rot q * PI / 180) by (unfold a; destruct (Req_EM_T (g_rot q) 0) as [->|]; [field|reflexivity]).
  replace (g_rot q * PI / 180 - 2 * PI * INR k / INR (g_nv q)) with (t + a) by (rewrite A; unfold t; field; lra). rewrite cos_plus, sin_plus. split; ring.
Qed.
Lemma even_half n : Nat.even n = true -> INR n / 2 = INR (n / 2).
Proof. intros EV. apply Nat.even_spec in EV. destruct EV as [h ->]. rewrite (Nat.mul_comm 2 h), Nat.div_mul by lia. rewrite mult_INR. simpl (INR 2). field. Qed.
Lemma to_pix_add w norm a b : 0 < w_dx w -> to_pix w norm (a + b) = to_pix w norm a + to_pix w norm b.
Proof. intros D. unfold to_pix, get_sampling. destruct norm; field; lra. Qed.
Lemma to_pix_scale w norm a c : 0 < w_dx w -> to_pix w norm (a * c) = c * to_pix w norm a.
Proof. intros D. unfold to_pix, get_sampling. destruct norm; field; lra. Qed.
(* clockwise: the first corner turns to the right *)
Lemma turns_right q : (3 <= g_nv q)%nat -> let x := v_x (corners q) in let y := v_y (corners q) in
  (x 1%nat - x 0%nat) * (y 2%nat - y 1%nat) - (y 1%nat - y 0%nat) * (x 2%nat - x 1%nat) <= 0.
Proof.
  intros N x y. unfold x, y, corners. cbn [v_x v_y]. set (r := g_rad q). set (b := g_rot q * PI / 180). set (th := 2 * PI / INR (g_nv q)).
  assert (P : 3 <= INR (g_nv q)) by (apply le_INR in N; simpl (INR 3) in N; lra).
  assert (E0 : 2 * PI * INR 0 / INR (g_nv q) = 0) by (simpl (INR 0); field; lra). assert (E1 : 2 * PI * INR 1 / INR (g_nv q) = th) by (unfold th; simpl (INR 1); field; lra). assert (E2 : 2 * PI * INR 2 / INR (g_nv q) = th + th) by (unfold th; simpl (INR 2); field; lra).
  rewrite E0, E1, E2, Rminus_0_r. replace (b - (th + th)) with (b - th - th) by ring. set (u := b - th). replace b with (u + th) by (unfold u; ring).
  assert (T : 0 < th <= PI). { pose proof PI_RGT_0. unfold th. split; [apply Rdiv_lt_0_compat; lra|]. apply Rmult_le_reg_r with (INR (g_nv q)); [lra|]. unfold Rdiv. rewrite Rmult_assoc, Rinv_l by lra. nra. }
  assert (SN : 0 <= sin th) by (apply sin_ge_0; lra). pose proof (COS_bound th) as CB. rewrite cos_plus, sin_plus, cos_minus, sin_minus.
  set (c := cos u). set (s := sin u). set (ct := cos th) in *. set (st := sin th) in *. assert (I1 : s * s + c * c = 1) by (unfold s, c; pose proof (sin2_cos2 u) as H; unfold Rsqr in H; exact H).
  match goal with |- ?l <= 0 => replace l with (- (2 * (r * r) * st * (1 - ct) * (s * s + c * c))) by (destruct (g_xc q), (g_yc q); ring) end.
  rewrite I1. assert (0 <= 2 * (r * r) * st * (1 - ct)); [|lra]. apply Rmult_le_pos; [|lra]. apply Rmult_le_pos; [nra|exact SN].
Qed.
Lemma ngon_corners w q : 0 < w_dx w -> Nat.even (w_n w) = true -> (3 <= g_nv q)%nat -> ngon_poly w q = polygon_pix w (g_norm q) (corners q).
Proof.
  intros D EV N. pose proof (turns_right q N) as TR. cbv zeta in TR. unfold polygon_pix. cbv zeta. destruct (Rlt_dec 0 _) as [L|_]; [lra|]. unfold ngon_poly. change (v_n (corners q)) with (g_nv q). cbv zeta. f_equal; apply FunctionalExtensionality.functional_extensionality; intros k.
  all: destruct (sum_angle q k ltac:(lia)) as [CA SA]; cbv zeta in CA, SA; rewrite ?CA, ?SA; unfold corners, mid_pix; cbn [v_x v_y].
  - destruct (g_xc q); rewrite ?to_pix_add, !(to_pix_scale _ _ (g_rad q)) by exact D; rewrite (even_half _ EV); ring.
  - destruct (g_yc q); rewrite ?to_pix_add, !(to_pix_scale _ _ (g_rad q)) by exact D; rewrite (even_half _ EV); ring.
Qed.
(* on even grids: exactly the polygon prop_irregular_polygon makes of the corners, unless the highest one rounds to the row above the grid *)
Theorem C107_same mag w q : 0 < w_dx w -> Nat.even (w_n w) = true -> (3 <= g_nv q)%nat -> ZnearestE (lmax (v_y (ngon_poly w q)) (g_nv q)) <> Z.of_nat (w_n w) ->
  prop_polygon mag w q = prop_irregular_polygon mag w (corners q) (g_norm q) (g_dark q).
Proof.
  intros D EV N HI. unfold prop_polygon, prop_irregular_polygon, fill. rewrite <- (ngon_corners w q D EV N). change (v_n (corners q)) with (g_nv q). change (v_n (ngon_poly w q)) with (g_nv q). unfold get_sampling. destruct (Req_EM_T (w_dx w) 0); [lra|].
  destruct (Nat.eqb_spec (g_nv q) 0); [lia|]. destruct (Nat.ltb_spec (g_nv q) 3); [lia|]. cbv zeta. set (hi := ZnearestE (lmax (v_y (ngon_poly w q)) (g_nv q))) in *.
  set (lo := ZnearestE (lmin (v_y (ngon_poly w q)) (g_nv q))). set (imin := if (lo <? 0)%Z then 0%Z else lo).
  assert (TOP : top_row (w_n w) hi = if (Z.of_nat (w_n w) <? hi + 1)%Z then Z.of_nat (w_n w) else (hi + 1)%Z) by (unfold top_row; destruct (Z.ltb_spec (Z.of_nat (w_n w)) hi), (Z.ltb_spec (Z.of_nat (w_n w)) (hi + 1)); lia).
  rewrite TOP. set (imax := (if (Z.of_nat (w_n w) <? hi + 1)%Z then Z.of_nat (w_n w) else (hi + 1)%Z)). assert (IM : (imax <= Z.of_nat (w_n w))%Z) by (unfold imax; destruct (Z.ltb_spec (Z.of_nat (w_n w)) (hi + 1)); lia). assert (I0 : (0 <= imin)%Z) by (unfold imin; destruct (Z.ltb_spec lo 0); lia).
  destruct (Z_le_gt_dec imax imin) as [G|G].
  - replace (Z.to_nat (imax - imin)) with 0%nat by lia. reflexivity.
  - rewrite (rows_at (paint_irregular (w_n w) mag) (paint_row (w_n w) mag) (w_n w)); [reflexivity|lia|]. intros k K. apply FunctionalExtensionality.functional_extensionality. intros xl. apply FunctionalExtensionality.functional_extensionality. intros xr. unfold paint_row. destruct (Nat.ltb_spec k (w_n w)); [reflexivity|lia].
Qed.
Print Assumptions C107_same.
(* hence its pixels are the means of the lengths of its sections *)
Theorem C107_value mag w q : (1 <= mag)%nat -> 0 < w_dx w -> Nat.even (w_n w) = true -> (3 <= g_nv q)%nat ->
  let p := in_metres w (g_norm q) (corners q) in
  convex (w_n w) mag (w_dx w) p -> poly_meets (w_n w) (w_dx w) p -> (forall k, (k < g_nv q)%nat -> v_y p k < metres (w_n w) (w_dx w) (INR (w_n w) - 1 / 2)) ->
  exists m, prop_polygon mag w q = Ok m /\ frows m = w_n w /\ fcols m = w_n w /\ forall i j, (i < w_n w)%nat -> (j < w_n w)%nat -> not_cut (w_n w) (w_dx w) p j ->
    exists v, poly_mean (w_n w) mag (w_dx w) p i j v /\ fpx m i j = if g_dark q then 1 - v else v.
Proof.
  intros M D EV N p C ME TOP. rewrite C107_same; try assumption; [now apply C104_value|].
  destruct (PolyProofs4.lmax_in (v_y (ngon_poly w q)) (g_nv q) ltac:(lia)) as (k & K & E). rewrite E. pose proof (TOP k K) as T. intros Z.
  assert (Y : v_y (ngon_poly w q) k < INR (w_n w) - 1 / 2).
  { rewrite (ngon_corners w q D EV N). unfold polygon_pix. cbv zeta. pose proof (turns_right q N) as TR. cbv zeta in TR. destruct (Rlt_dec 0 _) as [L|_]; [lra|]. cbn [v_y]. unfold p, in_metres in T. cbn [v_y] in T. fold (v_y (corners q) k).
    unfold metres in T. unfold to_pix, get_sampling. unfold len in T. destruct (g_norm q).
    - apply Rmult_lt_reg_r with (w_dx w); [exact D|]. replace ((v_y (corners q) k * (get_beamradius w / w_dx w) + INR (w_n w / 2)) * w_dx w) with (v_y (corners q) k * get_beamradius w + INR (w_n w / 2) * w_dx w) by (field; lra). lra.
    - apply Rmult_lt_reg_r with (w_dx w); [exact D|]. replace ((v_y (corners q) k / w_dx w + INR (w_n w / 2)) * w_dx w) with (v_y (corners q) k + INR (w_n w / 2) * w_dx w) by (field; lra). lra. }
  assert (X : (ZnearestE (v_y (ngon_poly w q) k) < Z.of_nat (w_n w))%Z); [|lia]. apply RectProofs5.near_lt. rewrite <- INR_IZR_INZ. exact Y.
Qed.
Print Assumptions C107_value.
(* a case: a square of side 20 on 64 x 64 pixels *)
Lemma four (P : nat -> Prop) : P 0%nat -> P 1%nat -> P 2%nat -> P 3%nat -> forall k, (k < 4)%nat -> P k.
Proof. intros. destruct k as [|[|[|[|k]]]]; auto; lia. Qed.
Definition is_square (p : poly) : Prop := v_n p = 4%nat /\ (v_x p 0 = 10 /\ v_y p 0 = 10) /\ (v_x p 1 = 10 /\ v_y p 1 = -10) /\ (v_x p 2 = -10 /\ v_y p 2 = -10) /\ (v_x p 3 = -10 /\ v_y p 3 = 10).
Lemma square_convex mag p : (1 <= mag)%nat -> is_square p -> convex 64 mag 1 p.
Proof.
  intros M (N & (X0 & Y0) & (X1 & Y1) & (X2 & Y2) & (X3 & Y3)). split; [lia|]. left. assert (IM : 0 < INR mag) by (apply lt_0_INR; lia). assert (M1 : 1 <= INR mag) by (apply (le_INR 1) in M; simpl in M; lra).
  assert (G : 0 < / INR mag <= 1) by (split; [now apply Rinv_0_lt_compat|rewrite <- Rinv_1; apply Rinv_le_contravar; lra]).
  assert (FL : first_line 64 mag 1 <= -30). { unfold first_line, metres. change (64 / 2)%nat with 32%nat. rewrite (INR_IZR_INZ 32). change (IZR (Z.of_nat 32)) with 32. replace (1 / 2 / INR mag) with (/ 2 * / INR mag) by (field; lra). lra. }
  split.
  - intros k m K L. rewrite N in K, L. revert m L. revert k K. refine (four _ _ _ _ _); refine (four _ _ _ _ _); unfold side, forth; rewrite N; cbn; rewrite ?X0, ?X1, ?X2, ?X3, ?Y0, ?Y1, ?Y2, ?Y3; lra.
  - exists 2%nat, 10, 1%nat, 2%nat. split; [|split; [|split; [|split]]].
    + split; [lia|]. rewrite N. refine (four _ _ _ _ _); rewrite ?X0, ?X1, ?X2, ?X3, ?Y0, ?Y1, ?Y2, ?Y3; [left; lra|right; split; [reflexivity|left; lra]|right; split; [reflexivity|right; split; [reflexivity|lia]]|left; lra].
    + rewrite Y2. lra.
    + rewrite N. refine (four _ _ _ _ _); rewrite ?Y0, ?Y1, ?Y2, ?Y3; lra.
    + unfold climbs, forth. rewrite N. cbn. rewrite ?X0, ?X1, ?X2, ?X3, ?Y0, ?Y1, ?Y2, ?Y3. split; [lia|]. split; [lra|]. split; [intros; lia|]. split; [lra|intros; lia].
    + unfold climbs, back. rewrite N. cbn. rewrite ?X0, ?X1, ?X2, ?X3, ?Y0, ?Y1, ?Y2, ?Y3. split; [lia|]. split; [lra|]. split; [|split; [lra|intros _; lra]]. intros k K. assert (k = 1%nat) as -> by lia. unfold gap_of. replace (1 / INR mag) with (/ INR mag) by (field; lra). cbn. rewrite ?Y0, ?Y1, ?Y2, ?Y3. lra.
Qed.
Lemma square_meets p : is_square p -> poly_meets 64 1 p.
Proof.
  intros (N & (X0 & Y0) & (X1 & Y1) & (X2 & Y2) & (X3 & Y3)) u v Hv G. exists u. split; auto.
  assert (A : 1 * metres 64 1 u + 0 * metres 64 1 v <= 10) by (apply (hull_half p _ _ 1 0 10 G); rewrite N; refine (four _ _ _ _ _); rewrite ?X0, ?X1, ?X2, ?X3; lra).
  assert (B : -1 * metres 64 1 u + 0 * metres 64 1 v <= 10) by (apply (hull_half p _ _ (-1) 0 10 G); rewrite N; refine (four _ _ _ _ _); rewrite ?X0, ?X1, ?X2, ?X3; lra).
  unfold metres in A, B. change (64 / 2)%nat with 32%nat in *. rewrite !INR_IZR_INZ in *. change (IZR (Z.of_nat 32)) with 32 in *. change (IZR (Z.of_nat 64)) with 64. lra.
Qed.
Definition square : ngon := mkng 4 (10 * sqrt 2) None None 45 false false.
Lemma quarter_turns : cos (PI / 4) = / sqrt 2 /\ sin (PI / 4) = / sqrt 2 /\ cos (PI / 4 - PI / 2) = / sqrt 2 /\ sin (PI / 4 - PI / 2) = - / sqrt 2 /\ cos (PI / 4 - PI) = - / sqrt 2 /\ sin (PI / 4 - PI) = - / sqrt 2 /\ cos (PI / 4 - 3 * (PI / 2)) = - / sqrt 2 /\ sin (PI / 4 - 3 * (PI / 2)) = / sqrt 2.
Proof.
  pose proof cos_PI4 as C. pose proof sin_PI4 as S. assert (S2 : 0 < sqrt 2) by (apply sqrt_lt_R0; lra). unfold Rdiv in C, S. rewrite Rmult_1_l in C, S. fold (PI / 4) in C, S.
  replace (PI / 4 - 3 * (PI / 2)) with (PI / 4 - PI - PI / 2) by field. rewrite !cos_minus, !sin_minus, ?cos_PI, ?sin_PI, ?cos_PI2, ?sin_PI2, ?cos_minus, ?sin_minus, ?cos_PI, ?sin_PI. unfold Rdiv in *. rewrite C, S. repeat split; ring.
Qed.
Lemma square_corners w : is_square (in_metres w false (corners square)).
Proof.
  destruct quarter_turns as (C0 & S0 & C1 & S1 & C2 & S2 & C3 & S3). assert (Q : 0 < sqrt 2) by (apply sqrt_lt_R0; lra). unfold is_square, in_metres, len. cbn [v_n v_x v_y corners square g_nv g_xc g_yc g_rot g_rad].
  assert (A : forall k b, PI / 4 - b = 45 * PI / 180 - 2 * PI * k / 4 -> 45 * PI / 180 - 2 * PI * k / INR 4 = PI / 4 - b) by (intros k b E; rewrite E; simpl (INR 4); field).
  split; [reflexivity|]. rewrite (A (INR 0) 0), (A (INR 1) (PI / 2)), (A (INR 2) PI), (A (INR 3) (3 * (PI / 2))) by (simpl; field). rewrite Rminus_0_r, C0, S0, C1, S1, C2, S2, C3, S3. repeat split; field; lra.
Qed.
Theorem C107_example : exists w m, w_n w = 64%nat /\ w_dx w = 1 /\ let p := in_metres w false (corners square) in convex 64 101 1 p /\ poly_meets 64 1 p /\ (forall k, (k < 4)%nat -> v_y p k < metres 64 1 (INR 64 - 1 / 2)) /\
  prop_polygon 101 w square = Ok m /\ fpx m 41 41 = 1 /\ fpx m 43 32 = 0.
Proof.
  set (w := mkw (mkf 64 64 (fun _ _ => RtoC 1)) 1 1 true true 0 0 1 1 1 64). set (p := in_metres w false (corners square)). assert (SQ : is_square p) by apply square_corners.
  assert (N64 : INR 64 = 64) by (rewrite INR_IZR_INZ; reflexivity). assert (EM : forall t, metres 64 1 t = t - 32) by (intros t; unfold metres; change (64 / 2)%nat with 32%nat; rewrite (INR_IZR_INZ 32); change (IZR (Z.of_nat 32)) with 32; ring).
  assert (M : (1 <= 101)%nat) by lia. pose proof (square_convex 101 p M SQ) as CV. pose proof (square_meets p SQ) as ME.
  assert (TOP : forall k, (k < 4)%nat -> v_y p k < metres 64 1 (INR 64 - 1 / 2)). { rewrite EM, N64. destruct SQ as (_ & (X0 & Y0) & (X1 & Y1) & (X2 & Y2) & (X3 & Y3)). refine (four _ _ _ _ _); rewrite ?Y0, ?Y1, ?Y2, ?Y3; lra. }
  destruct (C107_value 101 w square M) as (m & E & _ & _ & V); [cbn; lra|reflexivity|cbn; lia|exact CV|exact ME|exact TOP|]. exists w, m. split; [reflexivity|]. split; [reflexivity|]. cbv zeta. fold p. split; [exact CV|]. split; [exact ME|]. split; [exact TOP|]. split; [exact E|].
  change (w_n w) with 64%nat in V. change (w_dx w) with 1 in V. change (in_metres w (g_norm square) (corners square)) with p in V. change (g_dark square) with false in V.
  assert (N41 : INR 41 = 41) by (rewrite INR_IZR_INZ; reflexivity). assert (N43 : INR 43 = 43) by (rewrite INR_IZR_INZ; reflexivity). destruct SQ as (N & (X0 & Y0) & (X1 & Y1) & (X2 & Y2) & (X3 & Y3)). split.
  - destruct (V 41%nat 41%nat ltac:(lia) ltac:(lia) ltac:(left; lia)) as (v & PM & ->). apply (C104_range 64 101 1 p 41 41 v M PM). intros x y Hx Hy. rewrite N41 in Hx, Hy. rewrite !EM.
    apply (hull_segment p (-10) 10); [| |lra].
    + pose proof (hull_mix p _ _ _ _ ((y - 32 + 10) / 20) ltac:(lra) (hull_vertex p 2 ltac:(lia)) (hull_vertex p 3 ltac:(lia))) as Q. rewrite X2, X3, Y2, Y3 in Q.
      match type of Q with in_hull _ ?a ?b => replace a with (-10) in Q by lra; replace b with (y - 32) in Q by lra end. exact Q.
    + pose proof (hull_mix p _ _ _ _ ((y - 32 + 10) / 20) ltac:(lra) (hull_vertex p 1 ltac:(lia)) (hull_vertex p 0 ltac:(lia))) as Q. rewrite X0, X1, Y0, Y1 in Q.
      match type of Q with in_hull _ ?a ?b => replace a with 10 in Q by lra; replace b with (y - 32) in Q by lra end. exact Q.
  - destruct (V 43%nat 32%nat ltac:(lia) ltac:(lia) ltac:(left; lia)) as (v & PM & ->). apply (C104_range 64 101 1 p 43 32 v M PM). intros x y Hx Hy G. rewrite N43 in Hy.
    assert (B : 0 * metres 64 1 x + 1 * metres 64 1 y <= 10) by (apply (hull_half p _ _ 0 1 10 G); rewrite N; refine (four _ _ _ _ _); rewrite ?Y0, ?Y1, ?Y2, ?Y3; lra). rewrite !EM in B. lra.
Qed.
Print Assumptions C107_example.
(* on odd grids it is displaced by half a pixel up and to the right: the polygon prop_irregular_polygon makes of the corners displaced by that much *)
Definition half_off (w : wavefront) (q : ngon) : ngon :=
  let off c := match c with None => Some (w_dx w / 2) | Some v => Some (v + w_dx w / 2) end in mkng (g_nv q) (g_rad q) (off (g_xc q)) (off (g_yc q)) (g_rot q) (g_norm q) (g_dark q).
Lemma odd_half n : Nat.odd n = true -> INR n / 2 = INR (n / 2) + 1 / 2.
Proof. intros OD. apply Nat.odd_spec in OD. destruct OD as [h ->]. replace (2 * h + 1)%nat with (1 + h * 2)%nat by lia. rewrite Nat.div_add by lia. change (1 / 2)%nat with 0%nat. rewrite plus_INR, mult_INR. simpl (INR 2). simpl (INR 1). simpl (0 + h)%nat. field. Qed.
Lemma ngon_corners_odd w q : 0 < w_dx w -> Nat.odd (w_n w) = true -> (3 <= g_nv q)%nat -> g_norm q = false -> ngon_poly w q = polygon_pix w false (corners (half_off w q)).
Proof.
  intros D EV N NF. pose proof (turns_right (half_off w q) N) as TR. cbv zeta in TR. unfold polygon_pix. cbv zeta. destruct (Rlt_dec 0 _) as [L|_]; [lra|]. unfold ngon_poly. rewrite NF. change (v_n (corners (half_off w q))) with (g_nv q). cbv zeta. f_equal; apply FunctionalExtensionality.functional_extensionality; intros k.
  all: destruct (sum_angle q k ltac:(lia)) as [CA SA]; cbv zeta in CA, SA; rewrite ?CA, ?SA; unfold corners, half_off, mid_pix; cbn [v_x v_y g_xc g_yc g_nv g_rad g_rot].
  - destruct (g_xc q); rewrite ?to_pix_add, ?(to_pix_scale _ _ (g_rad q)) by exact D; rewrite (odd_half _ EV); unfold to_pix, get_sampling; field; lra.
  - destruct (g_yc q); rewrite ?to_pix_add, ?(to_pix_scale _ _ (g_rad q)) by exact D; rewrite (odd_half _ EV); unfold to_pix, get_sampling; field; lra.
Qed.
Lemma same_as_irregular mag w q P : 0 < w_dx w -> (3 <= g_nv q)%nat -> v_n P = g_nv q -> ngon_poly w q = polygon_pix w (g_norm q) P -> ZnearestE (lmax (v_y (ngon_poly w q)) (g_nv q)) <> Z.of_nat (w_n w) ->
  prop_polygon mag w q = prop_irregular_polygon mag w P (g_norm q) (g_dark q).
Proof.
  intros D N VP EQ HI. unfold prop_polygon, prop_irregular_polygon, fill. rewrite <- EQ, VP. change (v_n (ngon_poly w q)) with (g_nv q). unfold get_sampling. destruct (Req_EM_T (w_dx w) 0); [lra|].
  destruct (Nat.eqb_spec (g_nv q) 0); [lia|]. destruct (Nat.ltb_spec (g_nv q) 3); [lia|]. cbv zeta. set (hi := ZnearestE (lmax (v_y (ngon_poly w q)) (g_nv q))) in *.
  set (lo := ZnearestE (lmin (v_y (ngon_poly w q)) (g_nv q))). set (imin := if (lo <? 0)%Z then 0%Z else lo).
  assert (TOP : top_row (w_n w) hi = if (Z.of_nat (w_n w) <? hi + 1)%Z then Z.of_nat (w_n w) else (hi + 1)%Z) by (unfold top_row; destruct (Z.ltb_spec (Z.of_nat (w_n w)) hi), (Z.ltb_spec (Z.of_nat (w_n w)) (hi + 1)); lia).
  rewrite TOP. set (imax := (if (Z.of_nat (w_n w) <? hi + 1)%Z then Z.of_nat (w_n w) else (hi + 1)%Z)). assert (IM : (imax <= Z.of_nat (w_n w))%Z) by (unfold imax; destruct (Z.ltb_spec (Z.of_nat (w_n w)) (hi + 1)); lia). assert (I0 : (0 <= imin)%Z) by (unfold imin; destruct (Z.ltb_spec lo 0); lia).
  destruct (Z_le_gt_dec imax imin) as [G|G].
  - replace (Z.to_nat (imax - imin)) with 0%nat by lia. reflexivity.
  - rewrite (rows_at (paint_irregular (w_n w) mag) (paint_row (w_n w) mag) (w_n w)); [reflexivity|lia|]. intros k K. apply FunctionalExtensionality.functional_extensionality. intros xl. apply FunctionalExtensionality.functional_extensionality. intros xr. unfold paint_row. destruct (Nat.ltb_spec k (w_n w)); [reflexivity|lia].
Qed.
Theorem C107_odd mag w q : 0 < w_dx w -> Nat.odd (w_n w) = true -> (3 <= g_nv q)%nat -> g_norm q = false -> ZnearestE (lmax (v_y (ngon_poly w q)) (g_nv q)) <> Z.of_nat (w_n w) ->
  prop_polygon mag w q = prop_irregular_polygon mag w (corners (half_off w q)) false (g_dark q).
Proof. intros D O N NF HI. rewrite <- NF at 1. apply same_as_irregular; try assumption; [reflexivity|]. rewrite NF. now apply ngon_corners_odd. Qed.
Print Assumptions C107_odd.
(* errors: no sampling, no vertices *)
Theorem C107_errors mag w q : (w_dx w = 0 -> prop_polygon mag w q = Raise ZeroDivisionError) /\ (w_dx w <> 0 -> g_nv q = 0%nat -> prop_polygon mag w q = Raise ValueError).
Proof.
  unfold prop_polygon, get_sampling. split.
  - intros Z. destruct (Req_EM_T (w_dx w) 0); [reflexivity|contradiction].
  - intros D ->. destruct (Req_EM_T (w_dx w) 0); [contradiction|]. reflexivity.
Qed.
Print Assumptions C107_errors.
