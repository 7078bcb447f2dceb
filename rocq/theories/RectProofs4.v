(* Proofs for C102: pixels as section lengths, irregular polygons *)
From Coquelicot Require Import Coquelicot.
From Verif Require Import Base StrBase RBase CBase PropModel PrpModel DmSurfProofs2 EllProofs ApModel ApSpec ApProofs ApProofs2 RectModel RectSpec RectProofs RectProofs2 RectProofs3.
Open Scope R_scope.
Lemma has_length_unique P a b : has_length P a -> has_length P b -> a = b.
Proof.
  intros [[A1 ->]|[a1 [a2 [A1 [-> A2]]]]] [[B1 ->]|[b1 [b2 [B1 [-> B2]]]]]; auto.
  - exfalso. apply (A1 b1), B2. lra.
  - exfalso. apply (B1 a1), A2. lra.
  - pose proof (proj1 (B2 a1) (proj2 (A2 a1) ltac:(lra))). pose proof (proj1 (B2 a2) (proj2 (A2 a2) ltac:(lra))).
    pose proof (proj1 (A2 b1) (proj2 (B2 b1) ltac:(lra))). pose proof (proj1 (A2 b2) (proj2 (B2 b2) ltac:(lra))). lra.
Qed.
Lemma has_length_ext P Q a : (forall u, P u <-> Q u) -> has_length P a -> has_length Q a.
Proof.
  intros H [[A ->]|[x [y [A [-> B]]]]]; [left|right].
  - split; auto. intros u G. apply (A u), H, G.
  - exists x, y. split; auto. split; auto. intros u. rewrite <- H. apply B.
Qed.
Lemma abs_scale d u l : 0 < d -> (Rabs (d * u) <= l <-> Rabs u <= l / d).
Proof. intros H. rewrite Rabs_mult, (Rabs_right d) by lra. destruct (div_between l (Rabs u) d H) as [_ ->]. rewrite Rmult_comm. tauto. Qed.
Lemma rect_metres n dx xs ys xc yc rot u v : 0 < dx -> let t := rot * PI / 180 in
  in_rectangle xs ys xc yc rot (metres n dx u) (metres n dx v) <-> in_rp (1 / 2 * (xs / dx)) (1 / 2 * (ys / dx)) (cos t) (sin t) (xc / dx + INR (n / 2)) (yc / dx + INR (n / 2)) u v.
Proof.
  intros H t. unfold in_rectangle, in_rp, metres. fold t. cbv zeta.
  replace (cos t * ((u - INR (n / 2)) * dx - xc) + sin t * ((v - INR (n / 2)) * dx - yc)) with (dx * (cos t * (u - (xc / dx + INR (n / 2))) + sin t * (v - (yc / dx + INR (n / 2))))) by (field; lra).
  replace (cos t * ((v - INR (n / 2)) * dx - yc) - sin t * ((u - INR (n / 2)) * dx - xc)) with (dx * (cos t * (v - (yc / dx + INR (n / 2))) - sin t * (u - (xc / dx + INR (n / 2))))) by (field; lra).
  rewrite !abs_scale by auto. replace (xs / 2 / dx) with (1 / 2 * (xs / dx)) by (field; lra). replace (ys / 2 / dx) with (1 / 2 * (ys / dx)) by (field; lra). tauto.
Qed.
Definition g_rect (xl xr : R) (j : nat) : R := overlap xl xr (Z.of_nat j).
Lemma sec_length bx by_ e1x e1y e2x e2y y j (P : R -> R -> Prop) : 0 < e1y -> 0 <= e2y -> 0 < e2x * e1y - e2y * e1x ->
  (forall x y, P x y <-> by_ <= y <= by_ + e1y + e2y /\ xleft_of bx by_ e1x e1y e2x e2y y <= x <= xright_of bx by_ e1x e1y e2x e2y y) ->
  has_length (fun u => INR j - 1 / 2 <= u <= INR j + 1 / 2 /\ P u y) (sec bx by_ e1x e1y e2x e2y g_rect y j).
Proof.
  intros H1 H2 Ho HP. unfold sec, g_rect.
  destruct (Rle_dec by_ y) as [A|A]; [destruct (Rle_dec y (by_ + e1y + e2y)) as [B|B]|]; [|left; split; auto; intros x [_ G]; apply HP in G; lra|left; split; auto; intros x [_ G]; apply HP in G; lra].
  rewrite INR_IZR_INZ. eapply has_length_ext; [|apply overlap_length; apply left_le_right; auto].
  intros u. rewrite HP. tauto.
Qed.
Lemma rect_poly_is w q : rect_poly w q = rpoly (1 / 2 * to_pix w (r_norm q) (r_xsize q)) (1 / 2 * to_pix w (r_norm q) (r_ysize q)) (cos (r_rot q * PI / 180)) (sin (r_rot q * PI / 180))
  (ocpix w (r_norm q) (r_xc q)) (ocpix w (r_norm q) (r_yc q)).
Proof. reflexivity. Qed.
Lemma ocpix_place w norm x : w_dx w <> 0 -> ocpix w norm x = place w norm x / w_dx w + INR (w_n w / 2).
Proof. intros H. unfold ocpix, place. destruct x as [v|]; [rewrite to_pix_len by auto; auto|unfold Rdiv; ring]. Qed.
Lemma cs1 t : cos t * cos t + sin t * sin t = 1.
Proof. pose proof (sin2_cos2 t). unfold Rsqr in *. lra. Qed.
Lemma rectangle_ok mag w q : (1 <= mag)%nat -> 0 < w_dx w -> 0 < len w (r_norm q) (r_xsize q) -> 0 < len w (r_norm q) (r_ysize q) ->
  exists m, prop_rectangle mag w q = Ok m /\ frows m = w_n w /\ fcols m = w_n w /\ forall i j, (i < w_n w)%nat -> (j < w_n w)%nat ->
    exists v, line_mean (w_n w) mag (w_dx w) (len w (r_norm q) (r_xsize q)) (len w (r_norm q) (r_ysize q)) (place w (r_norm q) (r_xc q)) (place w (r_norm q) (r_yc q)) (r_rot q) i j v /\
      fpx m i j = if r_dark q then 1 - v else v.
Proof.
  intros Hm Hd Hx Hy. unfold prop_rectangle, get_sampling. destruct (Req_EM_T (w_dx w) 0) as [|Hd0]; [lra|]. cbv zeta.
  rewrite rect_poly_is, !to_pix_len, !ocpix_place by auto.
  set (lx := len w (r_norm q) (r_xsize q)) in *. set (ly := len w (r_norm q) (r_ysize q)) in *. set (t := r_rot q * PI / 180).
  set (px := place w (r_norm q) (r_xc q)). set (py := place w (r_norm q) (r_yc q)).
  assert (Kx : 0 < 1 / 2 * (lx / w_dx w)) by (apply Rmult_lt_0_compat; [lra|apply Rdiv_lt_0_compat; auto]).
  assert (Ky : 0 < 1 / 2 * (ly / w_dx w)) by (apply Rmult_lt_0_compat; [lra|apply Rdiv_lt_0_compat; auto]).
  destruct (rect_para _ _ _ _ (px / w_dx w + INR (w_n w / 2)) (py / w_dx w + INR (w_n w / 2)) Kx Ky (cs1 t)) as [l [r [tt [bx [by_ [e1x [e1y [e2x [e2y [HP [HM HI]]]]]]]]]]].
  destruct (fill_para _ _ _ _ _ _ _ _ _ _ _ (w_n w) mag (paint_rect (w_n w) mag) g_rect (r_dark q) (fun hi => if (Z.of_nat (w_n w) <=? hi + 1)%Z then Z.of_nat (w_n w) else (hi + 1)%Z) HP eq_refl HM Hm) as [m [E1 [E2 [E3 E4]]]].
  { intros y _ _ xl xr Hlr. apply (paint_rect_ok (w_n w) mag xl xr Hlr). }
  { auto. }
  exists m. split; [exact E1|]. split; auto. split; auto. intros i j Hi Hj.
  eexists. split; [|apply E4; auto].
  exists (fun k => sec bx by_ e1x e1y e2x e2y g_rect (line_y mag i k) j). split; auto.
  intros k Hk. unfold section. eapply has_length_ext; [|apply (sec_length bx by_ e1x e1y e2x e2y (line_y mag i k) j _ (q_e1 _ _ _ _ _ _ _ _ _ _ _ HP) (q_e2 _ _ _ _ _ _ _ _ _ _ _ HP) (q_or _ _ _ _ _ _ _ _ _ _ _ HP) HI)].
  intros u. cbv beta. rewrite (rect_metres (w_n w) (w_dx w) lx ly px py (r_rot q) u (INR i - 1 / 2 + (INR k + 1 / 2) / INR mag) Hd). fold t.
  replace (INR i - 1 / 2 + (INR k + 1 / 2) / INR mag) with (line_y mag i k) by (unfold line_y; rewrite (Rplus_comm (1 / 2) (INR k)); ring). tauto.
Qed.
(* ---- irregular polygons ---- *)
(* what the lines of prop_irregular_polygon leave in column j *)
Definition g_irr (n : nat) (xl xr : R) (j : nat) : R :=
  if ((Z.of_nat n <=? ZnearestE xr) && (S j =? n)%nat && negb (ZnearestE xl =? Z.of_nat j))%Z%bool then 0 else overlap xl xr (Z.of_nat j).
Lemma overlap_left xl xr j : (j < ZnearestE xl)%Z -> overlap xl xr j = 0.
Proof.
  intros H. destruct (near_up xl) as [A B]. unfold overlap. assert (IZR j + 1 <= IZR (ZnearestE xl)) by (rewrite <- plus_IZR; apply IZR_le; lia).
  pose proof (Rmin_r xr (IZR j + 1 / 2)). pose proof (Rmax_l xl (IZR j - 1 / 2)). apply Rmax_left. lra.
Qed.
Lemma paint_irr_ok n mag xl xr : xl <= xr -> (ZnearestE xl < Z.of_nat n)%Z -> (0 <= ZnearestE xr)%Z -> exists f, paint_irregular n mag xl xr = Ok f /\
  forall j, (j < n)%nat -> f j = INR mag * g_irr n xl xr j.
Proof.
  intros H HL HR. destruct (paint_rect_ok n mag xl xr H) as [f [F1 F2]]. assert (Lr := near_mono xl xr H).
  unfold paint_irregular. unfold paint_rect in F1. injection F1 as F1. unfold g_irr.
  set (l := ZnearestE xl) in *. set (r := ZnearestE xr) in *.
  revert F1. destruct (Z.eqb_spec l r) as [E|E]; cbn [negb]; intros F1.
  - eexists. split; [reflexivity|]. intros j Hj. pose proof (F2 j Hj) as G. rewrite <- F1 in G. cbv beta zeta in G. cbn [negb] in G. cbv beta; rewrite G.
    destruct (Z.leb_spec (Z.of_nat n) r); [lia|]. cbn [andb]. reflexivity.
  - assert (EX : forall (T : Type) (a : res T) v, a = Ok v -> a = Ok v) by auto. clear EX.
    set (ra := if (0 <=? l)%Z then _ else _). set (rb := if (r <? Z.of_nat n)%Z then _ else _).
    assert (RA : exists a, ra = Ok a /\ forall j, (j < n)%nat -> a j = b2r ((0 <=? l) && (l <? Z.of_nat n) && (Z.of_nat j =? l))%Z%bool (INR mag * (IZR l + 1 / 2 - xl))).
    { unfold ra. destruct (Z.leb_spec 0 l).
      - unfold np_ix. replace ((l <? - Z.of_nat n) || (Z.of_nat n <=? l))%Z%bool with false by (symmetry; apply Bool.orb_false_iff; rewrite Z.ltb_ge, Z.leb_gt; lia). cbn [rbind].
        destruct (Z.ltb_spec l 0); [lia|]. eexists. split; [reflexivity|]. intros j Hj. destruct (Z.ltb_spec l (Z.of_nat n)); [|lia]. cbn [andb]. f_equal.
        destruct (Nat.eqb_spec j (Z.to_nat l)), (Z.eqb_spec (Z.of_nat j) l); auto; lia.
      - eexists. split; [reflexivity|]. intros; reflexivity. }
    assert (RB : exists a, rb = Ok a /\ forall j, (j < n)%nat -> a j = b2r ((0 <=? r) && (r <? Z.of_nat n) && (Z.of_nat j =? r))%Z%bool (INR mag * (xr - (IZR r - 1 / 2)))).
    { unfold rb. destruct (Z.ltb_spec r (Z.of_nat n)).
      - unfold np_ix. replace ((r <? - Z.of_nat n) || (Z.of_nat n <=? r))%Z%bool with false by (symmetry; apply Bool.orb_false_iff; rewrite Z.ltb_ge, Z.leb_gt; lia). cbn [rbind].
        destruct (Z.ltb_spec r 0); [lia|]. eexists. split; [reflexivity|]. intros j Hj. destruct (Z.leb_spec 0 r); [|lia]. cbn [andb]. f_equal.
        destruct (Nat.eqb_spec j (Z.to_nat r)), (Z.eqb_spec (Z.of_nat j) r); auto; lia.
      - eexists. split; [reflexivity|]. intros j Hj. rewrite Bool.andb_false_r. reflexivity. }
    destruct RA as [a [-> Ha]], RB as [b [-> Hb]]. cbn [rbind]. eexists. split; [reflexivity|]. intros j Hj. cbv beta.
    rewrite Ha, Hb by auto. pose proof (F2 j Hj) as G. rewrite <- F1 in G. cbv beta zeta in G. cbn [negb] in G.
    destruct (Z.leb_spec (Z.of_nat n) r) as [Q|Q]; cbn [andb].
    + assert (ES : np_stop n (Z.of_nat n - 1) = (Z.of_nat n - 1)%Z) by (unfold np_stop; destruct (Z.ltb_spec (Z.of_nat n - 1) 0); lia). rewrite ES.
      destruct (Nat.eqb_spec (S j) n) as [J|J]; cbn [andb]; [destruct (Z.eqb_spec l (Z.of_nat j)) as [K|K]; cbn [negb]|].
      * rewrite <- G. f_equal. replace (Z.of_nat j <? Z.of_nat n - 1)%Z with false by (symmetry; apply Z.ltb_ge; lia). rewrite Bool.andb_false_r.
        replace (l + 1 <? Z.of_nat n)%Z with false by (symmetry; apply Z.ltb_ge; lia). rewrite Bool.andb_false_r. cbn [andb b2r]. unfold b2r. destruct (1 <? r - l)%Z; reflexivity.
      * replace (Z.of_nat j =? l)%Z with false by (symmetry; apply Z.eqb_neq; lia). replace (Z.of_nat j =? r)%Z with false by (symmetry; apply Z.eqb_neq; lia).
        replace (Z.of_nat j <? Z.of_nat n - 1)%Z with false by (symmetry; apply Z.ltb_ge; lia). rewrite !Bool.andb_false_r. unfold b2r. destruct (1 <? r - l)%Z; ring.
      * rewrite <- G. f_equal. replace (Z.of_nat j <? Z.of_nat n - 1)%Z with true by (symmetry; apply Z.ltb_lt; lia).
        replace (Z.of_nat j <? (if Z.of_nat n <? r then Z.of_nat n else r))%Z with true by (destruct (Z.ltb_spec (Z.of_nat n) r); symmetry; apply Z.ltb_lt; lia).
        destruct (Z.leb_spec (if l + 1 <? 0 then 0 else l + 1)%Z (Z.of_nat j)) as [U|U]; cbn [andb].
        -- replace (l + 1 <? Z.of_nat n)%Z with true by (symmetry; apply Z.ltb_lt; destruct (Z.ltb_spec (l + 1) 0); lia). replace (0 <? r)%Z with true by (symmetry; apply Z.ltb_lt; lia). rewrite !Bool.andb_true_r. reflexivity.
        -- unfold b2r. destruct (1 <? r - l)%Z; destruct ((_ && _ && _)%bool); destruct (_ && _)%bool; reflexivity.
    + rewrite <- G. f_equal. assert (ES : np_stop n r = r) by (unfold np_stop; destruct (Z.ltb_spec r 0); lia). rewrite ES.
      destruct (Z.ltb_spec (Z.of_nat n) r); [lia|].
      destruct ((if l + 1 <? 0 then 0 else l + 1) <=? Z.of_nat j)%Z eqn:U1; [destruct (Z.ltb_spec (Z.of_nat j) r) as [U2|U2]|]; cbn [andb].
      * apply Z.leb_le in U1. replace (l + 1 <? Z.of_nat n)%Z with true by (symmetry; apply Z.ltb_lt; destruct (Z.ltb_spec (l + 1) 0); lia). replace (0 <? r)%Z with true by (symmetry; apply Z.ltb_lt; lia). rewrite !Bool.andb_true_r. reflexivity.
      * unfold b2r. destruct (1 <? r - l)%Z; destruct (l + 1 <? Z.of_nat n)%Z; destruct (0 <? r)%Z; reflexivity.
      * unfold b2r. destruct (1 <? r - l)%Z; destruct (l + 1 <? Z.of_nat n)%Z; destruct (0 <? r)%Z; reflexivity.
Qed.
Lemma corners_pix w norm cw xs ys xc yc rot : 0 < w_dx w -> 0 < len w norm xs -> 0 < len w norm ys -> let t := rot * PI / 180 in
  polygon_pix w norm (corners cw xs ys xc yc rot) = rpoly (1 / 2 * to_pix w norm xs) (1 / 2 * to_pix w norm ys) (cos t) (sin t)
    (to_pix w norm xc + INR (w_n w / 2)) (to_pix w norm yc + INR (w_n w / 2)).
Proof.
  intros Hd Hx Hy t. assert (Hxy : norm = true \/ norm = false) by (destruct norm; auto).
  assert (XY : 0 < xs * ys).
  { unfold len in Hx, Hy. destruct norm; [|apply Rmult_lt_0_compat; auto]. assert (P : 0 < (xs * get_beamradius w) * (ys * get_beamradius w)) by (apply Rmult_lt_0_compat; auto).
    replace (xs * get_beamradius w * (ys * get_beamradius w)) with (xs * ys * (get_beamradius w * get_beamradius w)) in P by ring.
    apply Rnot_le_lt. intros G. pose proof (Rle_0_sqr (get_beamradius w)) as Q. unfold Rsqr in Q.
    assert (xs * ys * (get_beamradius w * get_beamradius w) <= 0 * (get_beamradius w * get_beamradius w)) by (apply Rmult_le_compat_r; auto). lra. }
  pose proof (cs1 t) as CS. assert (LIN : forall a b c A B, to_pix w norm (a + b / 2 * A - c / 2 * B) = to_pix w norm a + 1 / 2 * to_pix w norm b * A - 1 / 2 * to_pix w norm c * B) by (intros; unfold to_pix; destruct norm; unfold Rdiv; ring).
  assert (DET : forall x0 y0 x1 y1 x2 y2 : R, x1 - x0 = - (ys * sin t) -> y1 - y0 = ys * cos t -> x2 - x1 = xs * cos t -> y2 - y1 = xs * sin t -> (x1 - x0) * (y2 - y1) - (y1 - y0) * (x2 - x1) < 0).
  { intros x0 y0 x1 y1 x2 y2 -> -> -> ->. replace (- (ys * sin t) * (xs * sin t) - ys * cos t * (xs * cos t)) with (- (xs * ys) * (cos t * cos t + sin t * sin t)) by ring. rewrite CS. lra. }
  assert (DET2 : forall x0 y0 x1 y1 x2 y2 : R, x1 - x0 = - (ys * sin t) -> y1 - y0 = ys * cos t -> x2 - x1 = - (xs * cos t) -> y2 - y1 = - (xs * sin t) -> 0 < (x1 - x0) * (y2 - y1) - (y1 - y0) * (x2 - x1)).
  { intros x0 y0 x1 y1 x2 y2 -> -> -> ->. replace (- (ys * sin t) * - (xs * sin t) - ys * cos t * - (xs * cos t)) with (xs * ys * (cos t * cos t + sin t * sin t)) by ring. rewrite CS. lra. }
  unfold polygon_pix, corners, rpoly. cbv zeta. fold t. cbn [v_x v_y v_n]. 
  destruct cw.
  - cbn [corner fst snd].
    destruct (Rlt_dec 0 _) as [G|G]; [exfalso; revert G; apply Rle_not_lt, Rlt_le, DET; field|].
    f_equal; apply FunctionalExtensionality.functional_extensionality; intros k; destruct k as [|[|[|k]]]; cbn [corner fst snd rcx rcy]; unfold to_pix; destruct norm; field; unfold get_sampling; lra.
  - cbn [corner fst snd Nat.sub].
    destruct (Rlt_dec 0 _) as [G|G]; [|exfalso; apply G, DET2; field].
    f_equal; apply FunctionalExtensionality.functional_extensionality; intros k; destruct k as [|[|[|k]]]; cbn [corner fst snd rcx rcy Nat.sub]; unfold to_pix; destruct norm; field; unfold get_sampling; lra.
Qed.
