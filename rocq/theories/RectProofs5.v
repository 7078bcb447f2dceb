(* Proofs for C102: polygons with the corners of a rectangle *)
From Coquelicot Require Import Coquelicot.
From Verif Require Import Base StrBase RBase CBase PropModel PrpModel DmSurfProofs2 EllProofs ApModel ApSpec ApProofs ApProofs2 RectModel RectSpec RectProofs RectProofs2 RectProofs3 RectProofs4.
Open Scope R_scope.
Lemma top_same n hi : (if (Z.of_nat n <? hi + 1)%Z then Z.of_nat n else (hi + 1)%Z) = (if (Z.of_nat n <=? hi + 1)%Z then Z.of_nat n else (hi + 1)%Z).
Proof. destruct (Z.ltb_spec (Z.of_nat n) (hi + 1)), (Z.leb_spec (Z.of_nat n) (hi + 1)); lia. Qed.
Lemma near_lt a k : a < IZR k - 1 / 2 -> (ZnearestE a < k)%Z.
Proof. intros H. destruct (near_up a). apply lt_IZR. lra. Qed.
Lemma near_ge a k : IZR k - 1 / 2 < a -> (k <= ZnearestE a)%Z.
Proof. intros H. destruct (near_up a). apply Z.lt_succ_r, lt_IZR. rewrite succ_IZR. lra. Qed.
Lemma line_in_array n mag i k : (i < n)%nat -> (k < mag)%nat -> - (1 / 2) < line_y mag i k < INR n - 1 / 2.
Proof. intros Hi Hk. pose proof (line_y_in mag i k Hk). pose proof (pos_INR i). assert (INR i + 1 <= INR n) by (rewrite <- S_INR; apply le_INR; lia). lra. Qed.
(* a polygon with the rectangle's corners: columns, and what is left in the last one *)
Lemma polygon_core mag w cw xs ys xc yc rot norm dark : (1 <= mag)%nat -> 0 < w_dx w -> 0 < len w norm xs -> 0 < len w norm ys ->
  lines_meet (w_n w) (w_dx w) (len w norm xs) (len w norm ys) (len w norm xc) (len w norm yc) rot ->
  exists m, prop_irregular_polygon mag w (corners cw xs ys xc yc rot) norm dark = Ok m /\ frows m = w_n w /\ fcols m = w_n w /\ forall i j, (i < w_n w)%nat -> (j < w_n w)%nat ->
    exists v, fpx m i j = (if dark then 1 - v else v) /\
      (((S j < w_n w)%nat \/
          (forall u v, in_rectangle (len w norm xs) (len w norm ys) (len w norm xc) (len w norm yc) rot (metres (w_n w) (w_dx w) u) (metres (w_n w) (w_dx w) v) -> u < INR (w_n w) - 1 / 2)) ->
        line_mean (w_n w) mag (w_dx w) (len w norm xs) (len w norm ys) (len w norm xc) (len w norm yc) rot i j v) /\
      (S j = w_n w -> (forall k, (k < mag)%nat -> exists u1 u2, u1 < INR j - 1 / 2 /\ INR (w_n w) - 1 / 2 < u2 /\
          in_rectangle (len w norm xs) (len w norm ys) (len w norm xc) (len w norm yc) rot (metres (w_n w) (w_dx w) u1) (metres (w_n w) (w_dx w) (line_y mag i k)) /\
          in_rectangle (len w norm xs) (len w norm ys) (len w norm xc) (len w norm yc) rot (metres (w_n w) (w_dx w) u2) (metres (w_n w) (w_dx w) (line_y mag i k))) -> v = 0).
Proof.
  intros Hm Hd Hx Hy HL. unfold prop_irregular_polygon, get_sampling. destruct (Req_EM_T (w_dx w) 0) as [|Hd0]; [lra|]. change (v_n (corners cw xs ys xc yc rot)) with 4%nat. cbn [Nat.ltb Nat.leb]. cbv zeta.
  rewrite corners_pix, !to_pix_len by auto.
  set (lx := len w norm xs) in *. set (ly := len w norm ys) in *. set (t := rot * PI / 180).
  set (px := len w norm xc) in *. set (py := len w norm yc) in *. set (n := w_n w) in *. set (dx := w_dx w) in *.
  assert (Kx : 0 < 1 / 2 * (lx / dx)) by (apply Rmult_lt_0_compat; [lra|apply Rdiv_lt_0_compat; auto]).
  assert (Ky : 0 < 1 / 2 * (ly / dx)) by (apply Rmult_lt_0_compat; [lra|apply Rdiv_lt_0_compat; auto]).
  destruct (rect_para _ _ _ _ (px / dx + INR (n / 2)) (py / dx + INR (n / 2)) Kx Ky (cs1 t)) as [l [r [tt [bx [by_ [e1x [e1y [e2x [e2y [HP [HM HI]]]]]]]]]]].
  set (xl := xleft_of bx by_ e1x e1y e2x e2y) in *. set (xr := xright_of bx by_ e1x e1y e2x e2y) in *.
  assert (HR : forall u v, in_rectangle lx ly px py rot (metres n dx u) (metres n dx v) <-> by_ <= v <= by_ + e1y + e2y /\ xl v <= u <= xr v) by (intros u v; rewrite (rect_metres n dx lx ly px py rot u v Hd); apply HI).
  destruct (fill_para _ _ _ _ _ _ _ _ _ _ _ n mag (paint_irregular n mag) (g_irr n) dark (fun hi => if (Z.of_nat n <? hi + 1)%Z then Z.of_nat n else (hi + 1)%Z) HP eq_refl HM Hm) as [m [E1 [E2 [E3 E4]]]].
  { intros y Hyr [i [k [Hi [Hk Ey]]]]. cbv zeta. fold xl xr. intros Hlr.
    pose proof (line_in_array n mag i k Hi Hk) as La. rewrite <- Ey in La.
    destruct (HL (xl y) y La) as [u [Hu Hin]]; [apply HR; split; auto; lra|]. apply HR in Hin. destruct Hin as [_ Hin].
    apply paint_irr_ok; auto; [apply near_lt|apply near_ge]; rewrite <- ?INR_IZR_INZ; lra. }
  { intros hi. apply top_same. }
  exists m. split; [exact E1|]. split; auto. split; auto. intros i j Hi Hj. eexists. split; [apply E4; auto|]. split.
  - intros HJ. exists (fun k => sec bx by_ e1x e1y e2x e2y (g_irr n) (line_y mag i k) j). split; auto.
    intros k Hk. unfold section.
    assert (EG : sec bx by_ e1x e1y e2x e2y (g_irr n) (line_y mag i k) j = sec bx by_ e1x e1y e2x e2y g_rect (line_y mag i k) j).
    { unfold sec. fold xl xr. destruct (Rle_dec by_ (line_y mag i k)) as [A|A]; auto. destruct (Rle_dec (line_y mag i k) (by_ + e1y + e2y)) as [B|B]; auto.
      assert (LR : xl (line_y mag i k) <= xr (line_y mag i k)) by (apply left_le_right; [apply HP|apply HP|apply HP|lra]).
      unfold g_irr, g_rect. destruct HJ as [HJ|HJ].
      - destruct (Nat.eqb_spec (S j) n); [lia|]. rewrite Bool.andb_false_r. cbn [andb]. reflexivity.
      - assert (Q : xr (line_y mag i k) < INR n - 1 / 2) by (apply (HJ _ (line_y mag i k)), HR; lra). rewrite INR_IZR_INZ in Q. apply near_lt in Q. destruct (Z.leb_spec (Z.of_nat n) (ZnearestE (xr (line_y mag i k)))); [lia|]. reflexivity. }
    rewrite EG. eapply has_length_ext; [|apply (sec_length bx by_ e1x e1y e2x e2y (line_y mag i k) j _ (q_e1 _ _ _ _ _ _ _ _ _ _ _ HP) (q_e2 _ _ _ _ _ _ _ _ _ _ _ HP) (q_or _ _ _ _ _ _ _ _ _ _ _ HP) HR)].
    intros u. cbv beta. replace (INR i - 1 / 2 + (INR k + 1 / 2) / INR mag) with (line_y mag i k) by (unfold line_y; rewrite (Rplus_comm (1 / 2) (INR k)); ring). tauto.
  - intros HJ HB. rewrite rsum_zero; [unfold Rdiv; ring|]. intros k Hk. destruct (HB k Hk) as [u1 [u2 [U1 [U2 [U3 U4]]]]]. apply HR in U3, U4.
    unfold sec. fold xl xr. destruct (Rle_dec by_ (line_y mag i k)) as [A|A]; auto. destruct (Rle_dec (line_y mag i k) (by_ + e1y + e2y)) as [B|B]; auto.
    unfold g_irr. replace (S j =? n)%nat with true by (symmetry; apply Nat.eqb_eq; auto).
    assert (Q1 : (Z.of_nat n <= ZnearestE (xr (line_y mag i k)))%Z) by (apply near_ge; rewrite <- INR_IZR_INZ; lra).
    assert (Q2 : (ZnearestE (xl (line_y mag i k)) < Z.of_nat j)%Z) by (apply near_lt; rewrite <- INR_IZR_INZ; lra).
    replace (Z.of_nat n <=? ZnearestE (xr (line_y mag i k)))%Z with true by (symmetry; apply Z.leb_le; auto).
    replace (ZnearestE (xl (line_y mag i k)) =? Z.of_nat j)%Z with false by (symmetry; apply Z.eqb_neq; lia). reflexivity.
Qed.
Lemma polygon_err mag w cw xs ys xc yc norm dark : (1 <= mag)%nat -> 0 < w_dx w -> 0 < len w norm ys -> w_dx w < len w norm xs ->
  metres (w_n w) (w_dx w) (INR (w_n w) - 1 / 2) < len w norm xc - len w norm xs / 2 ->
  (exists i k, (i < w_n w)%nat /\ (k < mag)%nat /\ Rabs (metres (w_n w) (w_dx w) (line_y mag i k) - len w norm yc) <= len w norm ys / 2) ->
  prop_irregular_polygon mag w (corners cw xs ys xc yc 0) norm dark = Raise IndexError.
Proof.
  intros Hm Hd Hy Hx1 Hleft [i [k [Hi [Hk Hik]]]]. assert (Hx : 0 < len w norm xs) by lra.
  unfold prop_irregular_polygon, get_sampling. destruct (Req_EM_T (w_dx w) 0) as [|Hd0]; [lra|]. change (v_n (corners cw xs ys xc yc 0)) with 4%nat. cbn [Nat.ltb Nat.leb]. cbv zeta.
  rewrite corners_pix, !to_pix_len by auto.
  set (lx := len w norm xs) in *. set (ly := len w norm ys) in *. set (t := 0 * PI / 180).
  set (px := len w norm xc) in *. set (py := len w norm yc) in *. set (n := w_n w) in *. set (dx := w_dx w) in *.
  assert (Kx : 0 < 1 / 2 * (lx / dx)) by (apply Rmult_lt_0_compat; [lra|apply Rdiv_lt_0_compat; auto]).
  assert (Ky : 0 < 1 / 2 * (ly / dx)) by (apply Rmult_lt_0_compat; [lra|apply Rdiv_lt_0_compat; auto]).
  destruct (rect_para _ _ _ _ (px / dx + INR (n / 2)) (py / dx + INR (n / 2)) Kx Ky (cs1 t)) as [l [r [tt [bx [by_ [e1x [e1y [e2x [e2y [HP [HM HI]]]]]]]]]]].
  set (xl := xleft_of bx by_ e1x e1y e2x e2y) in *. set (xr := xright_of bx by_ e1x e1y e2x e2y) in *.
  assert (HR : forall u v, Rabs (metres n dx u - px) <= lx / 2 /\ Rabs (metres n dx v - py) <= ly / 2 <-> by_ <= v <= by_ + e1y + e2y /\ xl v <= u <= xr v).
  { intros u v. rewrite <- (HI u v). unfold t. rewrite <- (rect_metres n dx lx ly px py 0 u v Hd). unfold in_rectangle. replace (0 * PI / 180) with 0 by (unfold Rdiv; ring). rewrite cos_0, sin_0.
    replace (1 * (metres n dx u - px) + 0 * (metres n dx v - py)) with (metres n dx u - px) by ring. replace (1 * (metres n dx v - py) - 0 * (metres n dx u - px)) with (metres n dx v - py) by ring. tauto. }
  apply (fill_para_err _ _ _ _ _ _ _ _ _ _ _ n mag _ _ _ IndexError HP eq_refl HM Hm); [|intros; apply top_same|].
  - intros y Hyr. fold xl xr. assert (LR : xl y <= xr y) by (apply left_le_right; auto; apply HP).
    assert (B : Rabs (metres n dx (xl y) - px) <= lx / 2 /\ Rabs (metres n dx y - py) <= ly / 2) by (apply HR; lra). destruct B as [B1 B2].
    assert (GM : forall u, Rabs (metres n dx u - px) <= lx / 2 -> xl y <= u <= xr y) by (intros u G; apply (HR u y); auto).
    set (ur := px / dx + INR (n / 2) + lx / dx / 2). set (ul := px / dx + INR (n / 2) - lx / dx / 2).
    assert (Er : metres n dx ur - px = lx / 2) by (unfold metres, ur; field; lra). assert (El : metres n dx ul - px = - (lx / 2)) by (unfold metres, ul; field; lra).
    assert (Gr : xl y <= ur <= xr y) by (apply GM; rewrite Er, Rabs_right; lra).
    assert (Gl : xl y <= ul <= xr y) by (apply GM; rewrite El, Rabs_Ropp, Rabs_right; lra).
    assert (W : 1 < ur - ul). { unfold ur, ul. replace (px / dx + INR (n / 2) + lx / dx / 2 - (px / dx + INR (n / 2) - lx / dx / 2)) with (lx / dx) by (field; lra). apply (Rmult_lt_reg_r dx); auto. replace (lx / dx * dx) with lx by (field; lra). lra. }
    assert (NL : INR n - 1 / 2 < xl y).
    { assert (A : - (lx / 2) <= metres n dx (xl y) - px) by (unfold Rabs in B1; destruct (Rcase_abs _); lra). unfold metres in *. apply (Rmult_lt_reg_r dx); auto. lra. }
    rewrite INR_IZR_INZ in NL. apply near_ge in NL.
    unfold paint_irregular. assert (NE : (ZnearestE (xl y) < ZnearestE (xr y))%Z) by (apply lt_IZR; destruct (near_up (xl y)), (near_up (xr y)); lra).
    destruct (Z.eqb_spec (ZnearestE (xl y)) (ZnearestE (xr y))); [lia|]. cbn [negb]. destruct (Z.leb_spec 0 (ZnearestE (xl y))); [|lia].
    unfold np_ix. replace (Z.of_nat n <=? ZnearestE (xl y))%Z with true by (symmetry; apply Z.leb_le; auto). rewrite Bool.orb_true_r. reflexivity.
  - exists i, k. split; auto. split; auto. apply (HR (px / dx + INR (n / 2)) (line_y mag i k)). split; auto.
    replace (metres n dx (px / dx + INR (n / 2)) - px) with 0 by (unfold metres; field; lra). rewrite Rabs_R0. lra.
Qed.
