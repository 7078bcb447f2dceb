(* Proofs for C102: the two chains of a parallelogram, one line, one row *)
From Coquelicot Require Import Coquelicot.
From Verif Require Import Base StrBase RBase CBase PropModel PrpModel DmSurfProofs2 EllProofs ApModel ApSpec ApProofs ApProofs2 RectModel RectSpec.
Open Scope R_scope.
(* b lowest (leftmost of the lowest), l next on the left, r on the right, t the top; e1 = l - b, e2 = r - b *)
Record para (p : poly) (b l r t : nat) (bx by_ e1x e1y e2x e2y : R) : Prop := mkpara {
  q_n : v_n p = 4%nat;
  q_bl : vnext 4 b = l; q_lt : vnext 4 l = t; q_br : vprev 4 b = r; q_rt : vprev 4 r = t;
  q_tr : vnext 4 t = r; q_tl : vprev 4 t = l;
  q_xb : v_x p b = bx; q_yb : v_y p b = by_; q_xl : v_x p l = bx + e1x; q_yl : v_y p l = by_ + e1y;
  q_xr : v_x p r = bx + e2x; q_yr : v_y p r = by_ + e2y; q_xt : v_x p t = bx + e1x + e2x; q_yt : v_y p t = by_ + e1y + e2y;
  q_e1 : 0 < e1y; q_e2 : 0 <= e2y; q_or : 0 < e2x * e1y - e2y * e1x;
  q_max : lmax (v_y p) 4 = by_ + e1y + e2y }.
Definition xleft_of (bx by_ e1x e1y e2x e2y y : R) : R :=
  if Rlt_dec y (by_ + e1y) then bx + (y - by_) * e1x / e1y else if Req_EM_T e2y 0 then bx + e1x else bx + e1x + (y - (by_ + e1y)) * e2x / e2y.
Definition xright_of (bx by_ e1x e1y e2x e2y y : R) : R :=
  if Rlt_dec y (by_ + e2y) then bx + (y - by_) * e2x / e2y else bx + e2x + (y - (by_ + e2y)) * e1x / e1y.
Definition linv (p : poly) (b l r t : nat) (y1 y2 y3 : R) (s : chains) (y : R) : Prop :=
  y3 <= y \/
  (((h_l s = b /\ h_ln s = l /\ y < y1) \/ (h_l s = l /\ h_ln s = t /\ y1 <= y)) /\
   ((h_r s = b /\ h_rn s = r /\ y < y2) \/ (h_r s = r /\ h_rn s = t /\ y2 <= y))).
Lemma line_spec p b l r t bx by_ e1x e1y e2x e2y s y0 y : para p b l r t bx by_ e1x e1y e2x e2y ->
  linv p b l r t (by_ + e1y) (by_ + e2y) (by_ + e1y + e2y) s y0 -> y0 < y ->
  let a := scan_line p y s in
  linv p b l r t (by_ + e1y) (by_ + e2y) (by_ + e1y + e2y) (fst a) y /\
  (by_ <= y <= by_ + e1y + e2y -> snd a = Some (xleft_of bx by_ e1x e1y e2x e2y y, xright_of bx by_ e1x e1y e2x e2y y)) /\
  (~ (by_ <= y <= by_ + e1y + e2y) -> snd a = None).
Proof.
  intros [Hn Hbl Hlt Hbr Hrt Htr Htl Hxb Hyb Hxl Hyl Hxr Hyr Hxt Hyt H1 H2 Ho Hm] Hs Hy. cbv zeta. unfold scan_line.
  rewrite Hn, Hm.
  destruct (Rlt_dec (by_ + e1y + e2y) y) as [Htop|Htop].
  - assert (E : forall X : chains * option (R * R), (if Rlt_dec y (v_y p (h_l s)) then (s, None) else (s, None)) = X -> fst X = s /\ snd X = None) by (intros X <-; destruct (Rlt_dec _ _); auto).
    destruct (E _ eq_refl) as [-> ->]. split; [left; lra|split; [lra|auto]].
  - destruct Hs as [Hs|[HL HR]]; [lra|].
    destruct (Rlt_dec y by_) as [Hlow|Hlow].
    { destruct HL as [[HL0 [HL1 HL2]]|[_ [_ HL]]]; [|lra]. destruct HR as [[HR1 [HR2 HR3]]|[_ [_ HR]]]; [|lra].
      rewrite HL0, Hyb. destruct (Rlt_dec y by_) as [_|]; [|lra]. cbn [fst snd]. split; [right|split; [lra|auto]].
      split; left; (split; [auto|split; [auto|lra]]). }
    assert (Hge : ~ y < v_y p (h_l s)) by (apply Rle_not_lt; destruct HL as [[HL0 _]|[HL0 [_ HL1]]]; rewrite HL0, ?Hyb, ?Hyl; lra).
    destruct (Rlt_dec y (v_y p (h_l s))) as [|_]; [lra|]. cbn [fst snd].
    assert (EL : (y < by_ + e1y + e2y -> (h_l (advance p y s) = b /\ h_ln (advance p y s) = l /\ y < by_ + e1y) \/
        (h_l (advance p y s) = l /\ h_ln (advance p y s) = t /\ by_ + e1y <= y)) /\
        crossing p (h_l (advance p y s)) (h_ln (advance p y s)) y = xleft_of bx by_ e1x e1y e2x e2y y).
    { unfold advance; cbn [h_l h_ln h_r h_rn fst snd]. rewrite Hn.
      destruct HL as [[Ea [Eb HL]]|[Ea [Eb HL]]]; rewrite ?Ea, ?Eb.
      - rewrite Hyl. destruct (Rle_dec (by_ + e1y) y) as [Hc|Hc]; cbn [fst snd].
        + rewrite Hlt. split; [intros; right; auto|]. unfold crossing, xleft_of. rewrite Hyl, Hyt, Hxl, Hxt.
          destruct (Rlt_dec y (by_ + e1y)); [lra|]. destruct (Req_EM_T _ 0); destruct (Req_EM_T e2y 0); try lra.
          replace (by_ + e1y + e2y - (by_ + e1y)) with e2y by ring. field. auto.
        + split; [intros; left; repeat split; auto; lra|]. unfold crossing, xleft_of. rewrite Hyl, Hyb, Hxl, Hxb.
          destruct (Rlt_dec y (by_ + e1y)); [|lra]. destruct (Req_EM_T _ 0); try lra. field. lra.
      - rewrite Hyt. destruct (Rle_dec (by_ + e1y + e2y) y) as [Hc|Hc]; cbn [fst snd].
        + rewrite Htr. split; [intros; lra|]. assert (Ey : y = by_ + e1y + e2y) by lra. unfold crossing, xleft_of. rewrite Hyt, Hyr, Hxt, Hxr.
          destruct (Rlt_dec y (by_ + e1y)); [lra|].
          assert (e2y <> 0) by lra. 
          destruct (Req_EM_T (by_ + e2y - (by_ + e1y + e2y)) 0); [lra|]. destruct (Req_EM_T e2y 0); [lra|]. rewrite Ey. field. split; lra.
        + split; [intros; right; repeat split; auto; lra|]. unfold crossing, xleft_of. rewrite Hyl, Hyt, Hxl, Hxt.
          destruct (Rlt_dec y (by_ + e1y)); [lra|]. destruct (Req_EM_T _ 0); destruct (Req_EM_T e2y 0); try lra.
          replace (by_ + e1y + e2y - (by_ + e1y)) with e2y by ring. field. auto. }
    assert (ER : (y < by_ + e1y + e2y -> (h_r (advance p y s) = b /\ h_rn (advance p y s) = r /\ y < by_ + e2y) \/
        (h_r (advance p y s) = r /\ h_rn (advance p y s) = t /\ by_ + e2y <= y)) /\
        crossing p (h_r (advance p y s)) (h_rn (advance p y s)) y = xright_of bx by_ e1x e1y e2x e2y y).
    { unfold advance; cbn [h_l h_ln h_r h_rn fst snd]. rewrite Hn.
      destruct HR as [[Ea [Eb HR]]|[Ea [Eb HR]]]; rewrite ?Ea, ?Eb.
      - rewrite Hyr. destruct (Rle_dec (by_ + e2y) y) as [Hc|Hc]; cbn [fst snd].
        + rewrite Hrt. split; [intros; right; auto|]. unfold crossing, xright_of. rewrite Hyr, Hyt, Hxr, Hxt.
          destruct (Rlt_dec y (by_ + e2y)); [lra|]. destruct (Req_EM_T _ 0); try lra.
          replace (by_ + e1y + e2y - (by_ + e2y)) with e1y by ring. field. lra.
        + split; [intros; left; repeat split; auto; lra|]. unfold crossing, xright_of. rewrite Hyr, Hyb, Hxr, Hxb.
          destruct (Rlt_dec y (by_ + e2y)); [|lra]. destruct (Req_EM_T _ 0); try lra. field. lra.
      - rewrite Hyt. destruct (Rle_dec (by_ + e1y + e2y) y) as [Hc|Hc]; cbn [fst snd].
        + rewrite Htl. split; [intros; lra|]. assert (Ey : y = by_ + e1y + e2y) by lra. unfold crossing, xright_of. rewrite Hyt, Hyl, Hxt, Hxl.
          destruct (Rlt_dec y (by_ + e2y)); [lra|].
          destruct (Req_EM_T (by_ + e1y - (by_ + e1y + e2y)) 0) as [Hz|Hz]; rewrite Ey; [field; lra|].
          replace (by_ + e1y - (by_ + e1y + e2y)) with (- e2y) by ring. field. split; lra.
        + split; [intros; right; repeat split; auto; lra|]. unfold crossing, xright_of. rewrite Hyr, Hyt, Hxr, Hxt.
          destruct (Rlt_dec y (by_ + e2y)); [lra|]. destruct (Req_EM_T _ 0); try lra.
          replace (by_ + e1y + e2y - (by_ + e2y)) with e1y by ring. field. lra. }
    destruct EL as [EL1 EL2], ER as [ER1 ER2]. rewrite EL2, ER2. split; [|split; [auto|lra]].
    destruct (Rle_dec (by_ + e1y + e2y) y); [left; auto|right]. split; [apply EL1|apply ER1]; lra.
Qed.
(* the section at height y is the points between the two edges *)
Definition in_para (bx by_ e1x e1y e2x e2y x y : R) : Prop :=
  let d := e2x * e1y - e2y * e1x in
  0 <= (x - bx) * e1y - (y - by_) * e1x <= d /\ 0 <= (y - by_) * e2x - (x - bx) * e2y <= d.
Lemma div_between a b c : 0 < c -> (a / c <= b <-> a <= b * c) /\ (b <= a / c <-> b * c <= a).
Proof.
  intros Hc. assert (E : a / c * c = a) by (field; lra). split; split; intros H.
  - rewrite <- E. apply Rmult_le_compat_r; lra.
  - apply (Rmult_le_reg_r c); lra.
  - rewrite <- E. apply Rmult_le_compat_r; lra.
  - apply (Rmult_le_reg_r c); lra.
Qed.
Lemma xl_iff bx by_ e1x e1y e2x e2y y x : 0 < e1y -> 0 <= e2y ->
  (xleft_of bx by_ e1x e1y e2x e2y y <= x <-> (y < by_ + e1y /\ (y - by_) * e1x <= (x - bx) * e1y) \/
    (by_ + e1y <= y /\ ((e2y = 0 /\ e1x <= x - bx) \/ (0 < e2y /\ (y - by_ - e1y) * e2x <= (x - bx - e1x) * e2y)))).
Proof.
  intros H1 H2. unfold xleft_of. destruct (Rlt_dec y (by_ + e1y)).
  - destruct (div_between ((y - by_) * e1x) (x - bx) e1y H1) as [D _]. split; intros H.
    + left. split; [lra|]. apply D. lra.
    + destruct H as [[_ H]|[H _]]; [|lra]. apply D in H. lra.
  - destruct (Req_EM_T e2y 0) as [E|E].
    + split; intros H; [right; split; [lra|left; lra]|]. destruct H as [[H _]|[_ [[_ H]|[H _]]]]; lra.
    + destruct (div_between ((y - (by_ + e1y)) * e2x) (x - bx - e1x) e2y ltac:(lra)) as [D _]. split; intros H.
      * right. split; [lra|right]. split; [lra|]. replace (y - by_ - e1y) with (y - (by_ + e1y)) by ring. apply D. lra.
      * destruct H as [[H _]|[_ [[H _]|[_ H]]]]; [lra|lra|]. replace (y - by_ - e1y) with (y - (by_ + e1y)) in H by ring. apply D in H. lra.
Qed.
Lemma xr_iff bx by_ e1x e1y e2x e2y y x : 0 < e1y -> 0 <= e2y -> by_ <= y ->
  (x <= xright_of bx by_ e1x e1y e2x e2y y <-> (y < by_ + e2y /\ (x - bx) * e2y <= (y - by_) * e2x) \/
    (by_ + e2y <= y /\ (x - bx - e2x) * e1y <= (y - by_ - e2y) * e1x)).
Proof.
  intros H1 H2 Hb. unfold xright_of. destruct (Rlt_dec y (by_ + e2y)).
  - destruct (div_between ((y - by_) * e2x) (x - bx) e2y ltac:(lra)) as [_ D]. split; intros H.
    + left. split; [lra|]. apply D. lra.
    + destruct H as [[_ H]|[H _]]; [|lra]. apply D in H. lra.
  - destruct (div_between ((y - (by_ + e2y)) * e1x) (x - bx - e2x) e1y H1) as [_ D]. split; intros H.
    + right. split; [lra|]. replace (y - by_ - e2y) with (y - (by_ + e2y)) by ring. apply D. lra.
    + destruct H as [[H _]|[_ H]]; [lra|]. replace (y - by_ - e2y) with (y - (by_ + e2y)) in H by ring. apply D in H. lra.
Qed.
Lemma mul_pos_iff d z : 0 < d -> (0 <= z * d <-> 0 <= z).
Proof. intros H. split; intros G; [apply (Rmult_le_reg_r d); lra|apply Rmult_le_pos; lra]. Qed.
Lemma mul_lt_1 e m : 0 <= e -> e * m < e -> m < 1.
Proof. intros H G. apply Rnot_le_lt. intros K. assert (e * 1 <= e * m) by (apply Rmult_le_compat_l; lra). lra. Qed.
Lemma section_coords bx by_ e1x e1y e2x e2y m k : 0 < e1y -> 0 <= e2y -> 0 < e2x * e1y - e2y * e1x ->
  (0 <= m <= 1 /\ 0 <= k <= 1 <-> by_ <= by_ + (e1y * m + e2y * k) <= by_ + e1y + e2y /\
    xleft_of bx by_ e1x e1y e2x e2y (by_ + (e1y * m + e2y * k)) <= bx + (e1x * m + e2x * k) <= xright_of bx by_ e1x e1y e2x e2y (by_ + (e1y * m + e2y * k))).
Proof.
  intros H1 H2 Ho. set (d := e2x * e1y - e2y * e1x) in *.
  assert (L := xl_iff bx by_ e1x e1y e2x e2y (by_ + (e1y * m + e2y * k)) (bx + (e1x * m + e2x * k)) H1 H2).
  assert (R := xr_iff bx by_ e1x e1y e2x e2y (by_ + (e1y * m + e2y * k)) (bx + (e1x * m + e2x * k)) H1 H2).
  pose proof (mul_pos_iff d k Ho) as K0. pose proof (mul_pos_iff d m Ho) as M0.
  pose proof (mul_pos_iff d (1 - k) Ho) as K1. pose proof (mul_pos_iff d (1 - m) Ho) as M1.
  assert (E1 : k * d = (bx + (e1x * m + e2x * k) - bx) * e1y - (by_ + (e1y * m + e2y * k) - by_) * e1x) by (unfold d; ring).
  assert (E2 : m * d = (by_ + (e1y * m + e2y * k) - by_) * e2x - (bx + (e1x * m + e2x * k) - bx) * e2y) by (unfold d; ring).
  assert (E3 : (1 - m) * d = (bx + (e1x * m + e2x * k) - bx - e1x) * e2y - (by_ + (e1y * m + e2y * k) - by_ - e1y) * e2x) by (unfold d; ring).
  assert (E4 : (1 - k) * d = (by_ + (e1y * m + e2y * k) - by_ - e2y) * e1x - (bx + (e1x * m + e2x * k) - bx - e2x) * e1y) by (unfold d; ring).
  split.
  - intros [Hm Hk].
    assert (A1 : 0 <= e1y * m) by (apply Rmult_le_pos; lra). assert (A2 : 0 <= e2y * k) by (apply Rmult_le_pos; lra).
    assert (A3 : e1y * m <= e1y * 1) by (apply Rmult_le_compat_l; lra). assert (A4 : e2y * k <= e2y * 1) by (apply Rmult_le_compat_l; lra).
    split; [lra|]. split.
    + apply L. destruct (Rlt_dec (by_ + (e1y * m + e2y * k)) (by_ + e1y)); [left; split; [lra|]; assert (0 <= k * d) by (apply K0; lra); lra|].
      right. split; [lra|]. destruct (Req_dec e2y 0) as [Z|Z].
      * left. split; auto. rewrite Z in *. assert (m = 1) by (apply Rle_antisym; [lra|]; apply (Rmult_le_reg_l e1y); lra). subst m.
        assert (0 < e2x) by (unfold d in Ho; rewrite ?Z in Ho; apply (Rmult_lt_reg_r e1y); lra). assert (0 <= e2x * k) by (apply Rmult_le_pos; lra). lra.
      * right. split; [lra|]. assert (0 <= (1 - m) * d) by (apply M1; lra). lra.
    + apply R; [lra|]. destruct (Rlt_dec (by_ + (e1y * m + e2y * k)) (by_ + e2y)); [left|right]; (split; [lra|]).
      * assert (0 <= m * d) by (apply M0; lra). lra.
      * assert (0 <= (1 - k) * d) by (apply K1; lra). lra.
  - intros [[Hy1 Hy2] [HL HR]]. apply L in HL. apply R in HR; [|lra]. clear L R.
    assert (ML : m <= 1 /\ 0 <= k).
    { destruct HL as [[C D]|[C [[Z D]|[Z D]]]].
      - assert (0 <= k) by (apply K0; lra). split; auto. assert (0 <= e2y * k) by (apply Rmult_le_pos; lra). apply Rlt_le, (mul_lt_1 e1y); lra.
      - rewrite Z in *. assert (m = 1) by (apply Rle_antisym; apply (Rmult_le_reg_l e1y); lra). subst m. split; [lra|].
        assert (0 < e2x) by (unfold d in Ho; rewrite ?Z in Ho; apply (Rmult_lt_reg_r e1y); lra). apply (Rmult_le_reg_l e2x); lra.
      - assert (0 <= 1 - m) by (apply M1; lra). split; [lra|]. assert (0 <= e1y * (1 - m)) by (apply Rmult_le_pos; lra). apply (Rmult_le_reg_l e2y); lra. }
    assert (MR : k <= 1 /\ 0 <= m).
    { destruct HR as [[C D]|[C D]].
      - assert (0 <= m) by (apply M0; lra). split; auto. assert (0 <= e1y * m) by (apply Rmult_le_pos; lra). apply Rlt_le, (mul_lt_1 e2y); lra.
      - assert (0 <= 1 - k) by (apply K1; lra). split; [lra|]. assert (0 <= e2y * (1 - k)) by (apply Rmult_le_pos; lra). apply (Rmult_le_reg_l e1y); lra. }
    lra.
Qed.
(* overlap of [a, b] with the pixel around j *)
Definition overlap (a b : R) (j : Z) : R := Rmax 0 (Rmin b (IZR j + 1 / 2) - Rmax a (IZR j - 1 / 2)).
Lemma overlap_length a b j : a <= b -> has_length (fun u => IZR j - 1 / 2 <= u <= IZR j + 1 / 2 /\ a <= u <= b) (overlap a b j).
Proof.
  intros H. unfold overlap. destruct (Rle_dec (Rmax a (IZR j - 1 / 2)) (Rmin b (IZR j + 1 / 2))) as [G|G].
  - right. exists (Rmax a (IZR j - 1 / 2)), (Rmin b (IZR j + 1 / 2)). split; auto. split; [rewrite Rmax_right; lra|].
    intros x. unfold Rmax, Rmin in *. destruct (Rle_dec a (IZR j - 1 / 2)), (Rle_dec b (IZR j + 1 / 2)); lra.
  - left. split; [|rewrite Rmax_left; lra]. intros x [A B]. apply G. unfold Rmax, Rmin. destruct (Rle_dec a (IZR j - 1 / 2)), (Rle_dec b (IZR j + 1 / 2)); lra.
Qed.
Lemma near_mono a b : a <= b -> (ZnearestE a <= ZnearestE b)%Z.
Proof.
  intros H. destruct (Z_le_gt_dec (ZnearestE a) (ZnearestE b)) as [G|G]; auto. exfalso.
  destruct (near_up a) as [A _], (near_up b) as [_ B]. assert (K : IZR (ZnearestE b) + 1 <= IZR (ZnearestE a)) by (rewrite <- plus_IZR; apply IZR_le; lia).
  assert (a = b) by lra. subst b. lia.
Qed.
Ltac btrue := rewrite ?Bool.andb_true_iff, ?Z.leb_le, ?Z.ltb_lt; intuition lia.
Lemma paint_rect_ok n mag xl xr : xl <= xr -> exists f, paint_rect n mag xl xr = Ok f /\ forall j, (j < n)%nat -> f j = INR mag * overlap xl xr (Z.of_nat j).
Proof.
  intros H. unfold paint_rect. eexists. split; [reflexivity|]. intros j Hj. cbv beta zeta.
  destruct (near_up xl) as [A1 A2], (near_up xr) as [B1 B2]. set (l := ZnearestE xl) in *. set (r := ZnearestE xr) in *. set (J := Z.of_nat j).
  assert (HJ : (0 <= J < Z.of_nat n)%Z) by (unfold J; lia).
  assert (Lr : (l <= r)%Z) by (apply near_mono; auto).
  unfold overlap. destruct (Z.eqb_spec l r) as [E|E]; cbn [negb].
  - destruct (Z.eqb_spec J l) as [F|F].
    + replace ((0 <=? l) && (l <? Z.of_nat n) && true)%Z%bool with true by (symmetry; btrue).
      unfold b2r. rewrite F. assert (Ez : IZR l = IZR r) by (rewrite E; auto). rewrite (Rmin_left xr), (Rmax_left xl), (Rmax_right 0) by lra. lra.
    + rewrite Bool.andb_false_r. unfold b2r. rewrite Rmax_left; [ring|].
      destruct (Z.lt_total J l) as [G|[G|G]]; [|lia|].
      * assert (IZR J + 1 <= IZR l) by (rewrite <- plus_IZR; apply IZR_le; lia). pose proof (Rmin_r xr (IZR J + 1 / 2)). pose proof (Rmax_l xl (IZR J - 1 / 2)). lra.
      * rewrite E in G. assert (IZR r + 1 <= IZR J) by (rewrite <- plus_IZR; apply IZR_le; lia). pose proof (Rmin_l xr (IZR J + 1 / 2)). pose proof (Rmax_r xl (IZR J - 1 / 2)). lra.
  - assert (Hlr : (l < r)%Z) by lia. 
    destruct (Z.lt_total J l) as [G|[G|G]].
    + assert (IZR J + 1 <= IZR l) by (rewrite <- plus_IZR; apply IZR_le; lia). pose proof (Rmin_r xr (IZR J + 1 / 2)). pose proof (Rmax_l xl (IZR J - 1 / 2)).
      rewrite (Rmax_left 0) by lra.
      destruct (Z.eqb_spec J l); [lia|]. destruct (Z.eqb_spec J r); [lia|]. rewrite !Bool.andb_false_r.
      destruct (Z.leb_spec (if l + 1 <? 0 then 0 else l + 1)%Z J) as [K|K]; [destruct (Z.ltb_spec (l + 1) 0); lia|]. cbn [andb b2r].
      unfold b2r. destruct (_ && _)%bool; ring.
    + rewrite G. assert (IZR l + 1 <= IZR r) by (rewrite <- plus_IZR; apply IZR_le; lia).
      rewrite Rmin_right, (Rmax_left xl) by lra. rewrite Rmax_right by lra.
      rewrite Z.eqb_refl. destruct (Z.eqb_spec l r); [lia|]. replace ((0 <=? l) && (l <? Z.of_nat n) && true)%Z%bool with true by (symmetry; btrue).
      rewrite !Bool.andb_false_r. destruct (Z.leb_spec (if l + 1 <? 0 then 0 else l + 1)%Z l) as [K|K]; [destruct (Z.ltb_spec (l + 1) 0); lia|]. cbn [andb].
      unfold b2r. destruct (_ && _)%bool; ring.
    + assert (IZR l + 1 <= IZR J) by (rewrite <- plus_IZR; apply IZR_le; lia). destruct (Z.eqb_spec J l); [lia|]. rewrite (Bool.andb_false_r ((0 <=? l) && (l <? Z.of_nat n))%Z).
      rewrite (Rmax_right xl) by lra.
      destruct (Z.lt_total J r) as [F|[F|F]].
      * assert (IZR J + 1 <= IZR r) by (rewrite <- plus_IZR; apply IZR_le; lia). rewrite Rmin_right by lra. rewrite Rmax_right by lra.
        destruct (Z.eqb_spec J r); [lia|]. rewrite Bool.andb_false_r.
        replace ((1 <? r - l) && (l + 1 <? Z.of_nat n) && (0 <? r))%Z%bool with true by (symmetry; btrue).
        replace ((if l + 1 <? 0 then 0 else l + 1) <=? J)%Z with true by (destruct (Z.ltb_spec (l + 1) 0); lia).
        replace (J <? (if Z.of_nat n <? r then Z.of_nat n else r))%Z with true by (destruct (Z.ltb_spec (Z.of_nat n) r); lia).
        unfold b2r; cbn [andb]. lra.
      * rewrite F. rewrite Rmin_left by lra. rewrite Rmax_right by lra. rewrite Z.eqb_refl.
        replace ((0 <=? r) && (r <? Z.of_nat n) && true)%Z%bool with true by (symmetry; btrue).
        replace (r <? (if Z.of_nat n <? r then Z.of_nat n else r))%Z with false by (destruct (Z.ltb_spec (Z.of_nat n) r); lia). rewrite Bool.andb_false_r.
        unfold b2r. destruct (_ && _)%bool; ring.
      * assert (IZR r + 1 <= IZR J) by (rewrite <- plus_IZR; apply IZR_le; lia). pose proof (Rmin_l xr (IZR J + 1 / 2)). rewrite (Rmax_left 0) by lra.
        destruct (Z.eqb_spec J r); [lia|]. rewrite Bool.andb_false_r.
        replace (J <? (if Z.of_nat n <? r then Z.of_nat n else r))%Z with false by (destruct (Z.ltb_spec (Z.of_nat n) r); lia). rewrite Bool.andb_false_r.
        unfold b2r. destruct (_ && _)%bool; ring.
Qed.
