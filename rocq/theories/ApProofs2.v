(* Proofs for C101: the box, and the whole image *)
From Coquelicot Require Import Coquelicot.
From Verif Require Import Base StrBase RBase CBase PropModel PrpModel DmSurfProofs2 EllProofs ApModel ApSpec ApProofs.
Open Scope R_scope.
Lemma min4_le f k : (k < 4)%nat -> min4 f <= f k.
Proof. unfold min4. intros K. pose proof (Rmin_l (Rmin (f 0%nat) (f 1%nat)) (Rmin (f 2%nat) (f 3%nat))). pose proof (Rmin_r (Rmin (f 0%nat) (f 1%nat)) (Rmin (f 2%nat) (f 3%nat))). pose proof (Rmin_l (f 0%nat) (f 1%nat)). pose proof (Rmin_r (f 0%nat) (f 1%nat)). pose proof (Rmin_l (f 2%nat) (f 3%nat)). pose proof (Rmin_r (f 2%nat) (f 3%nat)). destruct k as [|[|[|[|k]]]]; try lia; lra. Qed.
Lemma max4_ge f k : (k < 4)%nat -> f k <= max4 f.
Proof. unfold max4. intros K. pose proof (Rmax_l (Rmax (f 0%nat) (f 1%nat)) (Rmax (f 2%nat) (f 3%nat))). pose proof (Rmax_r (Rmax (f 0%nat) (f 1%nat)) (Rmax (f 2%nat) (f 3%nat))). pose proof (Rmax_l (f 0%nat) (f 1%nat)). pose proof (Rmax_r (f 0%nat) (f 1%nat)). pose proof (Rmax_l (f 2%nat) (f 3%nat)). pose proof (Rmax_r (f 2%nat) (f 3%nat)). destruct k as [|[|[|[|k]]]]; try lia; lra. Qed.
Lemma min4_is f m : (forall k, (k < 4)%nat -> m <= f k) -> m <= min4 f.
Proof. intros H. unfold min4. repeat apply Rmin_glb; apply H; lia. Qed.
Lemma max4_is f m : (forall k, (k < 4)%nat -> f k <= m) -> max4 f <= m.
Proof. intros H. unfold max4. repeat apply Rmax_lub; apply H; lia. Qed.
Lemma lin_ge a b u v : -1 <= u <= 1 -> -1 <= v <= 1 -> - Rabs a - Rabs b <= a * u + b * v <= Rabs a + Rabs b.
Proof. intros U V. unfold Rabs. destruct (Rcase_abs a), (Rcase_abs b); split; nra. Qed.
(* a point inside has coordinates in the box *)
Lemma in_box xr yr t xc yc x y : 0 < xr -> 0 < yr -> isin 1 xr yr t (x - xc) (y - yc) ->
  min4 (xbox xr yr t xc) <= x <= max4 (xbox xr yr t xc) /\ min4 (ybox xr yr t yc) <= y <= max4 (ybox xr yr t yc).
Proof.
  intros X Y H. unfold isin in H. set (u := exr xr t (x - xc) (y - yc)) in *. set (v := eyr yr t (x - xc) (y - yc)) in *.
  assert (U : -1 <= u <= 1) by (split; nra). assert (V : -1 <= v <= 1) by (split; nra). pose proof (sin2_cos2 t) as SC. unfold Rsqr in SC.
  assert (EX : x = (xr * cos t) * u + (yr * sin t) * v + xc).
  { unfold u, v, exr, eyr. replace (xr * cos t * (((x - xc) * cos t - (y - yc) * sin t) / xr) + yr * sin t * (((x - xc) * sin t + (y - yc) * cos t) / yr) + xc) with ((x - xc) * (sin t * sin t + cos t * cos t) + xc) by (field; lra). rewrite SC. ring. }
  assert (EY : y = (- (xr * sin t)) * u + (yr * cos t) * v + yc).
  { unfold u, v, exr, eyr. replace (- (xr * sin t) * (((x - xc) * cos t - (y - yc) * sin t) / xr) + yr * cos t * (((x - xc) * sin t + (y - yc) * cos t) / yr) + yc) with ((y - yc) * (sin t * sin t + cos t * cos t) + yc) by (field; lra). rewrite SC. ring. }
  clearbody u v. pose proof (lin_ge (xr * cos t) (yr * sin t) u v U V) as L1. pose proof (lin_ge (- (xr * sin t)) (yr * cos t) u v U V) as L2.
  pose proof (min4_le (xbox xr yr t xc)) as A. pose proof (max4_ge (xbox xr yr t xc)) as B. pose proof (min4_le (ybox xr yr t yc)) as C. pose proof (max4_ge (ybox xr yr t yc)) as D.
  pose proof (A 0%nat ltac:(lia)) as A0. pose proof (A 1%nat ltac:(lia)) as A1. pose proof (A 2%nat ltac:(lia)) as A2. pose proof (A 3%nat ltac:(lia)) as A3.
  pose proof (B 0%nat ltac:(lia)) as B0. pose proof (B 1%nat ltac:(lia)) as B1. pose proof (B 2%nat ltac:(lia)) as B2. pose proof (B 3%nat ltac:(lia)) as B3.
  pose proof (C 0%nat ltac:(lia)) as C0. pose proof (C 1%nat ltac:(lia)) as C1. pose proof (C 2%nat ltac:(lia)) as C2. pose proof (C 3%nat ltac:(lia)) as C3.
  pose proof (D 0%nat ltac:(lia)) as D0. pose proof (D 1%nat ltac:(lia)) as D1. pose proof (D 2%nat ltac:(lia)) as D2. pose proof (D 3%nat ltac:(lia)) as D3.
  clear A B C D. set (a := min4 (xbox xr yr t xc)) in *. set (b := max4 (xbox xr yr t xc)) in *. set (c := min4 (ybox xr yr t yc)) in *. set (d := max4 (ybox xr yr t yc)) in *. clearbody a b c d.
  unfold xbox, ybox, corner_x, corner_y in *. set (p := xr * cos t) in *. set (q := yr * sin t) in *. set (p' := xr * sin t) in *. set (q' := yr * cos t) in *.
  replace (- xr * cos t) with (- p) in * by (unfold p; ring). replace (- yr * sin t) with (- q) in * by (unfold q; ring). replace (- xr * sin t) with (- p') in * by (unfold p'; ring). replace (- yr * cos t) with (- q') in * by (unfold q'; ring).
  unfold Rabs in L1, L2. destruct (Rcase_abs p), (Rcase_abs q), (Rcase_abs (- p')), (Rcase_abs q'); repeat split; lra.
Qed.
Lemma near_up x : IZR (ZnearestE x) <= x + / 2 /\ x - / 2 <= IZR (ZnearestE x).
Proof. pose proof (near_err x) as H. apply Rabs_le_between in H. lra. Qed.
Lemma outside_axis n lo hi p j : (0 <= j < Z.of_nat n)%Z -> (j < clipz n (ZnearestE lo - 1) \/ clipz n (ZnearestE hi + 1) < j)%Z -> lo <= p <= hi -> p < IZR j - 1 / 2 \/ IZR j + 1 / 2 < p.
Proof.
  intros J O P. unfold clipz in O. destruct O as [O|O].
  - assert (K : (j + 2 <= ZnearestE lo)%Z) by lia. apply IZR_le in K. rewrite plus_IZR in K. pose proof (near_up lo). right. lra.
  - assert (K : (ZnearestE hi + 2 <= j)%Z) by lia. apply IZR_le in K. rewrite plus_IZR in K. pose proof (near_up hi). left. lra.
Qed.
Lemma wide_enough n lo hi p : (2 <= n)%nat -> lo <= p <= hi -> 0 <= p <= INR n - 1 -> (2 <= clipz n (ZnearestE hi + 1) - clipz n (ZnearestE lo - 1) + 1)%Z.
Proof.
  intros N P Q. destruct (near_up lo) as [L1 L2]. destruct (near_up hi) as [H1 H2]. assert (A : (ZnearestE lo < Z.of_nat n)%Z) by (apply lt_IZR; rewrite <- INR_IZR_INZ; lra).
  assert (B : (-1 < ZnearestE hi)%Z) by (apply lt_IZR; lra). assert (D : (ZnearestE lo - ZnearestE hi < 2)%Z) by (apply lt_IZR; rewrite minus_IZR; lra). unfold clipz. lia.
Qed.
Lemma to_pix_len w norm x : w_dx w <> 0 -> to_pix w norm x = len w norm x / w_dx w.
Proof. intros D. unfold to_pix, len, get_sampling. destruct norm; field; auto. Qed.
Definition par (p : epar) (dark : bool) : epar := mkep (a_xr p) (a_yr p) (a_xc p) (a_yc p) (a_rot p) (a_norm p) dark.
Lemma len_pos w norm x : 0 < get_beamradius w -> 0 < x -> 0 < len w norm x.
Proof. intros H X. unfold len. destruct norm; auto. now apply Rmult_lt_0_compat. Qed.
Lemma ellipse_ok nsub w p : Nat.odd nsub = true -> (2 <= w_n w)%nat -> 0 < w_dx w ->
  let L := len w (a_norm p) in 0 < L (a_xr p) -> 0 < L (a_yr p) -> meets_grid (w_n w) (w_dx w) (L (a_xr p)) (L (a_yr p)) (L (a_xc p)) (L (a_yc p)) (a_rot p) ->
  exists m d, prop_ellipse nsub w (par p false) = Ok m /\ prop_ellipse nsub w (par p true) = Ok d /\ frows m = w_n w /\ fcols m = w_n w /\ frows d = w_n w /\ fcols d = w_n w /\
    (forall i j, (i < w_n w)%nat -> (j < w_n w)%nat -> covers (w_n w) nsub (w_dx w) (L (a_xr p)) (L (a_yr p)) (L (a_xc p)) (L (a_yc p)) (a_rot p) (fpx m i j) (Z.of_nat i) (Z.of_nat j)) /\
    (forall i j, fpx d i j = 1 - fpx m i j).
Proof.
  intros O N D L XR YR (X & Y & I & BX & BY). set (n := w_n w) in *. set (dx := w_dx w) in *. set (xr := L (a_xr p)) in *. set (yr := L (a_yr p)) in *. set (xc := L (a_xc p)) in *. set (yc := L (a_yc p)) in *.
  set (t := a_rot p * PI / 180).
  assert (TP : forall x, to_pix w (a_norm p) x = L x / dx) by (intros x; apply to_pix_len; unfold dx in D; lra).
  assert (PX : 0 < xr / dx) by (apply Rdiv_lt_0_compat; auto). assert (PY : 0 < yr / dx) by (apply Rdiv_lt_0_compat; auto).
  set (cx := INR (n / 2) + xc / dx). set (cy := INR (n / 2) + yc / dx).
  assert (EX : cpix w (a_norm p) (a_xc p) = cx) by (unfold cpix, cx; rewrite TP; reflexivity). assert (EY : cpix w (a_norm p) (a_yc p) = cy) by (unfold cpix, cy; rewrite TP; reflexivity).
  assert (II : isin 1 (xr / dx) (yr / dx) t ((X / dx + INR (n / 2)) - cx) ((Y / dx + INR (n / 2)) - cy)).
  { unfold isin, exr, eyr, cx, cy. unfold inside in I. cbv zeta in I. fold t in I. match goal with |- ?a <= 1 => match type of I with ?b <= 1 => replace a with b; [exact I|] end end. field. repeat split; lra. }
  destruct (in_box _ _ _ _ _ _ _ PX PY II) as [QX QY].
  assert (RX : 0 <= X / dx + INR (n / 2) <= INR n - 1). { assert (E : X = X / dx * dx) by (field; lra). set (q := X / dx) in *. split; apply Rmult_le_reg_r with dx; auto; nra. }
  assert (RY : 0 <= Y / dx + INR (n / 2) <= INR n - 1). { assert (E : Y = Y / dx * dx) by (field; lra). set (q := Y / dx) in *. split; apply Rmult_le_reg_r with dx; auto; nra. }
  pose proof (wide_enough n _ _ _ N QX RX) as WX. pose proof (wide_enough n _ _ _ N QY RY) as WY.
  unfold prop_ellipse, par. cbn [a_xr a_yr a_xc a_yc a_rot a_norm a_dark]. unfold get_sampling. fold n dx t. rewrite EX, EY, !TP. fold xr yr.
  destruct (Req_EM_T dx 0); [lra|]. cbv zeta. destruct (Z.ltb_spec (clipz n (ZnearestE (max4 (xbox (xr / dx) (yr / dx) t cx)) + 1) - clipz n (ZnearestE (min4 (xbox (xr / dx) (yr / dx) t cx)) - 1) + 1) 2); [lia|].
  destruct (Z.ltb_spec (clipz n (ZnearestE (max4 (ybox (xr / dx) (yr / dx) t cy)) + 1) - clipz n (ZnearestE (min4 (ybox (xr / dx) (yr / dx) t cy)) - 1) + 1) 2); [lia|].
  destruct (Req_EM_T (xr / dx) 0); [lra|]. destruct (Req_EM_T (yr / dx) 0); [lra|]. eexists. eexists. split; [reflexivity|]. split; [reflexivity|]. cbn [frows fcols fpx]. repeat (split; [reflexivity|]). split.
  - intros i j Hi Hj. destruct (_ && _ && _ && _)%bool eqn:BX2; [apply mask_covers; auto|].
    assert (NO : forall k l, (k < nsub)%nat -> (l < nsub)%nat -> ~ inside 1 xr yr xc yc (a_rot p) (sample n nsub dx (Z.of_nat j) k) (sample n nsub dx (Z.of_nat i) l)).
    { intros k l Hk Hl K. apply in_pix in K; [|auto|auto|lra|lra]. fold t cx cy in K. rewrite <- !INR_IZR_INZ in K. replace (sub_off nsub k + (INR j - cx)) with ((sub_off nsub k + INR j) - cx) in K by ring. replace (sub_off nsub l + (INR i - cy)) with ((sub_off nsub l + INR i) - cy) in K by ring.
      apply in_box in K; auto. destruct K as [K1 K2]. pose proof (sub_small nsub k O Hk) as S1. pose proof (sub_small nsub l O Hl) as S2. assert (- (1 / 2) < sub_off nsub k < 1 / 2) by (split; nra). assert (- (1 / 2) < sub_off nsub l < 1 / 2) by (split; nra).
      assert (C : (Z.of_nat j < clipz n (ZnearestE (min4 (xbox (xr / dx) (yr / dx) t cx)) - 1) \/ clipz n (ZnearestE (max4 (xbox (xr / dx) (yr / dx) t cx)) + 1) < Z.of_nat j)%Z \/
                  (Z.of_nat i < clipz n (ZnearestE (min4 (ybox (xr / dx) (yr / dx) t cy)) - 1) \/ clipz n (ZnearestE (max4 (ybox (xr / dx) (yr / dx) t cy)) + 1) < Z.of_nat i)%Z) by lia.
      destruct C as [C|C].
      - pose proof (outside_axis n _ _ _ (Z.of_nat j) ltac:(lia) C K1) as Q. rewrite <- INR_IZR_INZ in Q. lra.
      - pose proof (outside_axis n _ _ _ (Z.of_nat i) ltac:(lia) C K2) as Q. rewrite <- INR_IZR_INZ in Q. lra. }
    split; [rewrite cov_none by auto; lra|apply cov_01; auto].
  - intros i j. destruct (_ && _ && _ && _)%bool; lra.
Qed.
