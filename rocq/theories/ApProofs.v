(* Proofs for C101: the mask *)
From Coquelicot Require Import Coquelicot.
From Verif Require Import Base StrBase RBase CBase PropModel PrpModel EllProofs ApModel ApSpec.
Open Scope R_scope.
Lemma odd_half nsub : Nat.odd nsub = true -> INR (nsub / 2) = (INR nsub - 1) / 2.
Proof.
  intros H. apply Nat.odd_spec in H. destruct H as (m & ->). replace ((2 * m + 1) / 2)%nat with m.
  2:{ rewrite Nat.mul_comm, Nat.div_add_l by lia. simpl. lia. }
  rewrite plus_INR, mult_INR. simpl. field.
Qed.
Lemma odd_pos nsub : Nat.odd nsub = true -> (1 <= nsub)%nat.
Proof. destruct nsub; [discriminate|lia]. Qed.
Definition isin (tol xr yr t x y : R) : Prop := exr xr t x y * exr xr t x y + eyr yr t x y * eyr yr t x y <= tol.
Lemma cov_sum n nsub dx tol xr yr xc yc rot i j : coverage n nsub dx tol xr yr xc yc rot i j =
  rsum nsub (fun l => rsum nsub (fun k => if inside_dec tol xr yr xc yc rot (sample n nsub dx j k) (sample n nsub dx i l) then 1 else 0)) / (INR nsub * INR nsub).
Proof.
  unfold coverage. f_equal. rewrite len_filter_prod, rsum_swap. rewrite rsuml_map_seq. apply rsum_ext. intros k _. rewrite rsuml_map_seq. apply rsum_ext. intros l _. cbn [fst snd].
  now destruct (inside_dec _ _ _ _ _ _ _ _).
Qed.
Lemma in_pix n nsub dx tol xr yr xc yc rot i j k l : Nat.odd nsub = true -> 0 < dx -> xr <> 0 -> yr <> 0 ->
  (inside tol xr yr xc yc rot (sample n nsub dx j k) (sample n nsub dx i l) <->
   isin tol (xr / dx) (yr / dx) (rot * PI / 180) (sub_off nsub k + (IZR j - (INR (n / 2) + xc / dx))) (sub_off nsub l + (IZR i - (INR (n / 2) + yc / dx)))).
Proof.
  intros O D X Y. assert (N : INR nsub <> 0) by (apply not_0_INR; pose proof (odd_pos nsub O); lia). unfold inside, isin, exr, eyr, sample, sub_off. cbv zeta. rewrite (odd_half nsub O).
  match goal with |- ?a <= _ <-> ?b <= _ => replace a with b; [tauto|] end. field. repeat split; auto; lra.
Qed.
Lemma rsum_le n f g : (forall i, (i < n)%nat -> f i <= g i) -> rsum n f <= rsum n g.
Proof. induction n as [|n IH]; intros H; [simpl; lra|]. cbn [rsum]. specialize (IH ltac:(intros; apply H; lia)). pose proof (H n ltac:(lia)). lra. Qed.
Lemma rsum_bounds n f a b : (forall i, (i < n)%nat -> a <= f i <= b) -> INR n * a <= rsum n f <= INR n * b.
Proof.
  induction n as [|n IH]; intros H; [cbn [rsum]; simpl; lra|]. cbn [rsum]. rewrite S_INR. specialize (IH ltac:(intros; apply H; lia)). pose proof (H n ltac:(lia)). lra.
Qed.
Lemma frac_01 nsub f : (1 <= nsub)%nat -> (forall k l, (k < nsub)%nat -> (l < nsub)%nat -> 0 <= f k l <= 1) -> 0 <= rsum nsub (fun l => rsum nsub (fun k => f k l)) / (INR nsub * INR nsub) <= 1.
Proof.
  intros N H. assert (P : 0 < INR nsub) by (apply lt_0_INR; lia). assert (B : INR nsub * (INR nsub * 0) <= rsum nsub (fun l => rsum nsub (fun k => f k l)) <= INR nsub * (INR nsub * 1)).
  { apply rsum_bounds. intros l Hl. apply (rsum_bounds nsub (fun k => f k l)). intros k Hk. now apply H. }
  split; [apply Rmult_le_pos; [lra|left; apply Rinv_0_lt_compat; nra]|]. apply Rmult_le_reg_r with (INR nsub * INR nsub); [nra|]. unfold Rdiv. rewrite Rmult_assoc, Rinv_l by nra. lra.
Qed.
Lemma frac_all nsub f c : (1 <= nsub)%nat -> (forall k l, (k < nsub)%nat -> (l < nsub)%nat -> f k l = c) -> rsum nsub (fun l => rsum nsub (fun k => f k l)) / (INR nsub * INR nsub) = c.
Proof.
  intros N H. assert (P : 0 < INR nsub) by (apply lt_0_INR; lia). assert (B : INR nsub * (INR nsub * c) <= rsum nsub (fun l => rsum nsub (fun k => f k l)) <= INR nsub * (INR nsub * c)).
  { apply rsum_bounds. intros l Hl. apply (rsum_bounds nsub (fun k => f k l)). intros k Hk. rewrite H by auto. lra. }
  replace (rsum nsub (fun l => rsum nsub (fun k => f k l))) with (INR nsub * (INR nsub * c)) by lra. field. lra.
Qed.
Lemma cov_01 n nsub dx tol xr yr xc yc rot i j : Nat.odd nsub = true -> 0 <= coverage n nsub dx tol xr yr xc yc rot i j <= 1.
Proof. intros O. rewrite cov_sum. apply frac_01; [now apply odd_pos|]. intros k l _ _. destruct (inside_dec _ _ _ _ _ _ _ _); lra. Qed.
Lemma cov_mono n nsub dx t1 t2 xr yr xc yc rot i j : Nat.odd nsub = true -> t1 <= t2 -> coverage n nsub dx t1 xr yr xc yc rot i j <= coverage n nsub dx t2 xr yr xc yc rot i j.
Proof.
  intros O T. rewrite !cov_sum. assert (P : 0 < INR nsub) by (apply lt_0_INR; pose proof (odd_pos nsub O); lia). apply Rmult_le_compat_r; [left; apply Rinv_0_lt_compat; nra|].
  apply rsum_le. intros l _. apply rsum_le. intros k _. destruct (inside_dec t1 _ _ _ _ _ _ _) as [a|a], (inside_dec t2 _ _ _ _ _ _ _) as [b|b]; try lra. unfold inside in *. cbv zeta in *. lra.
Qed.
Lemma sub_small nsub k : Nat.odd nsub = true -> (k < nsub)%nat -> sub_off nsub k ^ 2 < 1 / 4.
Proof.
  intros O K. assert (P : 0 < INR nsub) by (apply lt_0_INR; lia). assert (K1 : INR k <= INR nsub - 1) by (destruct nsub as [|m]; [lia|]; rewrite S_INR; assert (INR k <= INR m) by (apply le_INR; lia); lra).
  pose proof (pos_INR k). unfold sub_off. rewrite (odd_half nsub O). assert (E : ((INR k - (INR nsub - 1) / 2) / INR nsub) * INR nsub = INR k - (INR nsub - 1) / 2) by (field; lra). set (q := (INR k - (INR nsub - 1) / 2) / INR nsub) in *.
  assert (- (1 / 2) < q) by (apply Rmult_lt_reg_r with (INR nsub); nra). assert (q < 1 / 2) by (apply Rmult_lt_reg_r with (INR nsub); nra). nra.
Qed.
Definition em (xr yr t x y : R) : C := (exr xr t x y, eyr yr t x y).
Lemma em_add xr yr t x y a b : em xr yr t (a + x) (b + y) = Cplus (em xr yr t x y) (em xr yr t a b).
Proof. unfold em, exr, eyr, Cplus, Rdiv. cbn [fst snd]. f_equal; ring. Qed.
Lemma em_sq xr yr t x y : Cmod (em xr yr t x y) = sqrt (exr xr t x y * exr xr t x y + eyr yr t x y * eyr yr t x y).
Proof. unfold Cmod, em. cbn [fst snd]. f_equal. ring. Qed.
Lemma isin_mod tol xr yr t x y : 0 <= tol -> (isin (tol * tol) xr yr t x y <-> Cmod (em xr yr t x y) <= tol).
Proof.
  intros T. rewrite em_sq. unfold isin. set (q := exr xr t x y * exr xr t x y + eyr yr t x y * eyr yr t x y). assert (Q : 0 <= q) by (unfold q; nra). pose proof (sqrt_sqrt q Q). pose proof (sqrt_pos q). split; intros; nra.
Qed.
Lemma width_sq xr yr t : 0 < xr -> 0 < yr -> ((/ xr) ^ 2 + (/ yr) ^ 2) / 2 <= edge_width xr yr t ^ 2 /\ 0 <= edge_width xr yr t.
Proof.
  intros X Y. unfold edge_width. cbv zeta. set (p := 1 / xr * cos t - 1 / yr * sin t). set (q := 1 / xr * sin t + 1 / yr * cos t). pose proof (sin2_cos2 t) as SC. unfold Rsqr in SC.
  assert (PQ : p ^ 2 + q ^ 2 = (/ xr) ^ 2 + (/ yr) ^ 2).
  { unfold p, q. replace ((1 / xr * cos t - 1 / yr * sin t) ^ 2 + (1 / xr * sin t + 1 / yr * cos t) ^ 2) with (((/ xr) ^ 2 + (/ yr) ^ 2) * (sin t * sin t + cos t * cos t)) by (field; lra). rewrite SC. ring. }
  pose proof (Rmax_l (Rabs p) (Rabs q)) as M1. pose proof (Rmax_r (Rabs p) (Rabs q)) as M2. pose proof (Rabs_pos p). pose proof (Rabs_pos q). pose proof (pow2_abs p). pose proof (pow2_abs q). set (m := Rmax (Rabs p) (Rabs q)) in *. split; [|lra]. nra.
Qed.
Lemma off_lt xr yr t a b : 0 < xr -> 0 < yr -> a ^ 2 < 1 / 4 -> b ^ 2 < 1 / 4 -> Cmod (em xr yr t a b) < edge_width xr yr t.
Proof.
  intros X Y A B. destruct (width_sq xr yr t X Y) as [W W0]. pose proof (sin2_cos2 t) as SC. unfold Rsqr in SC. rewrite em_sq. set (q := exr xr t a b * exr xr t a b + eyr yr t a b * eyr yr t a b).
  assert (IX : 0 < / xr) by now apply Rinv_0_lt_compat. assert (IY : 0 < / yr) by now apply Rinv_0_lt_compat. set (u := a * cos t - b * sin t). set (v := a * sin t + b * cos t).
  assert (UV : u ^ 2 + v ^ 2 < 1 / 2). { replace (u ^ 2 + v ^ 2) with ((a ^ 2 + b ^ 2) * (sin t * sin t + cos t * cos t)) by (unfold u, v; ring). rewrite SC. lra. }
  assert (Q : q = (/ xr) ^ 2 * u ^ 2 + (/ yr) ^ 2 * v ^ 2) by (unfold q, exr, eyr, u, v, Rdiv; ring).
  assert (Q1 : q < ((/ xr) ^ 2 + (/ yr) ^ 2) / 2).
  { rewrite Q. pose proof (pow2_ge_0 u). pose proof (pow2_ge_0 v). assert (0 < (/ xr) ^ 2) by nra. assert (0 < (/ yr) ^ 2) by nra. set (c := (/ xr) ^ 2) in *. set (d := (/ yr) ^ 2) in *. set (u2 := u ^ 2) in *. set (v2 := v ^ 2) in *. assert (u2 < 1 / 2) by lra. assert (v2 < 1 / 2) by lra. nra. }
  assert (Q0 : 0 <= q) by (unfold q; nra). pose proof (sqrt_sqrt q Q0). pose proof (sqrt_pos q). nra.
Qed.
Lemma edge_is n nsub dx xr yr xc yc rot i j : Nat.odd nsub = true -> 0 < dx -> xr <> 0 -> yr <> 0 ->
  edge_px nsub (xr / dx) (yr / dx) (rot * PI / 180) (INR (n / 2) + xc / dx) (INR (n / 2) + yc / dx) i j = coverage n nsub dx (1 + / 10 ^ 10) xr yr xc yc rot (Z.of_nat i) (Z.of_nat j).
Proof.
  intros O D X Y. rewrite cov_sum. unfold edge_px. f_equal. apply rsum_ext. intros l _. apply rsum_ext. intros k _. cbv zeta.
  pose proof (in_pix n nsub dx (1 + / 10 ^ 10) xr yr xc yc rot (Z.of_nat i) (Z.of_nat j) k l O D X Y) as K. unfold isin in K. rewrite <- !INR_IZR_INZ in K.
  destruct (Rle_dec _ _) as [a|a], (inside_dec _ _ _ _ _ _ _ _) as [b|b]; auto; exfalso; tauto.
Qed.
(* coverage of a pixel all of whose samples are inside, and of one all of whose samples are outside *)
Lemma cov_full n nsub dx tol xr yr xc yc rot i j : Nat.odd nsub = true -> (forall k l, (k < nsub)%nat -> (l < nsub)%nat -> inside tol xr yr xc yc rot (sample n nsub dx j k) (sample n nsub dx i l)) -> coverage n nsub dx tol xr yr xc yc rot i j = 1.
Proof. intros O H. rewrite cov_sum. apply (frac_all nsub (fun k l => if inside_dec tol xr yr xc yc rot (sample n nsub dx j k) (sample n nsub dx i l) then 1 else 0)); [now apply odd_pos|]. intros k l Hk Hl. destruct (inside_dec _ _ _ _ _ _ _ _) as [|b]; [reflexivity|]. destruct b. now apply H. Qed.
Lemma cov_none n nsub dx tol xr yr xc yc rot i j : Nat.odd nsub = true -> (forall k l, (k < nsub)%nat -> (l < nsub)%nat -> ~ inside tol xr yr xc yc rot (sample n nsub dx j k) (sample n nsub dx i l)) -> coverage n nsub dx tol xr yr xc yc rot i j = 0.
Proof. intros O H. rewrite cov_sum. apply (frac_all nsub (fun k l => if inside_dec tol xr yr xc yc rot (sample n nsub dx j k) (sample n nsub dx i l) then 1 else 0)); [now apply odd_pos|]. intros k l Hk Hl. destruct (inside_dec _ _ _ _ _ _ _ _) as [b|]; [|reflexivity]. exfalso. exact (H k l Hk Hl b). Qed.
Lemma mask_covers n nsub dx xr yr xc yc rot i j : Nat.odd nsub = true -> 0 < dx -> 0 < xr -> 0 < yr ->
  covers n nsub dx xr yr xc yc rot (mask_px nsub (xr / dx) (yr / dx) (rot * PI / 180) (INR (n / 2) + xc / dx) (INR (n / 2) + yc / dx) i j) (Z.of_nat i) (Z.of_nat j).
Proof.
  intros O D X Y. assert (PX : 0 < xr / dx) by (apply Rdiv_lt_0_compat; auto). assert (PY : 0 < yr / dx) by (apply Rdiv_lt_0_compat; auto). set (t := rot * PI / 180). set (cx := INR (n / 2) + xc / dx). set (cy := INR (n / 2) + yc / dx).
  destruct (width_sq (xr / dx) (yr / dx) t PX PY) as [_ W0].
  assert (T : 0 <= / 10 ^ 10) by (left; apply Rinv_0_lt_compat; lra).
  assert (S : forall k l, (k < nsub)%nat -> (l < nsub)%nat ->
    Rabs (Cmod (em (xr / dx) (yr / dx) t (sub_off nsub k + (INR j - cx)) (sub_off nsub l + (INR i - cy))) - Cmod (em (xr / dx) (yr / dx) t (INR j - cx) (INR i - cy))) < edge_width (xr / dx) (yr / dx) t).
  { intros k l Hk Hl. rewrite em_add. eapply Rle_lt_trans; [apply mod_lip|]. apply off_lt; auto using sub_small. }
  assert (IN : forall tol k l, 0 <= tol -> (inside (tol * tol) xr yr xc yc rot (sample n nsub dx (Z.of_nat j) k) (sample n nsub dx (Z.of_nat i) l) <-> Cmod (em (xr / dx) (yr / dx) t (sub_off nsub k + (INR j - cx)) (sub_off nsub l + (INR i - cy))) <= tol)).
  { intros tol k l Ht. rewrite in_pix by (auto; lra). rewrite <- !INR_IZR_INZ. fold t cx cy. now apply isin_mod. }
  unfold covers, mask_px. cbv zeta. rewrite <- em_sq. destruct (Rle_dec _ _) as [A|A]; [|destruct (Rlt_dec _ _) as [B|B]].
  - assert (F : coverage n nsub dx 1 xr yr xc yc rot (Z.of_nat i) (Z.of_nat j) = 1).
    { apply cov_full; auto. intros k l Hk Hl. replace 1 with (1 * 1) at 1 by ring. apply IN; [lra|]. pose proof (S k l Hk Hl) as K. apply Rabs_def2 in K. lra. }
    split; [lra|]. rewrite <- F. apply cov_mono; auto. lra.
  - assert (F : coverage n nsub dx 1 xr yr xc yc rot (Z.of_nat i) (Z.of_nat j) = 0).
    { apply cov_none; auto. intros k l Hk Hl K. replace 1 with (1 * 1) in K at 1 by ring. apply IN in K; [|lra]. pose proof (S k l Hk Hl) as Q. apply Rabs_def2 in Q. lra. }
    split; [lra|]. apply cov_01; auto.
  - unfold t, cx, cy. rewrite edge_is by (auto; lra). split; [apply cov_mono; auto; lra|lra].
Qed.
