(* Lemmas for hyper-gaussian pupils and for a strut of zero width (C103) *)
From Verif Require Import Base StrBase RBase UtilModel CBase PropModel PropProofs OptModel PrpModel EllModel EllSpec ApModel EstModel EstProofs2 RectModel RectSpec SimpModel SimpSpec SimpProofs SimpProofs2.
Open Scope R_scope.
Lemma hg_pos p k : cpos p -> 0 < s_nbeam p -> hg_axis p k = s_nbeam p * pos p (INR k).
Proof. intros [C|C] B; unfold hg_axis, pos; rewrite C; cbn [String.eqb Ascii.eqb Bool.eqb]; field; lra. Qed.
Lemma hg_rho_eq p i j : cpos p -> 0 < s_nbeam p -> 0 < s_xst p -> hg_rho p i j = s_nbeam p * sqrt ((pos p (INR j) / s_xst p) ^ 2 + pos p (INR i) ^ 2).
Proof.
  intros C B X. unfold hg_rho. rewrite !hg_pos by auto. set (x := pos p (INR j)). set (y := pos p (INR i)).
  replace ((s_nbeam p * x / s_xst p) ^ 2 + (s_nbeam p * y / 1) ^ 2) with (s_nbeam p ^ 2 * ((x / s_xst p) ^ 2 + y ^ 2)) by (field; lra).
  rewrite sqrt_mult; [|apply pow2_ge_0|pose proof (pow2_ge_0 (x / s_xst p)); pose proof (pow2_ge_0 y); lra]. f_equal. rewrite <- Rsqr_pow2. apply sqrt_Rsqr. lra.
Qed.
Lemma hg_disc_eq p d i j : cpos p -> 0 < s_nbeam p -> 0 < s_xst p -> 0 < d -> hg_disc p d i j = smooth 1000 (ratio p d (pos p (INR j)) (pos p (INR i))).
Proof.
  intros C B X D. unfold hg_disc, smooth, ratio. rewrite hg_rho_eq by auto. set (q := sqrt _). replace (s_nbeam p * q / (s_nbeam p / 2 * d)) with (q / (d / 2)) by (field; lra). reflexivity.
Qed.
Lemma hg_polar p i j : 
  hg_rho p i j * cos (hg_theta p i j) = hg_axis p j / s_xst p /\ hg_rho p i j * sin (hg_theta p i j) = hg_axis p i.
Proof.
  unfold hg_rho, hg_theta. set (x := hg_axis p j / s_xst p). replace (hg_axis p i / 1) with (hg_axis p i) by field. set (y := hg_axis p i).
  replace (x ^ 2 + y ^ 2) with (x * x + y * y) by ring.
  destruct (Req_dec x 0) as [Zx|Zx]; [destruct (Req_dec y 0) as [Zy|Zy]|].
  - rewrite Zx, Zy. replace (0 * 0 + 0 * 0) with 0 by ring. rewrite sqrt_0. split; ring.
  - apply atan2_polar. auto.
  - apply atan2_polar. auto.
Qed.
Lemma hg_strut_eq p a i j : cpos p -> 0 < s_nbeam p -> 0 < s_xst p -> 0 < s_wstrut p -> hg_strut p a i j = spider p a (pos p (INR j)) (pos p (INR i)).
Proof.
  intros C B X W. unfold hg_strut, spider, hg_along, hg_across, smooth. cbv zeta. destruct (hg_polar p i j) as [H1 H2]. rewrite !hg_pos in H1, H2 by auto.
  set (x := pos p (INR j)) in *. set (y := pos p (INR i)) in *. set (r := hg_rho p i j) in *. set (th := hg_theta p i j) in *. replace (PI * a / 180) with (a * PI / 180) by (unfold Rdiv; ring). set (t := a * PI / 180).
  rewrite sin_minus, cos_minus. replace (r * (sin th * cos t - cos th * sin t)) with (r * sin th * cos t - r * cos th * sin t) by ring. replace (r * (cos th * cos t + sin th * sin t)) with (r * cos th * cos t + r * sin th * sin t) by ring. rewrite H1, H2.
  replace (s_nbeam p * y * cos t - s_nbeam p * x / s_xst p * sin t) with (s_nbeam p * (cos t * y - sin t * (x / s_xst p))) by (field; lra).
  replace (s_nbeam p * x / s_xst p * cos t + s_nbeam p * y * sin t) with (s_nbeam p * (cos t * (x / s_xst p) + sin t * y)) by (field; lra).
  set (A := cos t * (x / s_xst p) + sin t * y). set (D := cos t * y - sin t * (x / s_xst p)). replace (s_nbeam p * D / (s_wstrut p * (s_nbeam p / 2))) with (D / (s_wstrut p / 2)) by (field; lra).
  destruct (Rlt_dec 0 A) as [G|G]; destruct (Rlt_dec 0 (s_nbeam p * A)) as [K|K].
  - ring.
  - destruct K. now apply Rmult_lt_0_compat.
  - destruct G. apply (Rmult_lt_reg_l (s_nbeam p)); lra.
  - ring.
Qed.
Lemma fold_product {A} (g : A -> R) l v : fold_left (fun v a => v * g a) l v = v * product (map g l).
Proof. revert v. induction l as [|a l IH]; intros v; cbn [fold_left map product]; [ring|]. rewrite IH. ring. Qed.
Lemma hg_ok p : usual p -> s_hg p = true -> exists f, falco_gen_pupil_Simple p = Ok f /\ frows f = s_npad p /\ fcols f = s_npad p /\
  forall i j, (i < s_npad p)%nat -> (j < s_npad p)%nat -> let x := pos p (INR j) in let y := pos p (INR i) in
    fpx f i j = (smooth 1000 (ratio p (s_od p) x y) - (if Rlt_dec 0 (s_id p) then smooth 1000 (ratio p (s_id p) x y) else 0)) * product (map (fun a => spider p a x y) (s_ang p)).
Proof.
  intros U HG. pose proof U as [C N B O I0 X W]. unfold falco_gen_pupil_Simple. destruct (Rlt_dec (s_wstrut p) 0) as [K|_]; [destruct W as [|[_ ?]]; lra|].
  assert (CE : (String.eqb (s_centering p) "pixel" || String.eqb (s_centering p) "interpixel")%bool = true) by (destruct C as [-> | ->]; reflexivity). rewrite CE. cbn [negb]. destruct (Rlt_dec (s_od p) (s_id p)); [lra|]. rewrite HG.
  eexists. split; [reflexivity|]. split; [reflexivity|]. split; [reflexivity|]. intros i j Hi Hj. cbv zeta. unfold hg_pupil. cbn [fpx].
  set (x := pos p (INR j)). set (y := pos p (INR i)).
  assert (E : (if Rlt_dec 0 (s_id p) then hg_disc p (s_od p) i j - hg_disc p (s_id p) i j else hg_disc p (s_od p) i j) = smooth 1000 (ratio p (s_od p) x y) - (if Rlt_dec 0 (s_id p) then smooth 1000 (ratio p (s_id p) x y) else 0)).
  { destruct (Rlt_dec 0 (s_id p)) as [H|H]; rewrite !hg_disc_eq by auto; fold x y; [reflexivity|lra]. }
  rewrite E. destruct (Rlt_dec 0 (s_wstrut p)) as [G|G].
  - rewrite fold_product. f_equal. f_equal. apply map_ext. intros a. now apply hg_strut_eq.
  - destruct W as [W|[-> _]]; [lra|]. cbn [map product]. ring.
Qed.
Lemma smooth_low m q : 1 - q ^ m <= smooth m q.
Proof. unfold smooth. pose proof (exp_ineq1_le (- q ^ m)). lra. Qed.
Lemma smooth_01 m q : 0 <= q ^ m -> 0 < smooth m q <= 1.
Proof. intros H. unfold smooth. split; [apply exp_pos|]. rewrite <- exp_0. destruct (Req_dec (q ^ m) 0) as [->|N]; [rewrite Ropp_0; lra|]. left. apply exp_increasing. lra. Qed.
Lemma smooth_high m q t : 0 < t -> t <= q -> smooth m q <= / t ^ m.
Proof.
  intros T Q. assert (P : 0 < t ^ m) by now apply pow_lt. assert (G : t ^ m <= q ^ m) by (apply pow_incr; lra). unfold smooth. rewrite exp_Ropp. apply Rinv_le_contravar; auto. pose proof (exp_ineq1_le (q ^ m)). lra.
Qed.
Lemma smooth_mono m q t : 0 <= q -> q <= t -> smooth m t <= smooth m q.
Proof. intros Q T. assert (G : q ^ m <= t ^ m) by (apply pow_incr; lra). unfold smooth. destruct (Req_dec (q ^ m) (t ^ m)) as [->|N]; [lra|]. left. apply exp_increasing. lra. Qed.
Lemma ratio_pos p d x y : 0 < d -> 0 <= ratio p d x y.
Proof. intros D. unfold ratio. apply Rmult_le_pos; [apply sqrt_pos|]. left. apply Rinv_0_lt_compat. lra. Qed.
Lemma ratio_le p d e x y : 0 < d -> d <= e -> ratio p e x y <= ratio p d x y.
Proof. intros D E. unfold ratio. apply Rmult_le_compat_l; [apply sqrt_pos|]. apply Rinv_le_contravar; lra. Qed.
Lemma pow100_pos q : 0 <= q ^ 100.
Proof. replace 100%nat with (2 * 50)%nat by reflexivity. rewrite pow_mult. apply pow_le, pow2_ge_0. Qed.
Lemma abs_pow100 q : Rabs q ^ 100 = q ^ 100.
Proof. replace 100%nat with (2 * 50)%nat by reflexivity. rewrite !pow_mult, pow2_abs. reflexivity. Qed.
Lemma spider_01 p a x y : 0 <= spider p a x y <= 1.
Proof. unfold spider. destruct (Rlt_dec _ _); [|lra]. pose proof (smooth_01 100 (hg_across p a x y / (s_wstrut p / 2)) (pow100_pos _)). lra. Qed.
