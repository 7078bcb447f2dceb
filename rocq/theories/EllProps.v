(* C82: antialiased ellipses (falco_gen_ellipse) *)
From Coquelicot Require Import Coquelicot.
From Verif Require Import Base RBase StrBase CBase PropModel EllModel EllSpec EllProofs EllProofs2.
Open Scope R_scope.
Lemma div1 z : z / 1 = z. Proof. field. Qed.
Lemma centering_ok e : valid_centering e -> negb (String.eqb (e_centering e) "pixel" || String.eqb (e_centering e) "interpixel")%bool = false.
Proof. intros [-> | ->]; reflexivity. Qed.
Lemma gen_ok e : proper_ell e -> falco_gen_ellipse e = Ok (mkf (e_narray e) (e_narray e) (ell_px e)).
Proof.
  intros [Pc Pn Pb Px Py Pm]. unfold falco_gen_ellipse. rewrite centering_ok by auto. destruct (Nat.ltb_spec (e_narray e) 2); [lia|].
  destruct (Req_EM_T (e_mag e) 0); [lra|]. destruct (Req_EM_T (e_rx e) 0); [lra|]. destruct (Req_EM_T (e_ry e) 0); [lra|]. reflexivity.
Qed.
(* the call succeeds exactly for a known centering, two samples and nonzero radii and magnification *)
Theorem C82_fails e : (exists f, falco_gen_ellipse e = Ok f /\ frows f = e_narray e /\ fcols f = e_narray e) <-> valid_centering e /\ (2 <= e_narray e)%nat /\ e_mag e <> 0 /\ e_rx e <> 0 /\ e_ry e <> 0.
Proof.
  split.
  - intros (f & E & _). unfold falco_gen_ellipse in E. destruct (String.eqb_spec (e_centering e) "pixel") as [C1|C1]; destruct (String.eqb_spec (e_centering e) "interpixel") as [C2|C2]; cbn [orb negb] in E; try discriminate;
    destruct (Nat.ltb_spec (e_narray e) 2); try discriminate; destruct (Req_EM_T (e_mag e) 0); try discriminate; destruct (Req_EM_T (e_rx e) 0); try discriminate; destruct (Req_EM_T (e_ry e) 0); try discriminate; unfold valid_centering; auto.
  - intros (C & N & M & X & Y). unfold falco_gen_ellipse. rewrite centering_ok by auto. destruct (Nat.ltb_spec (e_narray e) 2); [lia|].
    destruct (Req_EM_T (e_mag e) 0); [lra|]. destruct (Req_EM_T (e_rx e) 0); [lra|]. destruct (Req_EM_T (e_ry e) 0); [lra|]. eexists. split; [reflexivity|]. auto.
Qed.
Lemma rsum_01 n f : (forall k, 0 <= f k <= 1) -> 0 <= rsum n f <= INR n.
Proof. intros H. induction n as [|n IH]; [cbn; lra|]. rewrite S_INR. cbn [rsum]. specialize (H n). lra. Qed.
(* every value is a transmission *)
Theorem C82_range e f i j : falco_gen_ellipse e = Ok f -> (i < frows f)%nat -> (j < fcols f)%nat -> 0 <= fpx f i j <= 1.
Proof.
  intros E _ _. unfold falco_gen_ellipse in E. destruct (negb _); [discriminate|]. destruct (Nat.ltb _ _); [discriminate|]. do 3 (destruct (Req_EM_T _ _) in E; [discriminate|]). injection E as <-. cbn [fpx].
  unfold ell_px. cbv zeta. destruct (Rlt_dec _ _); [lra|]. destruct (Rlt_dec _ _); [lra|]. unfold ell_gray.
  match goal with |- 0 <= rsum 101 (fun t => rsum 101 (@?g t)) / _ <= 1 => assert (B : forall t, 0 <= rsum 101 (g t) / 101 <= 1) end.
  { intros t. cbv beta. match goal with |- 0 <= rsum 101 ?g / 101 <= 1 => pose proof (rsum_01 101 g) as K end. rewrite (INR_IZR_INZ 101) in K. change (IZR (Z.of_nat 101)) with 101 in K.
    assert (K' := K ltac:(intros k; destruct (Rle_dec _ _); lra)). lra. }
  match goal with |- 0 <= rsum 101 ?h / _ <= 1 => replace (rsum 101 h / 101 ^ 2) with (rsum 101 (fun t => / 101 * h t) / 101) by (rewrite rsum_scal; field); pose proof (rsum_01 101 (fun t => / 101 * h t)) as K end.
  rewrite (INR_IZR_INZ 101) in K. change (IZR (Z.of_nat 101)) with 101 in K. match type of K with ?P -> _ => assert (Q : P) end. { intros t. specialize (B t). cbv beta in *. lra. } specialize (K Q). cbv beta in *. lra.
Qed.
(* without magnification, for circles and for ellipses along the axes, on grids that are wide enough: every pixel is the part of it
   that the ellipse covers, as counted on 101 x 101 samples.  No pixel is wrongly taken for full or empty *)
Theorem C82_coverage e : proper_ell e -> e_mag e = 1 -> well_framed e -> exists f, falco_gen_ellipse e = Ok f /\ frows f = e_narray e /\ fcols f = e_narray e /\
  forall i j, (i < e_narray e)%nat -> (j < e_narray e)%nat -> fpx f i j = coverage e 1 i j.
Proof.
  intros P M F. rewrite gen_ok by auto. eexists. split; [reflexivity|]. split; [reflexivity|]. split; [reflexivity|]. intros i j _ _. cbn [fpx]. apply px_coverage; auto. now apply framed_covers.
Qed.
(* a centred shape on an array of at least 102 pixels is such a case *)
Theorem C82_centred_coverage nbeam n rx ry c clock : valid_centering (mke nbeam n rx ry c clock 0 0 1) -> 0 < nbeam -> (102 <= n)%nat -> 0 < rx -> 0 < ry -> rx = ry \/ clock = 0 ->
  exists f, falco_gen_ellipse (mke nbeam n rx ry c clock 0 0 1) = Ok f /\ frows f = n /\ fcols f = n /\ forall i j, (i < n)%nat -> (j < n)%nat -> fpx f i j = coverage (mke nbeam n rx ry c clock 0 0 1) 1 i j.
Proof.
  intros V Hb Hn Hx Hy S. set (e := mke nbeam n rx ry c clock 0 0 1) in *. assert (N : 102 <= INR n). { apply le_INR in Hn. rewrite (INR_IZR_INZ 102) in Hn. exact Hn. }
  assert (P : proper_ell e) by (constructor; cbn; auto; try lra; lia). apply (C82_coverage e P); auto.
  assert (Q : 101/2 * / nbeam <= Rabs (px_pos e 0)).
  { unfold px_pos. cbn [e_centering e_narray e_nbeam e INR]. assert (0 < / nbeam) by now apply Rinv_0_lt_compat. unfold Rdiv. rewrite Rabs_mult, (Rabs_right (/ nbeam)) by lra. apply Rmult_le_compat_r; [lra|].
    destruct (String.eqb c "pixel"); rewrite Rabs_left; lra. }
  unfold well_framed. cbv zeta. cbn [e_xs e_ys e_rx e_ry e_clock e_nbeam e]. rewrite !Rminus_0_r. destruct S as [S|S]; [left; auto|]. destruct (Rle_dec rx ry); [right; left|right; right]; repeat split; auto; lra.
Qed.
(* an ellipse turned by 45 degrees is not antialiased at all when the ratio k of its axes is odd and the array has (k^2+1)/2 pixels:
   unless its centre is exactly on the edge (in no smaller ellipse with the same axes), a pixel is 1 or 0 as its centre is inside
   or outside *)
Theorem C82_tilted nbeam k ry : 0 < nbeam -> 0 < ry -> Nat.odd k = true -> (3 <= k)%nat ->
  let e := mke nbeam ((k * k + 1) / 2) (INR k * ry) ry "pixel" 45 0 0 1 in
  exists f, falco_gen_ellipse e = Ok f /\ forall i j, (i < e_narray e)%nat -> (j < e_narray e)%nat ->
  (forall m, 0 < m < 1 -> in_ellipse e m (px_pos e j) (px_pos e i) -> fpx f i j = 1) /\ (~ in_ellipse e 1 (px_pos e j) (px_pos e i) -> fpx f i j = 0).
Proof.
  intros Hb Hr Ho Hk e. assert (KP : 3 <= INR k). { apply le_INR in Hk. rewrite (INR_IZR_INZ 3) in Hk. exact Hk. }
  assert (P : proper_ell e). { constructor; cbn [e_narray e_nbeam e_rx e_ry e_mag e]; auto; try lra; [now left| |nra]. apply Nat.div_le_lower_bound; nia. }
  pose proof (tilted_window nbeam k ry Hb Ho Hr) as W. fold e in W. change (tilted nbeam k ry) with e in W.
  rewrite gen_ok by auto. eexists. split; [reflexivity|]. intros i j _ _. cbn [fpx]. destruct P as [Pc Pn Pb Px Py Pm].
  assert (RH : ell_rho e i j = ell_rhoup e (px_pos e j - e_xs e) (px_pos e i - e_ys e)). { unfold ell_rho, ell_x, ell_y. rewrite !axis_pos. change (e_mag e) with 1. field. }
  pose proof (rhoup_in e 1 (px_pos e j) (px_pos e i) Px Py Rlt_0_1) as I. rewrite div1, <- RH in I.
  assert (NN : 0 <= ell_rho e i j) by (rewrite RH, rhoup_mod by auto; pose proof (Cmod_ge_0 (mm e (px_pos e j - e_xs e) (px_pos e i - e_ys e))); lra).
  unfold ell_px. cbv zeta. rewrite W, Rplus_0_r, Rminus_0_r, (Rabs_right (ell_rho e i j)) by lra. split.
  - intros m Hm H. apply (rhoup_in e m) in H; auto; [|lra]. rewrite <- RH in H. assert (X : m * (ell_rho e i j / m) = ell_rho e i j) by (field; lra).
    assert (L : ell_rho e i j < 1/2). { rewrite <- X. apply Rle_lt_trans with (m * (1/2)); [apply Rmult_le_compat_l; lra|lra]. }
    destruct (Rlt_dec (1/2) (ell_rho e i j)); [lra|]. destruct (Rlt_dec (ell_rho e i j) (1/2)); [reflexivity|lra].
  - intros H. destruct (Rlt_dec (1/2) (ell_rho e i j)) as [|L]; [reflexivity|]. exfalso. apply H, I. lra.
Qed.
(* for instance: a pixel is full although the ellipse does not cover it *)
Theorem C82_tilted_example nbeam : 0 < nbeam -> let e := mke nbeam 5 (3 * (/ 4 * / nbeam)) (/ 4 * / nbeam) "pixel" 45 0 0 1 in
  exists f, falco_gen_ellipse e = Ok f /\ fpx f 3 3 = 1 /\ coverage e 1 3 3 < 1.
Proof.
  intros Hb e. assert (D0 : 0 < / nbeam) by now apply Rinv_0_lt_compat.
  destruct (C82_tilted nbeam 3 (/ 4 * / nbeam) Hb ltac:(lra) eq_refl ltac:(lia)) as (f & E & H). change ((3 * 3 + 1) / 2)%nat with 5%nat in *. replace (INR 3) with 3 in * by (rewrite INR_IZR_INZ; reflexivity). fold e in E, H. exists f. split; [exact E|].
  assert (PP : px_pos e 3 = 1/2 * / nbeam). { unfold px_pos. cbn [e_centering e_narray e_nbeam e]. cbn [String.eqb Ascii.eqb Bool.eqb]. rewrite !INR_IZR_INZ. cbn [Z.of_nat Pos.of_succ_nat Pos.succ]. field. lra. }
  assert (RX : 0 < e_rx e) by (cbn; lra). assert (RY : 0 < e_ry e) by (cbn; lra).
  assert (IN : forall x y, in_ellipse e 1 x y <-> 1/2 * sqrt (((x + y) / e_rx e) ^ 2 / 2 + ((x - y) / e_ry e) ^ 2 / 2) <= 1/2).
  { intros x y. rewrite <- (rhoup_in e 1 x y RX RY Rlt_0_1). rewrite rhoup_mod, mod45 by auto. change (e_xs e) with 0. change (e_ys e) with 0. rewrite !Rminus_0_r. rewrite div1. tauto. }
  split.
  - destruct (H 3%nat 3%nat) as [A _]; [cbn; lia|cbn; lia|]. apply (A (97/100)); [lra|]. rewrite PP. unfold in_ellipse. cbv zeta. cbn [e_clock e_xs e_ys e_rx e_ry e]. replace (PI * 45 / 180) with (PI / 4) by field. rewrite cos_PI4, sin_PI4, !Rminus_0_r.
    pose proof (sqrt_lt_R0 2 ltac:(lra)) as SP. pose proof (sqrt_sqrt 2 ltac:(lra)) as SQ. 
    match goal with |- ?a <= 1 => replace a with (16/9 / ((97/100) ^ 2 * (sqrt 2 * sqrt 2))) by (field; lra) end. rewrite SQ. lra.
  - apply (coverage_lt e 1 3 3 100 0); [lia|lia|]. rewrite PP. intros Y. apply IN in Y. assert (SP : sub_pos e 100 = 50/101 * / nbeam). { unfold sub_pos. cbn [e_nbeam e]. rewrite (INR_IZR_INZ 100). change (IZR (Z.of_nat 100)) with 100. field. lra. }
    assert (SM : sub_pos e 0 = - (50/101) * / nbeam) by (unfold sub_pos; cbn [e_nbeam e INR]; field; lra). rewrite SP, SM in Y.
    cbn [e_rx e_ry e] in Y. match type of Y with _ * sqrt ?a <= _ => assert (Q : a = 8/9 + (400/101) ^ 2 / 2) by (field; lra); rewrite Q in Y end. clear Q. set (q := 8/9 + (400/101) ^ 2 / 2) in Y. assert (1 < q) by (unfold q; lra).
    assert (sqrt 1 < sqrt q) by (apply sqrt_lt_1; lra). rewrite sqrt_1 in *. lra.
Qed.
Lemma Rmin_inv a b : 0 < a -> 0 < b -> / a <= / Rmin a b /\ / b <= / Rmin a b.
Proof. intros A B. assert (0 < Rmin a b) by now apply Rmin_pos. split; apply Rinv_le_contravar; auto; [apply Rmin_l|apply Rmin_r]. Qed.
Lemma mm_bound e x y : 0 < e_rx e -> 0 < e_ry e -> Cmod (mm e x y) <= sqrt (x ^ 2 + y ^ 2) / Rmin (e_rx e) (e_ry e).
Proof.
  intros H1 H2. destruct (Rmin_inv _ _ H1 H2) as [A B]. assert (0 < Rmin (e_rx e) (e_ry e)) by now apply Rmin_pos. set (r := Rmin (e_rx e) (e_ry e)) in *. assert (0 < / r) by now apply Rinv_0_lt_compat.
  assert (0 < / e_rx e) by now apply Rinv_0_lt_compat. assert (0 < / e_ry e) by now apply Rinv_0_lt_compat.
  replace (sqrt (x ^ 2 + y ^ 2) / r) with (sqrt ((x ^ 2 + y ^ 2) * (/ r) ^ 2)). 2:{ rewrite sqrt_mult_alt by (pose proof (pow2_ge_0 x); pose proof (pow2_ge_0 y); lra). rewrite sqrt_pow2 by lra. reflexivity. }
  unfold Cmod, mm. cbn [fst snd]. apply sqrt_le_1_alt. pose proof (sin2_cos2 (ell_rad e)) as T. unfold Rsqr in T. set (c := cos (ell_rad e)) in *. set (s := sin (ell_rad e)) in *. unfold Rdiv. rewrite !Rpow_mult_distr.
  replace (x ^ 2 + y ^ 2) with ((c * x + s * y) ^ 2 + (s * x - c * y) ^ 2). 2:{ transitivity ((s * s + c * c) * (x ^ 2 + y ^ 2)); [ring|rewrite T; ring]. }
  rewrite Rmult_plus_distr_r. apply Rplus_le_compat; (apply Rmult_le_compat_l; [apply pow2_ge_0|apply pow_incr; lra]).
Qed.
(* magFac: the samples at the edge are compared with the ellipse that is not magnified, so that a magnification or demagnification by
   two pixels or more leaves only zeros and ones: nothing is antialiased *)
Theorem C82_magnified e f i j : proper_ell e -> 2 <= Rabs (e_mag e - 1) * (Rmin (e_rx e) (e_ry e) * e_nbeam e) -> falco_gen_ellipse e = Ok f -> fpx f i j = 0 \/ fpx f i j = 1.
Proof.
  intros P H E. rewrite gen_ok in E by auto. injection E as <-. cbn [fpx]. destruct P as [Pc Pn Pb Px Py Pm].
  assert (RP : 0 < Rmin (e_rx e) (e_ry e)) by now apply Rmin_pos. pose proof (mm_bound e) as MB. set (r := Rmin (e_rx e) (e_ry e)) in *. set (m := e_mag e) in *. set (d := / e_nbeam e).
  assert (D0 : 0 < d) by now apply Rinv_0_lt_compat. assert (DB : d * e_nbeam e = 1) by (unfold d; field; lra). assert (I0 : 0 < / r) by now apply Rinv_0_lt_compat. assert (MI : 0 < / m) by now apply Rinv_0_lt_compat.
  assert (HB : 2 * d / r <= Rabs (m - 1)). { apply (Rmult_le_reg_r (r * e_nbeam e)); [nra|]. replace (2 * d / r * (r * e_nbeam e)) with (2 * (d * e_nbeam e)) by (field; lra). rewrite DB. lra. }
  assert (S1 : px_pos e 1 = px_pos e 0 + d). { unfold d. rewrite <- (dx_eq e Pb). unfold ell_dx, ell_x. rewrite !axis_pos. ring. }
  assert (BX : Cmod (mm e d 0) <= d / r). { eapply Rle_trans; [apply MB; auto|]. replace (d ^ 2 + 0 ^ 2) with (d ^ 2) by ring. rewrite sqrt_pow2 by lra. lra. }
  assert (BY : Cmod (mm e 0 d) <= d / r). { eapply Rle_trans; [apply MB; auto|]. replace (0 ^ 2 + d ^ 2) with (d ^ 2) by ring. rewrite sqrt_pow2 by lra. lra. }
  assert (HW : ell_half_window e <= / m * (1/2 * (d / r))).
  { unfold ell_half_window. apply Rmax_lub; unfold ell_rho; rewrite !rhoup_mod by auto; fold m; unfold ell_x, ell_y; rewrite !axis_pos, S1.
    - replace (px_pos e 0 + d - e_ys e) with (px_pos e 0 - e_ys e + d) by ring. replace (px_pos e 0 - e_xs e) with (px_pos e 0 - e_xs e + 0) at 1 by ring. rewrite mm_add.
      pose proof (mod_lip (mm e (px_pos e 0 - e_xs e) (px_pos e 0 - e_ys e)) (mm e 0 d)) as L. rewrite <- Rmult_minus_distr_l, <- Rmult_minus_distr_l, !Rabs_mult, (Rabs_right (1/2)), (Rabs_right (1 / m)) by lra.
      unfold Rdiv at 1. rewrite Rmult_1_l. apply Rmult_le_compat_l; [lra|]. apply Rmult_le_compat_l; lra.
    - replace (px_pos e 0 + d - e_xs e) with (px_pos e 0 - e_xs e + d) by ring. replace (px_pos e 0 - e_ys e) with (px_pos e 0 - e_ys e + 0) at 1 by ring. rewrite mm_add.
      pose proof (mod_lip (mm e (px_pos e 0 - e_xs e) (px_pos e 0 - e_ys e)) (mm e d 0)) as L. rewrite <- Rmult_minus_distr_l, <- Rmult_minus_distr_l, !Rabs_mult, (Rabs_right (1/2)), (Rabs_right (1 / m)) by lra.
      unfold Rdiv at 1. rewrite Rmult_1_l. apply Rmult_le_compat_l; [lra|]. apply Rmult_le_compat_l; lra. }
  assert (RH : ell_rho e i j = / m * ell_rhoup e (ell_x e j) (ell_y e i)) by (unfold ell_rho; fold m; field; lra).
  set (p := ell_rhoup e (ell_x e j) (ell_y e i)) in *. assert (NP : 0 <= p) by (unfold p; rewrite rhoup_mod by auto; pose proof (Cmod_ge_0 (mm e (ell_x e j) (ell_y e i))); lra).
  unfold ell_px. cbv zeta. rewrite RH, (Rabs_right (/ m * p)) by nra. destruct (Rlt_dec _ _) as [|L1]; [now left|]. destruct (Rlt_dec _ _) as [|L2]; [now right|].
  assert (PB : Rabs (p - m / 2) <= 1/2 * (d / r)).
  { assert (X : m * (/ m * p) = p) by (field; lra). assert (Y : m * (/ m * (1/2 * (d / r))) = 1/2 * (d / r)) by (field; lra). apply Rabs_le. split; [|].
    - assert (m * (1/2 - / m * (1/2 * (d / r))) <= m * (/ m * p)) by (apply Rmult_le_compat_l; lra). lra.
    - assert (m * (/ m * p) <= m * (1/2 + / m * (1/2 * (d / r)))) by (apply Rmult_le_compat_l; lra). lra. }
  assert (SB : forall s t, (s < 101)%nat -> (t < 101)%nat -> Rabs (ell_rhoup e (px_pos e j + sub_pos e s - e_xs e) (px_pos e i + sub_pos e t - e_ys e) - p) <= 1/2 * (3/4 * (d / r))).
  { intros s t Hs Ht. unfold p. rewrite !rhoup_mod by auto. unfold ell_x, ell_y. rewrite !axis_pos. replace (px_pos e j + sub_pos e s - e_xs e) with (px_pos e j - e_xs e + sub_pos e s) by ring. replace (px_pos e i + sub_pos e t - e_ys e) with (px_pos e i - e_ys e + sub_pos e t) by ring. rewrite mm_add.
    pose proof (mod_lip (mm e (px_pos e j - e_xs e) (px_pos e i - e_ys e)) (mm e (sub_pos e s) (sub_pos e t))) as L. rewrite <- Rmult_minus_distr_l, Rabs_mult, (Rabs_right (1/2)) by lra. apply Rmult_le_compat_l; [lra|]. eapply Rle_trans; [exact L|]. eapply Rle_trans; [apply MB; auto|].
    replace (3 / 4 * (d / r)) with (3/4 * d / r) by (field; lra). unfold Rdiv. apply Rmult_le_compat_r; [lra|]. rewrite <- (sqrt_pow2 (3 * / 4 * d)) by lra. apply sqrt_le_1_alt.
    pose proof (sub_bound e s Pb Hs) as A. pose proof (sub_bound e t Pb Ht) as B. change (50 / 101 / e_nbeam e) with (50 / 101 * d) in A, B.
    assert (sub_pos e s ^ 2 <= (50/101 * d) ^ 2) by (rewrite <- (pow2_abs (sub_pos e s)); apply pow_incr; split; [apply Rabs_pos|auto]). assert (sub_pos e t ^ 2 <= (50/101 * d) ^ 2) by (rewrite <- (pow2_abs (sub_pos e t)); apply pow_incr; split; [apply Rabs_pos|auto]). pose proof (pow2_ge_0 d). nra. }
  rewrite gray_coverage by auto. assert (DR : 0 < d / r) by (apply Rdiv_lt_0_compat; auto). replace (2 * d / r) with (2 * (d / r)) in HB by (field; lra). set (h := d / r) in *. clearbody h.
  assert (IN : forall x y, in_ellipse e 1 x y <-> ell_rhoup e (x - e_xs e) (y - e_ys e) <= 1/2). { intros x y. rewrite <- (rhoup_in e 1 x y Px Py Rlt_0_1). rewrite div1. tauto. }
  apply Rabs_le_between in PB. destruct (Rle_dec 1 m) as [G|G].
  - left. rewrite Rabs_right in HB by lra. apply coverage_empty. intros s t Hs Ht Y. apply IN in Y. specialize (SB s t Hs Ht). apply Rabs_le_between in SB. lra.
  - right. rewrite Rabs_left in HB by lra. apply coverage_full. intros s t Hs Ht. apply IN. specialize (SB s t Hs Ht). apply Rabs_le_between in SB. lra.
Qed.
(* non-vacuity: a circle of radius one half, 100 pixels across, on 128 x 128 pixels, is antialiased: a pixel at its edge is neither 0 nor 1 *)
Example C82_example : exists f, falco_gen_ellipse (ell_default 100 128 (1/2) (1/2)) = Ok f /\ fpx f 64 64 = 1 /\ fpx f 0 0 = 0 /\ 0 < fpx f 64 114 < 1.
Proof.
  set (e := ell_default 100 128 (1/2) (1/2)). destruct (C82_centred_coverage 100 128 (1/2) (1/2) "pixel" 0) as (f & E & _ & _ & H); [now left|lra|lia|lra|lra|now left|]. change (mke 100 128 (1 / 2) (1 / 2) "pixel" 0 0 0 1) with e in *.
  exists f. split; [exact E|]. rewrite !H by lia. split; [|split].
  - apply coverage_full. intros s t Hs Ht. unfold in_ellipse. cbv zeta. cbn [e_clock e_xs e_ys e_rx e_ry e ell_default]. replace (PI * 0 / 180) with 0 by field. rewrite cos_0, sin_0.
    pose proof (sub_bound e s ltac:(cbn; lra) Hs) as A. pose proof (sub_bound e t ltac:(cbn; lra) Ht) as B. cbn [e_nbeam e ell_default] in A, B. apply Rabs_le_between in A, B.
    assert (px_pos e 64 = 0) as ->. { unfold px_pos. cbn [e_centering e_narray e_nbeam e ell_default]. cbn [String.eqb Ascii.eqb Bool.eqb]. rewrite !INR_IZR_INZ. change (IZR (Z.of_nat 64)) with 64. change (IZR (Z.of_nat 128)) with 128. field. }
    nra.
  - apply coverage_empty. intros s t Hs Ht. unfold in_ellipse. cbv zeta. cbn [e_clock e_xs e_ys e_rx e_ry e ell_default]. replace (PI * 0 / 180) with 0 by field. rewrite cos_0, sin_0.
    pose proof (sub_bound e s ltac:(cbn; lra) Hs) as A. pose proof (sub_bound e t ltac:(cbn; lra) Ht) as B. cbn [e_nbeam e ell_default] in A, B. apply Rabs_le_between in A, B.
    assert (px_pos e 0 = - (64/100)) as ->. { unfold px_pos. cbn [e_centering e_narray e_nbeam e ell_default]. cbn [String.eqb Ascii.eqb Bool.eqb]. rewrite !INR_IZR_INZ. change (IZR (Z.of_nat 0)) with 0. change (IZR (Z.of_nat 128)) with 128. field. }
    nra.
  - assert (PX : px_pos e 114 = 1/2). { unfold px_pos. cbn [e_centering e_narray e_nbeam e ell_default]. cbn [String.eqb Ascii.eqb Bool.eqb]. rewrite !INR_IZR_INZ. change (IZR (Z.of_nat 114)) with 114. change (IZR (Z.of_nat 128)) with 128. field. }
    assert (PY : px_pos e 64 = 0). { unfold px_pos. cbn [e_centering e_narray e_nbeam e ell_default]. cbn [String.eqb Ascii.eqb Bool.eqb]. rewrite !INR_IZR_INZ. change (IZR (Z.of_nat 64)) with 64. change (IZR (Z.of_nat 128)) with 128. field. }
    assert (S0 : sub_pos e 0 = - (50/10100)) by (unfold sub_pos; cbn [e_nbeam e ell_default INR]; field). assert (S50 : sub_pos e 50 = 0) by (unfold sub_pos; rewrite (INR_IZR_INZ 50); change (IZR (Z.of_nat 50)) with 50; cbn [e_nbeam e ell_default]; field).
    assert (S1 : sub_pos e 100 = 50/10100) by (unfold sub_pos; rewrite (INR_IZR_INZ 100); change (IZR (Z.of_nat 100)) with 100; cbn [e_nbeam e ell_default]; field).
    split; [apply (coverage_gt e 1 64 114 0 50); try lia|apply (coverage_lt e 1 64 114 100 50); try lia]; rewrite PX, PY, ?S0, ?S1, S50; unfold in_ellipse; cbv zeta; cbn [e_clock e_xs e_ys e_rx e_ry e ell_default]; replace (PI * 0 / 180) with 0 by field; rewrite cos_0, sin_0; lra.
Qed.
