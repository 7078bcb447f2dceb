(* Proofs for C82: when the half window is wide enough *)
From Coquelicot Require Import Coquelicot.
From Verif Require Import Base RBase StrBase CBase PropModel EllModel EllSpec EllProofs.
Open Scope R_scope.
Definition nrm (u w x y : R) : R := sqrt (u ^ 2 * x ^ 2 + w ^ 2 * y ^ 2).
Lemma nrm_sq u w x y : nrm u w x y * nrm u w x y = u ^ 2 * x ^ 2 + w ^ 2 * y ^ 2.
Proof. unfold nrm. apply sqrt_sqrt. pose proof (pow2_ge_0 (u * x)). pose proof (pow2_ge_0 (w * y)). nra. Qed.
Lemma nrm_nn u w x y : 0 <= nrm u w x y. Proof. apply sqrt_pos. Qed.
Lemma nrm_comm u w x y : nrm u w x y = nrm w u y x. Proof. unfold nrm. f_equal. ring. Qed.
Lemma wdiff u w B b d : 0 < u -> 0 <= w <= u -> 0 < d -> 101/2 * d <= B -> 0 <= b <= B ->
  50/101 * d * nrm u w 1 1 <= nrm u w B b - nrm u w (B - d) b.
Proof.
  intros Hu Hw Hd HB Hb. set (S := nrm u w 1 1). set (X := nrm u w B b). set (Y := nrm u w (B - d) b).
  assert (HS : S * S = u ^ 2 + w ^ 2) by (unfold S; rewrite nrm_sq; ring). assert (HX : X * X = u ^ 2 * B ^ 2 + w ^ 2 * b ^ 2) by apply nrm_sq. assert (HY : Y * Y = u ^ 2 * (B - d) ^ 2 + w ^ 2 * b ^ 2) by apply nrm_sq.
  assert (S0 : 0 <= S) by apply nrm_nn. assert (X0 : 0 <= X) by apply nrm_nn. assert (Y0 : 0 <= Y) by apply nrm_nn. clearbody S X Y.
  assert (SP : 0 < S) by nra. assert (BP : 0 < B) by lra.
  assert (LX : X <= B * S). { apply Rsqr_incr_0_var; [|nra]. unfold Rsqr. replace (B * S * (B * S)) with (B ^ 2 * (S * S)) by ring. rewrite HX, HS. assert (b ^ 2 <= B ^ 2) by nra. pose proof (pow2_ge_0 w). nra. }
  assert (YX : Y <= X). { apply Rsqr_incr_0_var; [|lra]. unfold Rsqr. rewrite HX, HY. pose proof (pow2_ge_0 u). nra. }
  assert (E : (X - Y) * (X + Y) = u ^ 2 * d * (2 * B - d)) by (replace ((X - Y) * (X + Y)) with (X * X - Y * Y) by ring; rewrite HX, HY; ring).
  assert (L1 : u ^ 2 * d * (2 * B - d) <= (X - Y) * (2 * (B * S))) by (rewrite <- E; apply Rmult_le_compat_l; lra).
  assert (L2 : 50/101 * d * S * (2 * (B * S)) <= u ^ 2 * d * (2 * B - d)).
  { replace (50/101 * d * S * (2 * (B * S))) with (100/101 * d * B * (S * S)) by field. rewrite HS. assert (w ^ 2 <= u ^ 2) by nra. assert (0 < d * B) by nra. assert (200/101 * B <= 2 * B - d) by lra.
    apply Rle_trans with (100/101 * d * B * (2 * u ^ 2)); [apply Rmult_le_compat_l; nra|]. replace (100 / 101 * d * B * (2 * u ^ 2)) with (u ^ 2 * d * (200/101 * B)) by field. apply Rmult_le_compat_l; nra. }
  apply (Rmult_le_reg_r (2 * (B * S))); [nra|]. lra.
Qed.
Lemma wdiff_abs u w x y d : 0 < u -> 0 <= w <= u -> 0 < d -> 101/2 * d <= Rabs x -> Rabs y <= Rabs x ->
  50/101 * d * nrm u w 1 1 <= Rabs (nrm u w (x + d) y - nrm u w x y).
Proof.
  intros Hu Hw Hd HB Hb. assert (Q : forall z a, nrm u w z a = nrm u w (Rabs z) (Rabs a)).
  { intros z a. unfold nrm. f_equal. now rewrite !pow2_abs. }
  pose proof (Rabs_pos y) as Py. rewrite (Q x y). destruct (Rle_dec 0 x) as [L|L].
  - rewrite (Q (x + d) y). rewrite (Rabs_right (x + d)), (Rabs_right x) in * by lra. pose proof (wdiff u w (x + d) (Rabs y) d Hu Hw Hd ltac:(lra) ltac:(lra)) as D. replace (x + d - d) with x in D by ring.
    eapply Rle_trans; [exact D|apply Rle_abs].
  - pose proof (wdiff u w (Rabs x) (Rabs y) d Hu Hw Hd HB (conj Py Hb)) as D. rewrite (Q (x + d) y). rewrite (Rabs_left x) in * by lra. replace (Rabs (x + d)) with (- x - d) by (rewrite Rabs_left; lra).
    rewrite Rabs_minus_sym. eapply Rle_trans; [exact D|apply Rle_abs].
Qed.
Lemma nrm_box u w x y c : 0 <= c -> Rabs x <= c -> Rabs y <= c -> nrm u w x y <= c * nrm u w 1 1.
Proof.
  intros Hc Hx Hy. apply Rsqr_incr_0_var; [|pose proof (nrm_nn u w 1 1); nra]. unfold Rsqr. replace (c * nrm u w 1 1 * (c * nrm u w 1 1)) with (c ^ 2 * (nrm u w 1 1 * nrm u w 1 1)) by ring. rewrite !nrm_sq.
  assert (x ^ 2 <= c ^ 2) by (rewrite <- (pow2_abs x); pose proof (Rabs_pos x); nra). assert (y ^ 2 <= c ^ 2) by (rewrite <- (pow2_abs y); pose proof (Rabs_pos y); nra). pose proof (pow2_ge_0 u). pose proof (pow2_ge_0 w). nra.
Qed.
Lemma mod_nrm e x y : 0 < e_rx e -> 0 < e_ry e -> e_rx e = e_ry e \/ e_clock e = 0 -> Cmod (mm e x y) = nrm (/ e_rx e) (/ e_ry e) x y.
Proof.
  intros H1 H2 [E|E]; unfold Cmod, mm, nrm; cbn [fst snd]; f_equal.
  - rewrite <- E. pose proof (sin2_cos2 (ell_rad e)) as T. unfold Rsqr in T. set (c := cos (ell_rad e)) in *. set (s := sin (ell_rad e)) in *.
    replace (((c * x + s * y) / e_rx e) ^ 2 + ((s * x - c * y) / e_rx e) ^ 2) with ((/ e_rx e) ^ 2 * ((s * s + c * c) * (x ^ 2 + y ^ 2))) by (field; lra). rewrite T. ring.
  - unfold ell_rad. rewrite E, Rmult_0_r, cos_0, sin_0. field. lra.
Qed.
Lemma framed_covers e : proper_ell e -> e_mag e = 1 -> well_framed e -> window_covers e.
Proof.
  intros P M F. destruct P as [Pc Pn Pb Px Py Pm].
  assert (D0 : 0 < / e_nbeam e) by now apply Rinv_0_lt_compat.
  assert (U0 : 0 < / e_rx e) by now apply Rinv_0_lt_compat. assert (W0 : 0 < / e_ry e) by now apply Rinv_0_lt_compat.
  assert (NR : e_rx e = e_ry e \/ e_clock e = 0) by (destruct F as [(A & _)|[(A & _)|(A & _)]]; auto).
  assert (R00 : ell_rho e 0 0 = 1/2 * nrm (/ e_rx e) (/ e_ry e) (px_pos e 0 - e_xs e) (px_pos e 0 - e_ys e)).
  { unfold ell_rho. rewrite rhoup_mod, mod_nrm, M by auto. unfold ell_x, ell_y. rewrite !axis_pos. field. }
  assert (S1 : px_pos e 1 = px_pos e 0 + / e_nbeam e). { rewrite <- (dx_eq e Pb). unfold ell_dx, ell_x. rewrite !axis_pos. ring. }
  assert (R01 : ell_rho e 0 1 = 1/2 * nrm (/ e_rx e) (/ e_ry e) (px_pos e 0 - e_xs e + / e_nbeam e) (px_pos e 0 - e_ys e)).
  { unfold ell_rho. rewrite rhoup_mod, mod_nrm, M by auto. unfold ell_x, ell_y. rewrite !axis_pos, S1. replace (px_pos e 0 + / e_nbeam e - e_xs e) with (px_pos e 0 - e_xs e + / e_nbeam e) by ring. field. }
  assert (R10 : ell_rho e 1 0 = 1/2 * nrm (/ e_rx e) (/ e_ry e) (px_pos e 0 - e_xs e) (px_pos e 0 - e_ys e + / e_nbeam e)).
  { unfold ell_rho. rewrite rhoup_mod, mod_nrm, M by auto. unfold ell_x, ell_y. rewrite !axis_pos, S1. replace (px_pos e 0 + / e_nbeam e - e_ys e) with (px_pos e 0 - e_ys e + / e_nbeam e) by ring. field. }
  assert (KEY : 50/101 * / e_nbeam e * nrm (/ e_rx e) (/ e_ry e) 1 1 <= 2 * ell_half_window e).
  { set (x0 := px_pos e 0 - e_xs e) in *. set (y0 := px_pos e 0 - e_ys e) in *. set (u := / e_rx e) in *. set (w := / e_ry e) in *. set (d := / e_nbeam e) in *.
    assert (CX : 101/2 * d <= Rabs x0 -> Rabs y0 <= Rabs x0 -> w <= u -> 50/101 * d * nrm u w 1 1 <= 2 * ell_half_window e).
    { intros A B C. pose proof (wdiff_abs u w x0 y0 d U0 ltac:(lra) D0 A B) as K. unfold ell_half_window. rewrite R01, R00, R10. rewrite <- !Rmult_minus_distr_l, !Rabs_mult, !(Rabs_right (1/2)) by lra.
      match goal with |- _ <= 2 * Rmax ?a ?b => pose proof (Rmax_r a b) end. lra. }
    assert (CY : 101/2 * d <= Rabs y0 -> Rabs x0 <= Rabs y0 -> u <= w -> 50/101 * d * nrm u w 1 1 <= 2 * ell_half_window e).
    { intros A B C. pose proof (wdiff_abs w u y0 x0 d W0 ltac:(lra) D0 A B) as K. rewrite !(nrm_comm w u) in K. unfold ell_half_window. rewrite R01, R00, R10. rewrite <- !Rmult_minus_distr_l, !Rabs_mult, !(Rabs_right (1/2)) by lra.
      match goal with |- _ <= 2 * Rmax ?a ?b => pose proof (Rmax_l a b) end. lra. }
    unfold well_framed in F. cbv zeta in F. fold x0 y0 d in F. destruct F as [(E & H)|[(_ & E & H1 & H2)|(_ & E & H1 & H2)]].
    - assert (u = w) by (unfold u, w; now rewrite E). destruct (Rle_dec (Rabs y0) (Rabs x0)) as [L|L]; [apply CX|apply CY]; lra.
    - apply CX; auto. now apply Rinv_le_contravar.
    - apply CY; auto. now apply Rinv_le_contravar. }
  intros dx dy Hx Hy. rewrite mod_nrm by auto. unfold Rdiv in Hx, Hy. fold (50 / 101) in Hx, Hy. pose proof (nrm_box (/ e_rx e) (/ e_ry e) dx dy (50/101 * / e_nbeam e) ltac:(nra) Hx Hy). lra.
Qed.
(* the ellipse turned by 45 degrees whose two first differences vanish *)
Lemma mm45 e x y : e_clock e = 45 -> mm e x y = (/ sqrt 2 * (x + y) / e_rx e, / sqrt 2 * (x - y) / e_ry e).
Proof.
  intros E. unfold mm, ell_rad. rewrite E. replace (PI / 180 * 45) with (PI / 4) by field. rewrite cos_PI4, sin_PI4. f_equal; unfold Rdiv; ring.
Qed.
Lemma mod45 e x y : e_clock e = 45 -> 0 < e_rx e -> 0 < e_ry e -> Cmod (mm e x y) = sqrt (((x + y) / e_rx e) ^ 2 / 2 + ((x - y) / e_ry e) ^ 2 / 2).
Proof.
  intros E H1 H2. rewrite mm45 by auto. unfold Cmod. cbn [fst snd]. f_equal. pose proof (sqrt_lt_R0 2 ltac:(lra)) as P. pose proof (sqrt_sqrt 2 ltac:(lra)) as Q.
  replace ((/ sqrt 2 * (x + y) / e_rx e) ^ 2) with (((x + y) / e_rx e) ^ 2 / (sqrt 2 * sqrt 2)) by (field; lra). replace ((/ sqrt 2 * (x - y) / e_ry e) ^ 2) with (((x - y) / e_ry e) ^ 2 / (sqrt 2 * sqrt 2)) by (field; lra). now rewrite Q.
Qed.
Definition tilted (nbeam : R) (k : nat) (ry : R) : ell := mke nbeam ((k * k + 1) / 2) (INR k * ry) ry "pixel" 45 0 0 1.
Lemma tilted_window nbeam k ry : 0 < nbeam -> Nat.odd k = true -> 0 < ry -> ell_half_window (tilted nbeam k ry) = 0.
Proof.
  intros Hb Ho Hr. set (e := tilted nbeam k ry). assert (K0 : (1 <= k)%nat) by (destruct k; [discriminate|lia]). assert (KP : 1 <= INR k) by (apply (le_INR 1); auto).
  assert (N2 : 2 * INR (e_narray e) = INR k ^ 2 + 1).
  { unfold e, tilted. cbn [e_narray]. apply Nat.odd_spec in Ho. destruct Ho as (h & ->). replace (((2 * h + 1) * (2 * h + 1) + 1) / 2)%nat with (2 * h * h + 2 * h + 1)%nat.
    2:{ apply Nat.div_unique with 0%nat; [lia|ring]. } rewrite !plus_INR, !mult_INR. cbn [INR]. ring. }
  assert (PX : forall j, ell_x e j = (INR j - INR (e_narray e) / 2) / nbeam) by (intros j; unfold ell_x; rewrite axis_pos; unfold px_pos, e, tilted; cbn [e_centering e_xs e_nbeam]; cbn [String.eqb Ascii.eqb Bool.eqb]; ring).
  assert (PY : forall j, ell_y e j = (INR j - INR (e_narray e) / 2) / nbeam) by (intros j; unfold ell_y; rewrite axis_pos; unfold px_pos, e, tilted; cbn [e_centering e_ys e_nbeam]; cbn [String.eqb Ascii.eqb Bool.eqb]; ring).
  assert (RX : e_rx e = INR k * ry) by reflexivity. assert (RY : e_ry e = ry) by reflexivity. assert (P1 : 0 < e_rx e) by (rewrite RX; nra). assert (P2 : 0 < e_ry e) by (rewrite RY; auto).
  assert (R : forall i j, ell_rho e i j = 1/2 * sqrt (((ell_x e j + ell_y e i) / e_rx e) ^ 2 / 2 + ((ell_x e j - ell_y e i) / e_ry e) ^ 2 / 2)).
  { intros i j. unfold ell_rho. rewrite rhoup_mod, mod45 by auto. change (e_mag e) with 1. field. }
  assert (A : forall i j, (i, j) = (1, 0)%nat \/ (i, j) = (0, 1)%nat -> ell_rho e i j = ell_rho e 0 0).
  { intros i j H. rewrite !R, !PX, !PY, RX, RY. do 2 f_equal. set (N := INR (e_narray e)) in *. clearbody N. replace N with ((INR k ^ 2 + 1) / 2) by lra.
    destruct H as [H|H]; injection H as -> ->; cbn [INR]; field; repeat split; lra. }
  unfold ell_half_window. rewrite (A 1%nat 0%nat), (A 0%nat 1%nat) by auto. rewrite Rminus_eq_0, Rabs_R0. apply Rmax_left. lra.
Qed.
