From Verif Require Import Base StrBase RBase CtrlModel UtilModel DmSurfModel CubModel CubProofs DmcModel CBase PropModel PropProofs OptModel ErrModel ErrSpec MagModel MagSpec MagProofs.
From Coq Require Import Machin.
Open Scope R_scope.
Lemma pi_up : PI < 31427 / 10000.
Proof.
  pose proof (PI_2_3_7_ineq 1) as [_ H]. unfold PI_2_3_7_tg, tg_alt, Ratan_seq in H. simpl in H. lra.
Qed.
Lemma pi_lo : 3 < PI. Proof. pose proof (PI_2_3_7_ineq 1) as [H _]. unfold PI_2_3_7_tg, tg_alt, Ratan_seq in H. simpl in H. lra. Qed.
Lemma sqrt_lo a b : 0 <= b -> b * b <= a -> b <= sqrt a.
Proof. intros H1 H2. rewrite <- (sqrt_square b H1). apply sqrt_le_1_alt, H2. Qed.
Lemma sqrt_up a b : 0 <= b -> a <= b * b -> sqrt a <= b.
Proof. intros H1 H2. rewrite <- (sqrt_square b H1). apply sqrt_le_1_alt, H2. Qed.
Definition s15 := (sqrt 3 - 1) / (2 * sqrt 2).
Definition s75 := (sqrt 3 + 1) / (2 * sqrt 2).
Definition s45 := 1 / sqrt 2.
Lemma r2 : sqrt 2 * sqrt 2 = 2. Proof. apply sqrt_sqrt. lra. Qed.
Lemma r2p : 0 < sqrt 2. Proof. apply sqrt_lt_R0. lra. Qed.
Lemma sin15 : sin (PI / 12) = s15.
Proof. replace (PI / 12) with (PI / 4 - PI / 6) by field. rewrite sin_minus, sin_PI4, cos_PI4, cos_PI6, sin_PI6. unfold s15. pose proof r2p. field. lra. Qed.
Lemma sin75 : sin (5 * PI / 12) = s75.
Proof. replace (5 * PI / 12) with (PI / 4 + PI / 6) by field. rewrite sin_plus, sin_PI4, cos_PI4, cos_PI6, sin_PI6. unfold s75. pose proof r2p. field. lra. Qed.
Lemma sinc_neg t : sinc (- t) = sinc t.
Proof.
  unfold sinc. destruct (Req_EM_T (- t) 0), (Req_EM_T t 0); try lra. replace (PI * - t) with (- (PI * t)) by ring. rewrite sin_neg. pose proof PI_RGT_0. field. lra.
Qed.
Lemma lanczos_neg t : lanczos6 (- t) = lanczos6 t.
Proof. unfold lanczos6. rewrite Rabs_Ropp. replace (- t / 6) with (- (t / 6)) by field. rewrite !sinc_neg. reflexivity. Qed.
Lemma lanczos_val t s s' : 0 < t < 6 -> sin (PI * t) = s -> sin (PI * t / 6) = s' -> lanczos6 t = 6 * s * s' / (PI * PI * t * t).
Proof.
  intros H E E'. unfold lanczos6. rewrite Rabs_right by lra. destruct (Rlt_dec t 6); [|lra]. unfold sinc. destruct (Req_EM_T t 0); [lra|]. destruct (Req_EM_T (t / 6) 0); [lra|].
  replace (PI * (t / 6)) with (PI * t / 6) by field. rewrite E, E'. pose proof PI_RGT_0. field. lra.
Qed.
Definition halves : R := lanczos6 (1/2) + lanczos6 (3/2) + lanczos6 (5/2) + lanczos6 (7/2) + lanczos6 (9/2) + lanczos6 (11/2).
Lemma sin_odd k : sin (PI / 2 + 2 * INR k * PI) = 1. Proof. rewrite sin_period. apply sin_PI2. Qed.
Lemma sin_odd' k : sin (3 * (PI / 2) + 2 * INR k * PI) = -1. Proof. rewrite sin_period. apply sin_3PI2. Qed.
Lemma sin_sup x : sin (PI - x) = sin x. Proof. rewrite sin_minus, sin_PI, cos_PI. ring. Qed.
Lemma halves_val : halves = 24 / (PI * PI) * (s15 * (1 - / 121) - s45 * (/ 9 - / 81) + s75 * (/ 25 - / 49)).
Proof.
  unfold halves.
  rewrite (lanczos_val (1/2) 1 s15), (lanczos_val (3/2) (-1) s45), (lanczos_val (5/2) 1 s75), (lanczos_val (7/2) (-1) s75), (lanczos_val (9/2) 1 s45), (lanczos_val (11/2) (-1) s15).
  - unfold s45. pose proof PI_RGT_0. pose proof r2p. field. lra.
  - lra.
  - transitivity (sin (3 * (PI / 2) + 2 * INR 2 * PI)); [f_equal; simpl; field|apply sin_odd'].
  - rewrite <- sin15, <- sin_sup. f_equal. field.
  - lra.
  - transitivity (sin (PI / 2 + 2 * INR 2 * PI)); [f_equal; simpl; field|apply sin_odd].
  - unfold s45. rewrite <- sin_PI4, <- sin_sup. f_equal. field.
  - lra.
  - transitivity (sin (3 * (PI / 2) + 2 * INR 1 * PI)); [f_equal; simpl; field|apply sin_odd'].
  - rewrite <- sin75, <- sin_sup. f_equal. field.
  - lra.
  - transitivity (sin (PI / 2 + 2 * INR 1 * PI)); [f_equal; simpl; field|apply sin_odd].
  - rewrite <- sin75. f_equal. field.
  - lra.
  - transitivity (sin (3 * (PI / 2))); [f_equal; field|apply sin_3PI2].
  - unfold s45. rewrite <- sin_PI4. f_equal. field.
  - lra.
  - transitivity (sin (PI / 2)); [f_equal; field|apply sin_PI2].
  - rewrite <- sin15. f_equal. field.
Qed.
Lemma halves_large : 1 / 2 < halves.
Proof.
  rewrite halves_val. pose proof pi_up as P. pose proof pi_lo as P0. pose proof r2p as Q.
  assert (A : 1732050 / 1000000 <= sqrt 3) by (apply sqrt_lo; lra). assert (B : sqrt 2 <= 1414214 / 1000000) by (apply sqrt_up; lra).
  assert (N : 48 * (s15 * (1 - / 121) - s45 * (/ 9 - / 81) + s75 * (/ 25 - / 49)) > 98766 / 10000).
  { unfold s15, s45, s75. apply Rmult_lt_reg_r with (sqrt 2); [exact Q|].
    replace (48 * _ * sqrt 2) with (48 * ((sqrt 3 - 1) / 2 * (1 - / 121) - (/ 9 - / 81) + (sqrt 3 + 1) / 2 * (/ 25 - / 49))) by (field; lra). lra. }
  assert (M : PI * PI < 98766 / 10000) by nra. apply Rmult_lt_reg_r with (PI * PI); [nra|]. set (X := _ + _) in *. replace (24 / (PI * PI) * X * (PI * PI)) with (24 * X) by (field; lra). lra.
Qed.
