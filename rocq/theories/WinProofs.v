(* Proofs about the tapered window of the vortex propagation. *)
From Coquelicot Require Import Coquelicot.
From Verif Require Import Base RBase OptModel WinSpec.
Open Scope R_scope.

Lemma cos_neg_arg x : cos (- x) = cos x. Proof. apply cos_neg. Qed.
Lemma ideal_range a r : 0 <= ideal_window a r <= 1.
Proof. unfold ideal_window. destruct (Rle_dec r (1 - a)); [lra|]. pose proof (COS_bound (PI * ((r - (1 - a)) / a))). lra. Qed.
(* samples of the lookup table *)
Lemma tukey_ideal M a n : (2 <= M)%nat -> 0 < a <= 1 -> (n < M)%nat -> tukey M a n = ideal_window a (Rabs (2 * INR n / (INR M - 1) - 1)).
Proof.
  intros HM Ha Hn. assert (HMR : 2 <= INR M) by (change 2 with (INR 2); now apply le_INR). assert (Hm : 0 < INR M - 1) by lra.
  assert (HnR : INR n <= INR M - 1). { replace (INR M - 1) with (INR (M - 1)) by (rewrite minus_INR by lia; cbn; lra). apply le_INR. lia. } assert (Hn0 : 0 <= INR n) by apply pos_INR.
  unfold tukey. destruct (Nat.eqb_spec M 1); [lia|]. destruct (Rle_dec a 0); [lra|]. set (m := INR M - 1) in *. set (t := 2 * INR n / m).
  assert (Ht : 0 <= t <= 2). { unfold t. split; [apply Rmult_le_pos; [lra|left; now apply Rinv_0_lt_compat]|]. apply Rmult_le_reg_r with m; auto. unfold Rdiv. rewrite Rmult_assoc, Rinv_l by lra. lra. }
  destruct (Rle_dec 1 a).
  - assert (a = 1) by lra. subst a. unfold ideal_window. replace (2 * PI * INR n / m) with (PI * t) by (unfold t; field; lra).
    destruct (Rle_dec (Rabs (t - 1)) (1 - 1)) as [H|H].
    + assert (t = 1). { pose proof (Rabs_pos (t - 1)). assert (Rabs (t - 1) = 0) by lra. destruct (Req_dec (t - 1) 0); [lra|]. now apply Rabs_no_R0 in H2. } rewrite H0, Rmult_1_r, cos_PI. lra.
    + replace (PI * ((Rabs (t - 1) - (1 - 1)) / 1)) with (PI * Rabs (t - 1)) by field.
      assert (cos (PI * Rabs (t - 1)) = - cos (PI * t)). { unfold Rabs. destruct (Rcase_abs (t - 1)).
        - replace (PI * - (t - 1)) with (- (PI * t) + PI) by ring. rewrite neg_cos, cos_neg. reflexivity.
        - replace (PI * (t - 1)) with (- (- (PI * t) + PI)) by ring. rewrite cos_neg, neg_cos, cos_neg. reflexivity. } lra.
  - set (z := Int_part (a * m / 2)). assert (Hz : IZR z <= a * m / 2 < IZR z + 1). { unfold z. destruct (base_Int_part (a * m / 2)). lra. }
    assert (Hz0 : (0 <= z)%Z). { assert (0 <= a * m / 2) by (apply Rmult_le_pos; [apply Rmult_le_pos; lra|lra]). apply Z.le_ngt. intros Hlt. assert (IZR z <= -1) by (apply IZR_le; lia). lra. }
    assert (Hw : INR (Z.to_nat z) = IZR z) by (rewrite INR_IZR_INZ, Z2Nat.id by auto; reflexivity).
    assert (Hlt : 2 * IZR z < m). { assert (a * m < 1 * m) by (apply Rmult_lt_compat_r; lra). lra. }
    assert (Hnn : (2 * (Z.to_nat z) + 1 < M)%nat). { apply INR_lt. rewrite plus_INR, mult_INR, Hw. cbn. unfold m in Hlt. lra. }
    assert (HE : INR (M - Z.to_nat z - 1) = m - IZR z). { rewrite !minus_INR by lia. rewrite Hw. unfold m. cbn. ring. }
    assert (TA : 2 * INR n / a / m = t / a) by (unfold t; field; lra).
    destruct (Nat.leb_spec n (Z.to_nat z)) as [H|H].
    + apply le_INR in H. rewrite Hw in H. assert (Hta : t <= a). { unfold t. apply Rmult_le_reg_r with m; auto. unfold Rdiv. rewrite Rmult_assoc, Rinv_l by lra. lra. }
      unfold ideal_window. rewrite TA. rewrite Rabs_left1 by lra. destruct (Rle_dec (- (t - 1)) (1 - a)).
      * assert (t = a) by lra. rewrite H0. replace (-1 + a / a) with 0 by (field; lra). rewrite Rmult_0_r, cos_0. lra.
      * do 2 f_equal. rewrite <- cos_neg. f_equal. field. lra.
    + assert (IZR z + 1 <= INR n). { rewrite <- Hw, <- S_INR. apply le_INR. lia. }
      assert (Hta : a < t). { unfold t. apply Rmult_lt_reg_r with m; auto. unfold Rdiv. rewrite Rmult_assoc, Rinv_l by lra. lra. }
      destruct (Nat.ltb_spec n (M - Z.to_nat z - 1)) as [H1|H1].
      * assert (INR n <= m - IZR z - 1). { rewrite <- HE. assert (INR n + 1 <= INR (M - Z.to_nat z - 1)) by (rewrite <- S_INR; apply le_INR; lia). lra. }
        assert (t <= 2 - a). { unfold t. apply Rmult_le_reg_r with m; auto. unfold Rdiv. rewrite Rmult_assoc, Rinv_l by lra. assert (a * m / 2 < IZR z + 1) by lra. lra. }
        unfold ideal_window. destruct (Rle_dec (Rabs (t - 1)) (1 - a)); auto. exfalso. apply n3. apply Rabs_le. lra.
      * apply le_INR in H1. rewrite HE in H1. assert (2 - a <= t). { unfold t. apply Rmult_le_reg_r with m; auto. unfold Rdiv. rewrite Rmult_assoc, Rinv_l by lra. lra. }
        unfold ideal_window. rewrite TA, Rabs_right by lra. destruct (Rle_dec (t - 1) (1 - a)).
        -- assert (t = 2 - a) by lra. rewrite H3. replace (- 2 / a + 1 + (2 - a) / a) with 0 by (field; lra). rewrite Rmult_0_r, cos_0. lra.
        -- do 2 f_equal. f_equal. field. lra.
Qed.
(* piecewise linear interpolation on increasing abscissae *)
Lemma interp_cons x x0 x1 xt f0 f1 ft : np_interp x (x0 :: x1 :: xt) (f0 :: f1 :: ft) = if Rlt_dec x x0 then f0 else if Rlt_dec x x1 then f0 + (f1 - f0) / (x1 - x0) * (x - x0) else np_interp x (x1 :: xt) (f1 :: ft).
Proof. reflexivity. Qed.
Lemma interp_low X F n b x : (1 <= n)%nat -> x < X b -> np_interp x (map X (seq b n)) (map F (seq b n)) = F b.
Proof. intros Hn Hx. destruct n as [|[|n]]; [lia|reflexivity|]. cbn [seq map]. rewrite interp_cons. now destruct (Rlt_dec x (X b)). Qed.
Lemma interp_high X F n b x : (forall k, (b <= k)%nat -> (S k < b + S n)%nat -> X k <= X (S k)) -> X (b + n)%nat <= x -> np_interp x (map X (seq b (S n))) (map F (seq b (S n))) = F (b + n)%nat.
Proof.
  revert b. induction n as [|n IH]; intros b HX Hx; [now rewrite Nat.add_0_r|]. cbn [seq map]. rewrite interp_cons.
  assert (HM : forall m, (m <= S n)%nat -> X b <= X (b + m)%nat). { induction m as [|m IHm]; intros Hm; [rewrite Nat.add_0_r; lra|]. apply Rle_trans with (X (b + m)%nat); [apply IHm; lia|]. replace (b + S m)%nat with (S (b + m)) by lia. apply HX; lia. }
  assert (HM1 : forall m, (m <= n)%nat -> X (S b) <= X (S b + m)%nat). { induction m as [|m IHm]; intros Hm; [rewrite Nat.add_0_r; lra|]. apply Rle_trans with (X (S b + m)%nat); [apply IHm; lia|]. replace (S b + S m)%nat with (S (S b + m)) by lia. apply HX; lia. }
  specialize (HM (S n) (le_n _)). specialize (HM1 n (le_n _)). replace (S b + n)%nat with (b + S n)%nat in HM1 by lia. destruct (Rlt_dec x (X b)); [lra|]. destruct (Rlt_dec x (X (S b))); [lra|].
  change (X (S b) :: map X (seq (S (S b)) n)) with (map X (seq (S b) (S n))). change (F (S b) :: map F (seq (S (S b)) n)) with (map F (seq (S b) (S n))). rewrite IH; [f_equal; lia| |replace (S b + n)%nat with (b + S n)%nat by lia; auto]. intros k H1 H2. apply HX; lia.
Qed.
Lemma interp_between X F n b x k : (forall k, (b <= k)%nat -> (S k < b + n)%nat -> X k < X (S k)) -> (b <= k)%nat -> (S k < b + n)%nat -> X k <= x <= X (S k) ->
  np_interp x (map X (seq b n)) (map F (seq b n)) = F k + (F (S k) - F k) / (X (S k) - X k) * (x - X k).
Proof.
  revert b. induction n as [|n IH]; intros b HX Hb Hk Hx; [lia|]. destruct n as [|n]; [lia|]. cbn [seq map]. rewrite interp_cons.
  destruct (Nat.eq_dec b k) as [->|Hne].
  - destruct (Rlt_dec x (X k)); [lra|]. destruct (Rlt_dec x (X (S k))); [reflexivity|]. assert (Ex : x = X (S k)) by lra. assert (X k < X (S k)) by (apply HX; lia).
    transitivity (F (S k)); [|rewrite Ex; field; lra]. destruct n as [|n]; [reflexivity|]. cbn [seq map]. rewrite interp_cons. rewrite Ex. destruct (Rlt_dec (X (S k)) (X (S k))); [lra|]. assert (X (S k) < X (S (S k))) by (apply HX; lia). destruct (Rlt_dec (X (S k)) (X (S (S k)))); [field; lra|lra].
  - assert (HM1 : forall m, (S b + m <= k)%nat -> X (S b) <= X (S b + m)%nat). { induction m as [|m IHm]; intros Hm; [rewrite Nat.add_0_r; lra|]. apply Rle_trans with (X (S b + m)%nat); [apply IHm; lia|]. replace (S b + S m)%nat with (S (S b + m)) by lia. left. apply HX; lia. }
    specialize (HM1 (k - S b)%nat). replace (S b + (k - S b))%nat with k in HM1 by lia. specialize (HM1 (le_n _)). assert (X b < X (S b)) by (apply HX; lia).
    destruct (Rlt_dec x (X b)); [lra|]. destruct (Rlt_dec x (X (S b))); [lra|].
    change (X (S b) :: map X (seq (S (S b)) n)) with (map X (seq (S b) (S n))). change (F (S b) :: map F (seq (S (S b)) n)) with (map F (seq (S b) (S n))). apply IH; auto; try lia. intros j H1 H2. apply HX; lia.
Qed.
Lemma sin_le_abs x : Rabs (sin x) <= Rabs x.
Proof.
  destruct (Rle_dec 0 x) as [H|H].
  - rewrite (Rabs_right x) by lra. destruct (Req_dec x 0) as [->|]; [rewrite sin_0, Rabs_R0; lra|]. assert (sin x < x) by (apply sin_lt_x; lra). apply Rabs_le. split; [|lra]. destruct (Rle_dec x PI); [assert (0 <= sin x) by (apply sin_ge_0; lra); lra|]. pose proof (SIN_bound x). assert (1 < x) by (pose proof PI_RGT_0; pose proof PI2_1; lra). lra.
  - rewrite (Rabs_left x) by lra. assert (sin (- x) < - x) by (apply sin_lt_x; lra). rewrite sin_neg in H0. apply Rabs_le. split; [lra|]. destruct (Rle_dec (- x) PI); [assert (0 <= sin (- x)) by (apply sin_ge_0; lra); rewrite sin_neg in H1; lra|]. pose proof (SIN_bound x). assert (1 < - x) by (pose proof PI2_1; lra). lra.
Qed.
Lemma cos_lip x y : Rabs (cos x - cos y) <= Rabs (x - y).
Proof.
  rewrite form2, !Rabs_mult, (Rabs_left (-2)) by lra. pose proof (sin_le_abs ((x - y) / 2)) as H. assert (Rabs (sin ((x + y) / 2)) <= 1) by (apply Rabs_le; pose proof (SIN_bound ((x + y) / 2)); lra).
  assert (Rabs ((x - y) / 2) = Rabs (x - y) / 2) by (unfold Rdiv; rewrite Rabs_mult, (Rabs_right (/ 2)) by lra; reflexivity). pose proof (Rabs_pos (sin ((x - y) / 2))). pose proof (Rabs_pos (sin ((x + y) / 2))). nra.
Qed.
Lemma ideal_lip a r s : 0 < a -> Rabs (ideal_window a r - ideal_window a s) <= PI / (2 * a) * Rabs (r - s).
Proof.
  intros Ha. assert (E : forall r, ideal_window a r = / 2 * (1 + cos (PI * (Rmax 0 (r - (1 - a)) / a)))).
  { intros q. unfold ideal_window. destruct (Rle_dec q (1 - a)); [rewrite Rmax_left by lra; unfold Rdiv; rewrite Rmult_0_l, Rmult_0_r, cos_0; lra|rewrite Rmax_right by lra; reflexivity]. }
  rewrite !E. set (u := Rmax 0 (r - (1 - a))). set (v := Rmax 0 (s - (1 - a))).
  assert (Huv : Rabs (u - v) <= Rabs (r - s)). { unfold u, v, Rmax. destruct (Rle_dec 0 (r - (1 - a))), (Rle_dec 0 (s - (1 - a))); unfold Rabs; repeat destruct (Rcase_abs _); lra. }
  replace (/ 2 * (1 + cos (PI * (u / a))) - / 2 * (1 + cos (PI * (v / a)))) with (/ 2 * (cos (PI * (u / a)) - cos (PI * (v / a)))) by ring. rewrite Rabs_mult, (Rabs_right (/ 2)) by lra.
  pose proof (cos_lip (PI * (u / a)) (PI * (v / a))) as HC. replace (PI * (u / a) - PI * (v / a)) with (PI / a * (u - v)) in HC by (field; lra). assert (0 < PI / a) by (apply Rdiv_lt_0_compat; [apply PI_RGT_0|auto]). rewrite Rabs_mult, (Rabs_right (PI / a)) in HC by lra.
  replace (PI / (2 * a)) with (/ 2 * (PI / a)) by (field; lra). apply Rle_trans with (/ 2 * (PI / a * Rabs (u - v))); [lra|]. nra.
Qed.

(* the window *)
Definition nlut (Nw : R) : nat := Z.to_nat (Int_part (10 * Nw)).
Lemma nlut_ge Nw : / 5 <= Nw -> (2 <= nlut Nw)%nat.
Proof.
  intros H. unfold nlut. destruct (base_Int_part (10 * Nw)) as [H1 H2]. assert (HZ : (2 <= Int_part (10 * Nw))%Z). { apply Z.lt_pred_le. apply lt_IZR. change (IZR (Z.pred 2)) with 1. lra. } lia.
Qed.
Section Win.
  Variables (Nw a : R).
  Hypotheses (HN : / 5 <= Nw) (Ha : 0 < a <= 1).
  Let n := nlut Nw.
  Let X k := - Nw / 2 + INR k * (Nw / (INR n - 1)).
  Let st := Nw / (INR n - 1).
  Let F := tukey n a.
  Let n2 : (2 <= n)%nat := nlut_ge Nw HN.
  Lemma m_pos : 1 <= INR n - 1. Proof. assert (INR 2 <= INR n) by (apply le_INR; exact n2). change (INR 2) with 2 in H. lra. Qed.
  Lemma st_pos : 0 < st. Proof. pose proof m_pos. unfold st. apply Rdiv_lt_0_compat; lra. Qed.
  Lemma X_S k : X (S k) = X k + st. Proof. unfold X, st. rewrite S_INR. ring. Qed.
  Lemma X_inc k : X k < X (S k). Proof. rewrite X_S. pose proof st_pos. lra. Qed.
  Lemma X_0 : X 0 = - Nw / 2. Proof. unfold X. cbn. ring. Qed.
  Lemma X_last : X (n - 1) = Nw / 2. Proof. pose proof m_pos. unfold X. rewrite minus_INR by (pose proof n2; lia). cbn [INR]. field. lra. Qed.
  Lemma win_unfold rho : tukey_window Nw a rho = np_interp rho (map X (seq 0 n)) (map F (seq 0 n)). Proof. reflexivity. Qed.
  Lemma F_ideal k : (k < n)%nat -> F k = ideal_window a (Rabs (2 * X k / Nw)).
  Proof. intros Hk. unfold F. rewrite tukey_ideal by auto using n2. do 2 f_equal. pose proof m_pos. unfold X. field. lra. Qed.
  Lemma F_sym k : (k < n)%nat -> F (n - 1 - k) = F k.
  Proof.
    intros Hk. rewrite !F_ideal by lia. f_equal. pose proof m_pos. replace (2 * X (n - 1 - k) / Nw) with (- (2 * X k / Nw)); [apply Rabs_Ropp|]. unfold X. rewrite !minus_INR by lia. cbn [INR]. field. lra.
  Qed.
  Lemma X_sym k : (k < n)%nat -> X (n - 1 - k) = - X k. Proof. intros Hk. pose proof m_pos. unfold X. rewrite !minus_INR by lia. cbn [INR]. field. lra. Qed.
  Lemma F_edge : F 0%nat = 0 /\ F (n - 1)%nat = 0.
  Proof.
    assert (F 0%nat = 0). { rewrite F_ideal by (pose proof n2; lia). rewrite X_0. replace (2 * (- Nw / 2) / Nw) with (-1) by (field; lra). rewrite Rabs_left by lra. unfold ideal_window. destruct (Rle_dec (- -1) (1 - a)); [lra|]. replace ((- -1 - (1 - a)) / a) with 1 by (field; lra). rewrite Rmult_1_r, cos_PI. lra. }
    split; [auto|]. replace (n - 1)%nat with (n - 1 - 0)%nat by lia. rewrite F_sym; [auto|pose proof n2; lia].
  Qed.
  (* the sample interval containing a point of the table *)
  Lemma locate rho : - Nw / 2 <= rho <= Nw / 2 -> exists k, (S k < n)%nat /\ X k <= rho <= X (S k).
  Proof.
    intros H. assert (G : forall m, (S m < n)%nat -> rho <= X (S m) -> exists k, (S k < n)%nat /\ X k <= rho <= X (S k)).
    { induction m as [|m IH]; intros Hm Hr; [exists 0%nat; split; [auto|]; split; [rewrite X_0; lra|auto]|]. destruct (Rle_dec rho (X (S m))); [apply IH; [lia|auto]|]. exists (S m). split; [auto|lra]. }
    pose proof n2. apply (G (n - 2)%nat); [lia|]. replace (S (n - 2)) with (n - 1)%nat by lia. rewrite X_last. lra.
  Qed.
  Lemma win_at rho k : (S k < n)%nat -> X k <= rho <= X (S k) -> tukey_window Nw a rho = F k + (F (S k) - F k) / st * (rho - X k).
  Proof. intros Hk Hr. rewrite win_unfold, (interp_between X F n 0 rho k); auto; try lia; [|intros; apply X_inc]. replace (X (S k) - X k) with st by (rewrite X_S; ring). reflexivity. Qed.
  Lemma win_convex rho k : (S k < n)%nat -> X k <= rho <= X (S k) -> exists t, 0 <= t <= 1 /\ rho = X k + t * st /\ tukey_window Nw a rho = (1 - t) * F k + t * F (S k).
  Proof.
    intros Hk Hr. pose proof st_pos. exists ((rho - X k) / st). rewrite X_S in Hr. split; [|split; [field; lra|]].
    - split; [apply Rmult_le_pos; [lra|left; now apply Rinv_0_lt_compat]|]. apply Rmult_le_reg_r with st; auto. unfold Rdiv. rewrite Rmult_assoc, Rinv_l by lra. lra.
    - rewrite (win_at rho k) by (rewrite ?X_S; auto). field. lra.
  Qed.
  Lemma win_outside rho : Nw / 2 <= Rabs rho -> tukey_window Nw a rho = 0.
  Proof.
    intros H. pose proof n2. destruct F_edge as [E0 E1]. rewrite win_unfold. unfold Rabs in H. destruct (Rcase_abs rho).
    - destruct (Req_dec rho (- Nw / 2)) as [E|]; [|rewrite interp_low; auto; [lia|rewrite X_0; lra]]. rewrite <- win_unfold, (win_at rho 0) by (rewrite ?X_S, ?X_0; pose proof st_pos; try lia; lra). rewrite X_0, E0, E. ring.
    - replace n with (S (n - 1)) by lia. rewrite interp_high; [exact E1|intros; left; apply X_inc|]. cbn [Nat.add]. rewrite X_last. lra.
  Qed.
  Lemma win_range rho : 0 <= tukey_window Nw a rho <= 1.
  Proof.
    destruct (Rle_dec (Nw / 2) (Rabs rho)); [rewrite win_outside; auto; lra|]. assert (Hr : - Nw / 2 <= rho <= Nw / 2) by (unfold Rabs in *; destruct (Rcase_abs rho); lra).
    destruct (locate rho Hr) as (k & Hk & Hx). destruct (win_convex rho k Hk Hx) as (t & Ht & _ & ->). rewrite !F_ideal by lia. pose proof (ideal_range a (Rabs (2 * X k / Nw))). pose proof (ideal_range a (Rabs (2 * X (S k) / Nw))). nra.
  Qed.
  Lemma win_even rho : tukey_window Nw a (- rho) = tukey_window Nw a rho.
  Proof.
    destruct (Rle_dec (Nw / 2) (Rabs rho)); [rewrite !win_outside; auto; now rewrite Rabs_Ropp|]. assert (Hr : - Nw / 2 <= rho <= Nw / 2) by (unfold Rabs in *; destruct (Rcase_abs rho); lra).
    destruct (locate rho Hr) as (k & Hk & Hx). pose proof (X_sym k ltac:(lia)) as S1. pose proof (X_sym (S k) ltac:(lia)) as S2. replace (n - 1 - k)%nat with (S (n - 1 - S k)) in S1 by lia. 
    rewrite (win_at rho k) by auto. rewrite (win_at (- rho) (n - 1 - S k)) by (try lia; lra). rewrite F_sym by lia. replace (S (n - 1 - S k)) with (n - 1 - k)%nat by lia. rewrite F_sym by lia. rewrite S2, X_S. pose proof st_pos. field. lra.
  Qed.
  Lemma win_flat rho : Rabs rho <= (1 - a) * (Nw / 2) - Nw / (INR n - 1) -> tukey_window Nw a rho = 1.
  Proof.
    intros H. fold st in H. pose proof st_pos as SP. assert (Hr : - Nw / 2 <= rho <= Nw / 2). { assert (a * (Nw / 2) > 0) by (apply Rmult_lt_0_compat; lra). unfold Rabs in H; destruct (Rcase_abs rho); lra. }
    destruct (locate rho Hr) as (k & Hk & Hx). destruct (win_convex rho k Hk Hx) as (t & Ht & E & ->). assert (G : forall x, Rabs x <= (1 - a) * (Nw / 2) -> ideal_window a (Rabs (2 * x / Nw)) = 1).
    { intros x Hx'. unfold ideal_window. destruct (Rle_dec _ _) as [|HH]; auto. exfalso. apply HH. unfold Rdiv. rewrite !Rabs_mult, (Rabs_right 2), (Rabs_right (/ Nw)) by (try lra; apply Rle_ge; left; apply Rinv_0_lt_compat; lra). apply Rmult_le_reg_r with (Nw / 2); [lra|]. replace (2 * Rabs x * / Nw * (Nw / 2)) with (Rabs x) by (field; lra). lra. }
    rewrite !F_ideal, !G; [ring| | |lia|lia]; rewrite ?X_S in *; unfold Rabs in *; repeat destruct (Rcase_abs _); nra.
  Qed.
  Lemma win_error rho : Rabs rho <= Nw / 2 -> Rabs (tukey_window Nw a rho - ideal_window a (2 * Rabs rho / Nw)) <= PI / (a * (INR n - 1)).
  Proof.
    intros H. assert (Hr : - Nw / 2 <= rho <= Nw / 2) by (unfold Rabs in *; destruct (Rcase_abs rho); lra). pose proof st_pos as SP. pose proof m_pos as MP.
    destruct (locate rho Hr) as (k & Hk & Hx). destruct (win_convex rho k Hk Hx) as (t & Ht & E & ->). set (W := ideal_window a (2 * Rabs rho / Nw)).
    assert (G : forall x, Rabs (x - rho) <= st -> Rabs (ideal_window a (Rabs (2 * x / Nw)) - W) <= PI / (a * (INR n - 1))).
    { intros x Hxr. unfold W. apply Rle_trans with (PI / (2 * a) * Rabs (Rabs (2 * x / Nw) - 2 * Rabs rho / Nw)); [apply ideal_lip; lra|].
      replace (PI / (a * (INR n - 1))) with (PI / (2 * a) * (2 / (INR n - 1))) by (field; lra). apply Rmult_le_compat_l; [left; apply Rdiv_lt_0_compat; [apply PI_RGT_0|lra]|].
      replace (2 * Rabs rho / Nw) with (Rabs (2 * rho / Nw)) by (unfold Rdiv; rewrite !Rabs_mult, (Rabs_right 2), (Rabs_right (/ Nw)) by (try lra; apply Rle_ge; left; apply Rinv_0_lt_compat; lra); reflexivity).
      eapply Rle_trans; [apply Rabs_triang_inv2|]. replace (2 * x / Nw - 2 * rho / Nw) with (2 / Nw * (x - rho)) by (field; lra). rewrite Rabs_mult, (Rabs_right (2 / Nw)) by (apply Rle_ge; left; apply Rdiv_lt_0_compat; lra).
      replace (2 / (INR n - 1)) with (2 / Nw * st) by (unfold st; field; lra). apply Rmult_le_compat_l; [left; apply Rdiv_lt_0_compat; lra|auto]. }
    rewrite !F_ideal by lia. assert (G1 := G (X k)). assert (G2 := G (X (S k))). rewrite X_S in *. specialize (G1 ltac:(unfold Rabs; destruct (Rcase_abs _); nra)). specialize (G2 ltac:(unfold Rabs; destruct (Rcase_abs _); nra)).
    set (A := ideal_window a (Rabs (2 * X k / Nw))) in *. set (B := ideal_window a (Rabs (2 * (X k + st) / Nw))) in *. set (e := PI / _) in *. replace ((1 - t) * A + t * B - W) with ((1 - t) * (A - W) + t * (B - W)) by ring.
    eapply Rle_trans; [apply Rabs_triang|]. rewrite (Rabs_mult (1 - t)), (Rabs_mult t), (Rabs_right (1 - t)), (Rabs_right t) by lra. nra.
  Qed.
End Win.
