From Verif Require Import Base StrBase RBase CtrlModel UtilModel DmSurfModel CubModel CubProofs DmcModel CBase PropModel OptModel ErrModel MagModel MagSpec.
From Flocq Require Import Core.
Open Scope R_scope.
Lemma sin_6pi : sin (6 * PI) = 0. Proof. replace (6 * PI) with (0 + 2 * INR 3 * PI) by (simpl; ring). rewrite sin_period. apply sin_0. Qed.
Lemma damped_lanczos x : damped x = lanczos6 x.
Proof.
  unfold damped, lanczos6. destruct (Rle_dec (Rabs x) 6) as [H|H]; destruct (Rlt_dec (Rabs x) 6) as [H2|H2]; try lra.
  - unfold sinc. destruct (Req_EM_T x 0) as [E|E].
    + subst x. destruct (Req_EM_T (0 / 6) 0) as [_|Q]; [ring|exfalso; apply Q; field].
    + destruct (Req_EM_T (x / 6) 0) as [Q|Q]; [exfalso; apply E; lra|]. cbv zeta. pose proof PI_RGT_0.
      replace (x * PI / 6) with (PI * (x / 6)) by field. replace (x * PI) with (PI * x) by ring. field. split; lra.
  - destruct (Req_EM_T x 0) as [E|E]; [subst x; rewrite Rabs_R0 in H2; lra|]. cbv zeta.
    assert (P : sin (x * PI) = 0).
    { assert (Rabs x = 6) by lra. unfold Rabs in H0. destruct (Rcase_abs x).
      - replace (x * PI) with (- (6 * PI)) by (replace x with (- (6)) by lra; ring). rewrite sin_neg, sin_6pi. ring.
      - replace x with 6 by lra. apply sin_6pi. }
    rewrite P. unfold Rdiv. ring.
Qed.
Lemma lanczos_out t : 6 <= Rabs t -> lanczos6 t = 0.
Proof. intros H. unfold lanczos6. destruct (Rlt_dec (Rabs t) 6); [lra|reflexivity]. Qed.
Lemma rsum_zero n f : (forall i, (i < n)%nat -> f i = 0) -> rsum n f = 0.
Proof. intros H. induction n; simpl; [reflexivity|]. rewrite IHn by (intros; apply H; lia). rewrite H by lia. ring. Qed.
Lemma rsum_cut a k c f : (forall i, (i < a)%nat -> f i = 0) -> (forall i, (a + k <= i < a + k + c)%nat -> f i = 0) -> rsum (a + k + c) f = rsum k (fun i => f (a + i)%nat).
Proof.
  intros H1 H2. induction c.
  - rewrite Nat.add_0_r. clear H2. induction k.
    + rewrite Nat.add_0_r. simpl. apply rsum_zero, H1.
    + replace (a + S k)%nat with (S (a + k)) by lia. simpl. rewrite IHk. reflexivity.
  - replace (a + k + S c)%nat with (S (a + k + c)) by lia. simpl. rewrite IHc by (intros; apply H2; lia). rewrite H2 by lia. ring.
Qed.
Lemma rsum_window n p f : (p + 13 <= n)%nat -> (forall i, (i < n)%nat -> (i < p \/ p + 13 <= i)%nat -> f i = 0) -> rsum n f = rsum 13 (fun i => f (p + i)%nat).
Proof. intros H Z. replace n with (p + 13 + (n - p - 13))%nat by lia. apply rsum_cut; intros; apply Z; lia. Qed.
(* a rounding that keeps the kernel's support inside the 13 pixels *)
Definition close (rnd : R -> Z) : Prop := forall x, Rabs (IZR (rnd x) - x) < 1.
Lemma away_close : close away.
Proof.
  intros x. unfold away. destruct (Rlt_dec x 0).
  - pose proof (Zfloor_lb x). pose proof (Zfloor_ub x). rewrite Rabs_left1 by lra. lra.
  - pose proof (Zceil_ub x). pose proof (Zceil_lb x). rewrite Rabs_right by lra. lra.
Qed.
Lemma round_close : close roundval.
Proof.
  intros x. unfold roundval. destruct (Rlt_dec 0 x).
  - pose proof (Zfloor_lb (x + / 2)). pose proof (Zfloor_ub (x + / 2)). apply Rabs_def1; lra.
  - pose proof (Zfloor_lb (- x + / 2)). pose proof (Zfloor_ub (- x + / 2)). rewrite opp_IZR. apply Rabs_def1; lra.
Qed.
Lemma close_int rnd z : close rnd -> rnd (IZR z) = z.
Proof.
  intros H. specialize (H (IZR z)). rewrite <- minus_IZR in H. apply Rabs_def2 in H. destruct H as [A B].
  apply lt_IZR in A. change (- (1)) with (IZR (-1)) in B. apply lt_IZR in B. lia.
Qed.
Lemma first_place rnd n m mag i : close rnd -> Rabs (IZR (first_px rnd n m mag i) + 6 - place n m mag i) < 1.
Proof.
  intros H. unfold first_px, place. fold (x_in m mag i). specialize (H (x_in m mag i)).
  replace (_ + 6 - _) with (IZR (rnd (x_in m mag i)) - x_in m mag i); [exact H|]. rewrite minus_IZR, plus_IZR, <- INR_IZR_INZ. lra.
Qed.
Lemma fits_iff rnd n m mag i : fits rnd n m mag i = true <-> (0 <= first_px rnd n m mag i /\ first_px rnd n m mag i + 13 <= Z.of_nat n)%Z.
Proof. unfold fits. cbv zeta. rewrite Bool.andb_true_iff, !Z.leb_le. reflexivity. Qed.
Lemma inner_fits rnd n m mag i : close rnd -> inner n (place n m mag i) -> fits rnd n m mag i = true.
Proof.
  intros H [A B]. apply fits_iff. pose proof (first_place rnd n m mag i H) as P. apply Rabs_def2 in P. destruct P as [P Q]. split.
  - apply le_IZR. apply Rnot_lt_le. intros F. assert (IZR (first_px rnd n m mag i) <= -1). { apply IZR_le. apply lt_IZR in F. lia. } lra.
  - rewrite INR_IZR_INZ in B. assert (IZR (first_px rnd n m mag i + 13 - 1) < IZR (Z.of_nat n)). { rewrite minus_IZR, plus_IZR. lra. } apply lt_IZR in H0. lia.
Qed.
Lemma outer_fits rnd n m mag i : close rnd -> outer n (place n m mag i) -> fits rnd n m mag i = false.
Proof.
  intros H O. destruct (fits rnd n m mag i) eqn:E; [|reflexivity]. exfalso. apply fits_iff in E. destruct E as [E1 E2].
  apply IZR_le in E1, E2. rewrite plus_IZR in E2. pose proof (first_place rnd n m mag i H) as P. apply Rabs_def2 in P. destruct O as [O|O]; [lra|]. rewrite INR_IZR_INZ in O. lra.
Qed.
Lemma kernel_place rnd n m mag i k : (0 <= first_px rnd n m mag i)%Z -> kernel rnd m mag i k = lanczos6 (INR (Z.to_nat (first_px rnd n m mag i) + k) - place n m mag i).
Proof.
  intros H. unfold kernel. cbv zeta. rewrite damped_lanczos. f_equal. unfold place. fold (x_in m mag i). rewrite plus_INR, (INR_IZR_INZ (Z.to_nat _)), Z2Nat.id by exact H.
  unfold first_px. rewrite minus_IZR, plus_IZR, <- (INR_IZR_INZ (n / 2)). lra.
Qed.
Lemma outside rnd n m mag i a : close rnd -> (0 <= first_px rnd n m mag i)%Z -> (a < Z.to_nat (first_px rnd n m mag i) \/ Z.to_nat (first_px rnd n m mag i) + 13 <= a)%nat -> lanczos6 (INR a - place n m mag i) = 0.
Proof.
  intros H F O. apply lanczos_out. pose proof (first_place rnd n m mag i H) as P. apply Rabs_def2 in P.
  assert (E : INR (Z.to_nat (first_px rnd n m mag i)) = IZR (first_px rnd n m mag i)). { rewrite INR_IZR_INZ, Z2Nat.id; [reflexivity|exact F]. }
  destruct O as [O|O].
  - apply Nat.le_succ_l in O. apply le_INR in O. rewrite S_INR in O. rewrite Rabs_left1; lra.
  - apply le_INR in O. rewrite plus_INR in O. replace (INR 13) with 13 in O by (simpl; ring). rewrite Rabs_right; lra.
Qed.
Lemma rsum_ext' n f g : (forall i, (i < n)%nat -> f i = g i) -> rsum n f = rsum n g.
Proof. intros H. induction n; simpl; [reflexivity|]. rewrite IHn by (intros; apply H; lia). rewrite H by lia. reflexivity. Qed.
Lemma rsum_scal n c f : rsum n (fun i => c * f i) = c * rsum n f.
Proof. induction n; simpl; [ring|]. rewrite IHn. ring. Qed.
Lemma rsum_swap13 n m (f : nat -> nat -> R) : rsum n (fun a => rsum m (fun b => f a b)) = rsum m (fun b => rsum n (fun a => f a b)).
Proof.
  induction n; simpl.
  - symmetry. apply rsum_zero. reflexivity.
  - rewrite IHn. clear. induction m; simpl; [ring|]. rewrite <- IHm. ring.
Qed.
Lemma zoom_value rnd mem im n m mag j i : close rnd -> square im n -> fits rnd n m mag j = true -> fits rnd n m mag i = true ->
  fpx (zoom rnd mem im m mag) j i = read_at im (place n m mag j) (place n m mag i).
Proof.
  intros C [S1 S2] F1 F2. unfold zoom. cbv zeta. cbn [fpx]. rewrite S1, F1, F2. cbn [andb]. apply fits_iff in F1, F2. destruct F1 as [A1 B1], F2 as [A2 B2].
  unfold read_at. rewrite S1, S2.
  rewrite (rsum_window n (Z.to_nat (first_px rnd n m mag j))); [|lia|].
  2:{ intros a _ Ha. apply rsum_zero. intros b _. rewrite (outside rnd n m mag j a C A1 Ha). ring. }
  rewrite rsum_swap13. rewrite (rsum_window n (Z.to_nat (first_px rnd n m mag i))); [|lia|].
  2:{ intros b _ Hb. apply rsum_zero. intros a _. rewrite (outside rnd n m mag i b C A2 Hb). ring. }
  apply rsum_ext'. intros b Hb. rewrite Rmult_comm, <- rsum_scal. apply rsum_ext'. intros a Ha.
  rewrite (kernel_place rnd n m mag j a A1), (kernel_place rnd n m mag i b A2).
  rewrite !Z2Nat.inj_add by lia. rewrite !Nat2Z.id. ring.
Qed.
Lemma sinc_int z : (z <> 0)%Z -> sinc (IZR z) = 0.
Proof.
  intros H. unfold sinc. destruct (Req_EM_T (IZR z) 0) as [E|E]; [apply eq_IZR in E; contradiction|].
  rewrite (sin_eq_0_1 (PI * IZR z)); [unfold Rdiv; ring|]. exists z. ring.
Qed.
Lemma lanczos_int z : lanczos6 (IZR z) = if (z =? 0)%Z then 1 else 0.
Proof.
  unfold lanczos6. destruct (Z.eqb_spec z 0) as [E|E].
  - subst z. rewrite Rabs_R0. destruct (Rlt_dec 0 6); [|lra]. unfold sinc. destruct (Req_EM_T 0 0); [|lra]. destruct (Req_EM_T (0 / 6) 0) as [_|Q]; [ring|exfalso; apply Q; field].
  - destruct (Rlt_dec _ _); [|reflexivity]. rewrite sinc_int by exact E. ring.
Qed.
Lemma rsum_pick n p (f : nat -> R) : (p < n)%nat -> rsum n (fun a => (if Nat.eqb a p then 1 else 0) * f a) = f p.
Proof.
  intros H. induction n; [lia|]. simpl. destruct (Nat.eqb_spec n p) as [E|E].
  - subst n. rewrite (rsum_zero p); [ring|]. intros i Hi. destruct (Nat.eqb_spec i p); [lia|ring].
  - rewrite IHn by lia. ring.
Qed.
Lemma lanczos_nat a p : lanczos6 (INR a - INR p) = if Nat.eqb a p then 1 else 0.
Proof.
  rewrite !INR_IZR_INZ, <- minus_IZR, lanczos_int. destruct (Nat.eqb_spec a p); destruct (Z.eqb_spec (Z.of_nat a - Z.of_nat p) 0); try lia; reflexivity.
Qed.
Lemma read_pixel im n p q : square im n -> (p < n)%nat -> (q < n)%nat -> read_at im (INR p) (INR q) = fpx im p q.
Proof.
  intros [S1 S2] P Q. unfold read_at. rewrite S1, S2.
  rewrite (rsum_ext' n _ (fun a => (if Nat.eqb a p then 1 else 0) * fpx im a q)).
  - apply (rsum_pick n p (fun a => fpx im a q)), P.
  - intros a _. rewrite lanczos_nat. rewrite <- (rsum_pick n q (fun b => (if Nat.eqb a p then 1 else 0) * fpx im a b)) by exact Q.
    apply rsum_ext'. intros b _. rewrite lanczos_nat. ring.
Qed.
Lemma int_fits rnd n m mag i p : close rnd -> place n m mag i = INR p -> (6 <= p)%nat -> (p + 7 <= n)%nat -> fits rnd n m mag i = true.
Proof.
  intros H E A B. apply fits_iff. assert (F : first_px rnd n m mag i = (Z.of_nat p - 6)%Z).
  { unfold first_px. assert (X : x_in m mag i = IZR (Z.of_nat p - Z.of_nat (n / 2))).
    { unfold place in E. fold (x_in m mag i) in E. rewrite minus_IZR, <- !INR_IZR_INZ. lra. }
    rewrite X, (close_int rnd _ H). lia. }
  rewrite F. lia.
Qed.
