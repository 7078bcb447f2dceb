From Verif Require Import Base StrBase RBase CtrlModel UtilModel DmSurfModel CubModel DmcModel CBase PropModel PropProofs OptModel PrpModel PrpSpec PrpProofs5 ErrModel ErrSpec PsdModel PsdSpec.
Open Scope R_scope.
Lemma total_sum2 n f : total n f = sum2 n f. Proof. reflexivity. Qed.
Lemma sum2_ext n f g : (forall i j, (i < n)%nat -> (j < n)%nat -> f i j = g i j) -> sum2 n f = sum2 n g.
Proof. intros H. unfold sum2. apply rsum_ext. intros i Hi. apply rsum_ext. intros j Hj. auto. Qed.
Lemma sum2_scal n c f : sum2 n (fun i j => c * f i j) = c * sum2 n f.
Proof. unfold sum2. rewrite <- rsum_scal. apply rsum_ext. intros i Hi. now rewrite <- rsum_scal. Qed.
Lemma rsum_const n c : rsum n (fun _ => c) = INR n * c.
Proof. induction n; [simpl; ring|]. cbn [rsum]. rewrite IHn, S_INR. ring. Qed.
Lemma rsum_add n f g : rsum n (fun i => f i + g i) = rsum n f + rsum n g.
Proof. induction n; cbn [rsum]; [ring|]. rewrite IHn. ring. Qed.
Lemma sum2_plus n f g : sum2 n (fun i j => f i j + g i j) = sum2 n f + sum2 n g.
Proof. unfold sum2. rewrite <- rsum_add. apply rsum_ext. intros i Hi. now rewrite <- rsum_add. Qed.
Lemma sum2_const n c : sum2 n (fun _ _ => c) = INR (n * n) * c.
Proof. unfold sum2. rewrite (rsum_ext n _ (fun _ => INR n * c)) by (intros; apply rsum_const). rewrite rsum_const, mult_INR. ring. Qed.
Lemma sum2_roll n s f : sum2 n (fun i j => f (roll_ix n s i) (roll_ix n s j)) = sum2 n f.
Proof.
  unfold sum2. rewrite (rsum_ext n _ (fun i => rsum n (fun j => f (roll_ix n s i) j))) by (intros i _; apply (rsum_roll n s (fun j => f (roll_ix n s i) j))).
  apply (rsum_roll n s (fun i => rsum n (fun j => f i j))).
Qed.
Lemma rsum_ge0 n f : (forall i, (i < n)%nat -> 0 <= f i) -> 0 <= rsum n f.
Proof. intros H. induction n; cbn [rsum]; [lra|]. assert (0 <= rsum n f) by (apply IHn; intros; apply H; lia). specialize (H n ltac:(lia)). lra. Qed.
Lemma rsum_ge0_zero n f : (forall i, (i < n)%nat -> 0 <= f i) -> rsum n f = 0 -> forall i, (i < n)%nat -> f i = 0.
Proof.
  induction n; intros H E i Hi; [lia|]. cbn [rsum] in E. pose proof (rsum_ge0 n f ltac:(intros; apply H; lia)). pose proof (H n ltac:(lia)).
  destruct (Nat.eq_dec i n) as [->|N]; [lra|]. apply IHn; [intros; apply H; lia|lra|lia].
Qed.
Lemma sum2_ge0 n f : (forall i j, (i < n)%nat -> (j < n)%nat -> 0 <= f i j) -> 0 <= sum2 n f.
Proof. intros H. apply rsum_ge0. intros i Hi. apply rsum_ge0. auto. Qed.
Lemma sum2_zero n f : (forall i j, (i < n)%nat -> (j < n)%nat -> 0 <= f i j) -> sum2 n f = 0 -> forall i j, (i < n)%nat -> (j < n)%nat -> f i j = 0.
Proof.
  intros H E i j Hi Hj. pose proof (rsum_ge0_zero n (fun i => rsum n (fun j => f i j)) ltac:(intros; apply rsum_ge0; auto) E i Hi) as E1. cbv beta in E1.
  exact (rsum_ge0_zero n (fun j => f i j) ltac:(auto) E1 j Hj).
Qed.
Lemma nn_pos n : (1 <= n)%nat -> 0 < INR (n * n). Proof. intros. apply lt_0_INR. nia. Qed.
Lemma mean2_affine n f g a : (1 <= n)%nat -> mean2 n (fun i j => f i j * g + a) = mean2 n f * g + a.
Proof.
  intros H. unfold mean2. rewrite (sum2_plus n (fun i j => f i j * g) (fun _ _ => a)), sum2_const. rewrite (sum2_ext n _ (fun i j => g * f i j)) by (intros; ring). rewrite sum2_scal. pose proof (nn_pos n H). field. lra.
Qed.
Lemma mean2_ext n f g : (forall i j, (i < n)%nat -> (j < n)%nat -> f i j = g i j) -> mean2 n f = mean2 n g.
Proof. intros H. unfold mean2. now rewrite (sum2_ext n f g H). Qed.
Lemma rms_ext n f g r : (forall i j, (i < n)%nat -> (j < n)%nat -> f i j = g i j) -> rms_about_mean n f r -> rms_about_mean n g r.
Proof. intros H [A B]. split; [exact A|]. rewrite B, <- (mean2_ext n f g H). apply sum2_ext. intros i j Hi Hj. now rewrite H. Qed.
Lemma std_rms n f : (1 <= n)%nat -> rms_about_mean n f (np_std n f).
Proof.
  intros H. unfold np_std. cbv zeta. rewrite <- mult_INR. fold (mean2 n f). pose proof (nn_pos n H). split; [apply sqrt_pos|]. rewrite total_sum2.
  assert (P : 0 <= sum2 n (fun i j => (f i j - mean2 n f) ^ 2)) by (intros; apply sum2_ge0; intros; apply pow2_ge_0).
  rewrite sqrt_sqrt. - unfold Rdiv. rewrite Rmult_assoc, Rinv_l by lra. rewrite Rmult_1_r. apply sum2_ext. intros; cbv beta; unfold mean2; rewrite ?total_sum2; unfold Rdiv; ring.
  - apply Rmult_le_pos; [apply sum2_ge0; intros; apply pow2_ge_0|]. left. now apply Rinv_0_lt_compat.
Qed.
Lemma rms_affine n f g a r : (1 <= n)%nat -> 0 <= g -> rms_about_mean n f r -> rms_about_mean n (fun i j => f i j * g + a) (r * g).
Proof.
  intros H G [A B]. split; [nra|]. rewrite (mean2_affine n f g a H). replace (r * g * (r * g) * INR (n * n)) with (g * g * (r * r * INR (n * n))) by ring. rewrite B, <- sum2_scal. apply sum2_ext. intros; ring.
Qed.
Lemma rms_roll n s f r : rms_about_mean n f r -> rms_about_mean n (fun i j => f (roll_ix n s i) (roll_ix n s j)) r.
Proof.
  intros [A B]. split; [exact A|]. unfold mean2. rewrite sum2_roll. fold (mean2 n f). rewrite (sum2_roll n s (fun i j => (f i j - mean2 n f) * (f i j - mean2 n f))). exact B.
Qed.
Lemma rms_zero n f : (1 <= n)%nat -> rms_about_mean n f 0 -> uniform n f.
Proof.
  intros H [_ B] i j k l Hi Hj Hk Hl. symmetry in B. rewrite !Rmult_0_l in B.
  assert (Z : forall i j, (i < n)%nat -> (j < n)%nat -> f i j = mean2 n f).
  { intros i' j' Hi' Hj'. pose proof (sum2_zero n (fun i j => (f i j - mean2 n f) * (f i j - mean2 n f)) (fun a b _ _ => Rle_0_sqr (f a b - mean2 n f)) B i' j' Hi' Hj') as Q. cbv beta in Q. apply Rmult_integral in Q. lra. }
  now rewrite (Z i j), (Z k l).
Qed.
Lemma rms_unique n f r r' : (1 <= n)%nat -> rms_about_mean n f r -> rms_about_mean n f r' -> r = r'.
Proof. intros H [A B] [A' B']. pose proof (nn_pos n H). assert (r * r = r' * r') by (apply Rmult_eq_reg_r with (INR (n * n)); lra). nra. Qed.
Lemma uniform_roll n s f : (1 <= n)%nat -> uniform n f -> uniform n (fun i j => f (roll_ix n s i) (roll_ix n s j)).
Proof. intros H U i j k l Hi Hj Hk Hl. apply U; now apply roll_lt. Qed.
(* the density *)
Lemma off_R n i : IZR (off n i) = INR i - INR (n / 2). Proof. unfold off. now rewrite minus_IZR, <- !INR_IZR_INZ. Qed.
Lemma kpsd_upright n dk i j : kpsd n dk 0 0 i j = frequency n dk i j.
Proof. unfold kpsd, frequency, yk, xk. rewrite Ropp_0, cos_0, sin_0, !off_R. f_equal. f_equal. ring. Qed.
Lemma freq_pos n dk i j : 0 < dk -> ~ (i = n / 2 /\ j = n / 2)%nat -> 0 < frequency n dk i j.
Proof.
  intros D N. unfold frequency. apply Rmult_lt_0_compat; [|exact D]. apply sqrt_lt_R0. rewrite <- !mult_IZR, <- plus_IZR. apply IZR_lt.
  assert (O : (off n i <> 0 \/ off n j <> 0)%Z) by (unfold off; lia). destruct O; nia.
Qed.
Lemma npow_pos x c : 0 < x -> npow x c = Rpower x c. Proof. intros. unfold npow. destruct (Req_EM_T x 0); [lra|reflexivity]. Qed.
Lemma psd_upright n dk amp b c k i j : 0 < dk -> 0 < b -> upright k -> psd2d n dk amp b c k i j = density_at n dk (p_tpf k) amp b c i j.
Proof.
  intros D B [U1 U2]. unfold psd2d, density_at. rewrite U1, U2. cbn [angle]. cbv zeta. rewrite kpsd_upright. destruct (Nat.eqb_spec i (n / 2)) as [E|E]; [destruct (Nat.eqb_spec j (n / 2)) as [F|F]; [reflexivity|]|]; cbn [andb].
  all: pose proof (freq_pos n dk i j D ltac:(intuition)) as P; pose proof (Rdiv_lt_0_compat _ _ P B) as Q; unfold density; rewrite (npow_pos (frequency n dk i j / b)) by exact Q; rewrite npow_pos by nra; simpl (_ ^ 2); rewrite Rmult_1_r; reflexivity.
Qed.
Lemma density_pos tpf amp b c kf : 0 < amp -> 0 < density tpf amp b c kf.
Proof.
  intros A. unfold density. destruct tpf; apply Rdiv_lt_0_compat; try assumption; unfold Rpower.
  - pose proof (exp_pos (c * ln (kf / b))). lra.
  - apply exp_pos.
Qed.
(* what a call without a file to read returns *)
Definition target n s amp b c k := match p_rms k, p_amp k with false, None => sqrt (sum2 n (psd2d n (1 / (INR n * s)) amp b c k)) * (1 / (INR n * s)) | _, _ => amp end.
Lemma new_map_eq n s amp b c k u : new_map n s amp b c k u = mkf n n (fun i j => raw_map n s amp b c k u i j * (target n s amp b c k / np_std n (raw_map n s amp b c k u))).
Proof. unfold new_map, target. cbv zeta. destruct (p_rms k), (p_amp k); reflexivity. Qed.
Lemma target_pos n s amp b c k : 0 < s -> (1 <= n)%nat -> 0 <= amp -> 0 <= target n s amp b c k.
Proof.
  intros S N A. unfold target. assert (0 < INR n) by (apply lt_0_INR; lia). destruct (p_rms k), (p_amp k); try assumption. apply Rmult_le_pos; [apply sqrt_pos|]. left. apply Rdiv_lt_0_compat; nra.
Qed.
Lemma rms_new n s amp b c k u a r m : (1 <= n)%nat -> 0 <= target n s amp b c k ->
  (forall i j, (i < n)%nat -> (j < n)%nat -> m i j = fpx (new_map n s amp b c k u) (roll_ix n r i) (roll_ix n r j) + a) -> ~ uniform n m ->
  rms_about_mean n m (target n s amp b c k) /\ np_std n (raw_map n s amp b c k u) <> 0.
Proof.
  intros N T V U. rewrite new_map_eq in V. cbn [fpx] in V. set (d := raw_map n s amp b c k u) in *. set (t := target n s amp b c k) in *. pose proof (std_rms n d N) as R. set (sd := np_std n d) in *.
  assert (SD : sd <> 0).
  { intros E. apply U. intros i j k0 l Hi Hj Hk Hl. rewrite !V by assumption. rewrite E in R. rewrite (uniform_roll n r d N (rms_zero n d N R) i j k0 l Hi Hj Hk Hl). reflexivity. }
  split; [|exact SD]. destruct R as [R1 R2]. assert (P : 0 < sd) by lra.
  apply (rms_ext n (fun i j => d (roll_ix n r i) (roll_ix n r j) * (t / sd) + a)); [intros; now rewrite V|].
  assert (Q : rms_about_mean n (fun i j => d (roll_ix n r i) (roll_ix n r j) * (t / sd) + a) (sd * (t / sd))).
  { apply (rms_affine n (fun i j => d (roll_ix n r i) (roll_ix n r j))); [exact N|apply Rmult_le_pos; [exact T|left; now apply Rinv_0_lt_compat]|]. apply rms_roll. split; assumption. }
  replace (sd * (t / sd)) with t in Q by (field; lra). exact Q.
Qed.
