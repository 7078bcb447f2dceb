From Coq Require Import Sorted Permutation.
From Verif Require Import Base RBase EfcProofs JacModel CullProofs SpectModel SpectSpec SpectProofs.
Open Scope R_scope.

Lemma normalised_sum n v : rsum n v <> 0 -> rsum n (normalised n v) = 1.
Proof. intros H. unfold normalised, Rdiv. rewrite rsum_scal_r. now field. Qed.
Lemma ends_half_pos n i : 0 < ends_half n i.
Proof. unfold ends_half. destruct (Nat.eqb i 0 || Nat.eqb i (n - 1))%bool; lra. Qed.
Lemma rsum_pos n v : (0 < n)%nat -> (forall i, (i < n)%nat -> 0 < v i) -> 0 < rsum n v.
Proof.
  intros Hn H. destruct n as [|n]; [lia|]. cbn [rsum]. assert (0 < v n) by (apply H; lia).
  assert (0 <= rsum n v) by (apply rsum_nonneg; intros k Hk; apply Rlt_le, H; lia). lra.
Qed.
Lemma ends_half_sum n : (2 <= n)%nat -> rsum n (ends_half n) = INR (n - 1).
Proof.
  intros H. destruct n as [|[|m]]; [lia|lia|].
  rewrite (rsum_ext _ _ (fun k => 1 + ((if Nat.eqb k 0 then -(1/2) else 0) + (if Nat.eqb k (S m) then -(1/2) else 0)))).
  - rewrite rsum_plus, rsum_const, rsum_plus.
    rewrite (rsum_single _ 0%nat) by (lia || (intros i Hi Hn; destruct (Nat.eqb_spec i 0); [contradiction|reflexivity])).
    rewrite (rsum_single _ (S m)) by (lia || (intros i Hi Hn; destruct (Nat.eqb_spec i (S m)); [contradiction|reflexivity])).
    rewrite !Nat.eqb_refl. replace (S (S m) - 1)%nat with (S m) by lia. rewrite !S_INR. lra.
  - intros k Hk. unfold ends_half. replace (S (S m) - 1)%nat with (S m) by lia.
    destruct (Nat.eqb_spec k 0) as [e0|]; destruct (Nat.eqb_spec k (S m)) as [e1|]; cbn; try lra. lia.
Qed.

Section Grid.
  Variables (Nsbp Nw : nat) (flagSim : bool) (lambda0 fracBW : R).
  Hypothesis HN : (1 <= Nsbp)%nat.
  Hypothesis HW : (1 <= Nw)%nat.

  Lemma sbp_raw_pos i : 0 < sbp_raw Nsbp Nw flagSim i.
  Proof. unfold sbp_raw. destruct (Nat.eqb Nw 1 && flagSim && negb (Nat.eqb Nsbp 1))%bool; [apply ends_half_pos|lra]. Qed.
  Lemma lam_raw_pos i : 0 < lam_raw Nw i.
  Proof. unfold lam_raw. destruct (Nat.eqb Nw 1); [lra|apply ends_half_pos]. Qed.
  Lemma sbp_sum : rsum Nsbp (sbp_weight Nsbp Nw flagSim) = 1.
  Proof using HN. apply normalised_sum. assert (0 < rsum Nsbp (sbp_raw Nsbp Nw flagSim)) by (apply rsum_pos; [exact HN|]; intros; apply sbp_raw_pos). lra. Qed.
  Lemma lam_sum : rsum Nw (lam_weight Nw) = 1.
  Proof using HW. apply normalised_sum. assert (0 < rsum Nw (lam_raw Nw)) by (apply rsum_pos; [exact HW|]; intros; apply lam_raw_pos). lra. Qed.
  Lemma sbp_weight_pos i : 0 < sbp_weight Nsbp Nw flagSim i.
  Proof using HN. unfold sbp_weight, normalised. apply Rdiv_lt_0_compat; [apply sbp_raw_pos|]. apply rsum_pos; [exact HN|]. intros; apply sbp_raw_pos. Qed.
  Lemma lam_weight_pos i : 0 < lam_weight Nw i.
  Proof using HW. unfold lam_weight, normalised. apply Rdiv_lt_0_compat; [apply lam_raw_pos|]. apply rsum_pos; [exact HW|]. intros; apply lam_raw_pos. Qed.
  Lemma all_sum : rsum (Nlam Nsbp Nw) (lambda_weights_all0 Nsbp Nw flagSim) = 1.
  Proof.
    unfold Nlam, lambda_weights_all0. rewrite rsum_mul_blocks.
    rewrite (rsum_ext _ _ (fun i => sbp_weight Nsbp Nw flagSim i * 1)).
    - rewrite rsum_scal_r, sbp_sum. ring.
    - intros i Hi. rewrite <- lam_sum, <- rsum_scal. apply rsum_ext. intros j Hj.
      rewrite Nat.div_add_l, Nat.div_small, Nat.add_0_r by lia. rewrite Nat.add_comm, Nat.mod_add, Nat.mod_small by lia. reflexivity.
  Qed.

  Lemma linspace_sym a b N i : (i < N)%nat -> linspace a b N i + linspace a b N (N - 1 - i) = if Nat.eqb N 1 then 2 * a else a + b.
  Proof.
    clear HN HW. intros Hi. unfold linspace. destruct (Nat.eqb_spec N 1) as [|Hn]; [ring|].
    rewrite (minus_INR (N - 1) i) by lia. field. apply not_0_INR. lia.
  Qed.
  Lemma center_sym i : (i < Nsbp)%nat ->
    sbp_center Nsbp Nw flagSim lambda0 fracBW i + sbp_center Nsbp Nw flagSim lambda0 fracBW (Nsbp - 1 - i) = 2 * lambda0.
  Proof.
    clear HW. intros Hi. unfold sbp_center. destruct (Nat.eqb Nw 1 && flagSim)%bool.
    - destruct (Nat.eqb_spec Nsbp 1) as [|Hn]; [ring|].
      rewrite <- Rmult_plus_distr_l, linspace_sym by auto. destruct (Nat.eqb_spec Nsbp 1); [contradiction|]. field.
    - rewrite <- Rmult_plus_distr_l, linspace_sym by auto. destruct (Nat.eqb_spec Nsbp 1) as [e|Hn]; [|field; apply not_0_INR; lia].
      rewrite e. cbn. field.
  Qed.
  (* the endpoints of the band, when control wavelengths are at the band ends *)
  Lemma center_ends : (2 <= Nsbp)%nat -> Nw = 1%nat -> flagSim = true ->
    sbp_center Nsbp Nw flagSim lambda0 fracBW 0 = lambda0 * (1 - fracBW / 2) /\
    sbp_center Nsbp Nw flagSim lambda0 fracBW (Nsbp - 1) = lambda0 * (1 + fracBW / 2).
  Proof.
    clear HN HW. intros H2 -> ->. unfold sbp_center, linspace. cbn. destruct (Nat.eqb_spec Nsbp 1); [lia|]. split.
    - f_equal. unfold Rdiv. ring.
    - f_equal. field. apply not_0_INR. lia.
  Qed.
End Grid.

Section Regular.
  Variables (Nsbp K : nat) (flagSim : bool) (lambda0 fracBW : R).
  Hypothesis HN : (1 <= Nsbp)%nat.
  Hypothesis HK : (1 <= K)%nat.
  Let Nw := S K.
  Let M := (Nsbp * K)%nat.
  Let step := lambda0 * fracBW / INR M.
  Let lam := lambdas Nsbp Nw flagSim lambda0 fracBW.
  Let wt := lambda_weights_all0 Nsbp Nw flagSim.
  Notation grid_lambda := (SpectSpec.grid_lambda Nsbp K lambda0 fracBW).
  Notation trapezoid := (SpectSpec.trapezoid Nsbp K).
  Definition grid_pos (k : nat) : nat := (k / Nw * K + k mod Nw)%nat.

  Lemma M_pos : 0 < INR M.
  Proof. apply lt_0_INR. unfold M. nia. Qed.
  Lemma dlam_eq : dlam Nsbp Nw lambda0 fracBW = step.
  Proof.
    unfold dlam, linspace, Nw. destruct (Nat.eqb_spec (S K) 1); [lia|]. replace (S K - 1)%nat with K by lia.
    unfold step, M. rewrite mult_INR. cbn [INR]. field. split; apply not_0_INR; lia.
  Qed.
  Lemma lam_grid k : (k < Nsbp * Nw)%nat -> lam k = grid_lambda (grid_pos k).
  Proof.
    intros Hk. unfold lam, lambdas, lambdasMat, grid_pos, SpectSpec.grid_lambda. fold M. fold step. rewrite dlam_eq.
    assert (E1 : Nat.eqb Nw 1 = false) by (apply Nat.eqb_neq; unfold Nw; lia). rewrite E1. cbn [andb].
    unfold sbp_center. rewrite E1. cbn [andb].
    assert (Hs : (k / Nw < Nsbp)%nat) by (apply Nat.div_lt_upper_bound; unfold Nw in *; nia).
    rewrite plus_INR, mult_INR. set (s := (k / Nw)%nat) in *. set (r := (k mod Nw)%nat).
    assert (ENw : INR Nw - 1 = INR K) by (unfold Nw; rewrite S_INR; ring). rewrite ENw.
    assert (Hstep : INR K * step = lambda0 * fracBW / INR Nsbp).
    { unfold step, M. rewrite mult_INR. field. split; apply not_0_INR; lia. }
    unfold linspace. destruct (Nat.eqb_spec Nsbp 1) as [e|Hn].
    - assert (s = 0%nat) by lia. rewrite H, e in *. cbn [INR] in *. replace (lambda0 * fracBW / 1) with (lambda0 * fracBW) in Hstep by field.
      replace (lambda0 * (1 - fracBW * (1 - 1 / 1) / 2)) with lambda0 by field.
      replace ((- (INR K / 2) + INR r) * step) with (- (INR K * step) / 2 + INR r * step) by field. rewrite Hstep. field.
    - replace ((- (INR K / 2) + INR r) * step) with (- (INR K * step) / 2 + INR r * step) by field.
      replace ((INR s * INR K + INR r) * step) with (INR s * (INR K * step) + INR r * step) by ring. rewrite Hstep.
      rewrite minus_INR by lia. cbn [INR]. assert (INR Nsbp <> 0) by (apply not_0_INR; lia). field. split; [|assumption || idtac]; try assumption.
      assert (1 < INR Nsbp) by (replace 1 with (INR 1) by reflexivity; apply lt_INR; lia). lra.
  Qed.
  Lemma grid_pos_le k : (k < Nsbp * Nw)%nat -> (grid_pos k <= M)%nat.
  Proof.
    intros Hk. unfold grid_pos, M. assert (k mod Nw < Nw)%nat by (apply Nat.mod_upper_bound; unfold Nw; lia).
    assert (k / Nw < Nsbp)%nat by (apply Nat.div_lt_upper_bound; unfold Nw in *; nia). unfold Nw in *. nia.
  Qed.
  Lemma grid_pos_onto q : (q <= M)%nat -> exists k, (k < Nsbp * Nw)%nat /\ grid_pos k = q.
  Proof.
    intros Hq. unfold M in Hq. destruct (Nat.eq_dec q (Nsbp * K)) as [e|Hn].
    - exists ((Nsbp - 1) * Nw + K)%nat. split; [unfold Nw; nia|]. unfold grid_pos.
      rewrite Nat.div_add_l by (unfold Nw; lia). rewrite (Nat.div_small K) by (unfold Nw; lia).
      rewrite (Nat.add_comm _ K), Nat.mod_add, Nat.mod_small by (unfold Nw; lia). nia.
    - exists (q / K * Nw + q mod K)%nat.
      assert (q mod K < K)%nat by (apply Nat.mod_upper_bound; lia).
      assert (q / K < Nsbp)%nat by (apply Nat.div_lt_upper_bound; nia). split; [unfold Nw; nia|].
      unfold grid_pos. rewrite Nat.div_add_l by (unfold Nw; lia). rewrite (Nat.div_small (q mod K)) by (unfold Nw; lia).
      rewrite (Nat.add_comm _ (q mod K)), Nat.mod_add, Nat.mod_small by (unfold Nw; lia).
      rewrite Nat.add_0_r. rewrite (Nat.mul_comm _ K). symmetry. apply Nat.div_mod. lia.
  Qed.

  (* ---- weights per grid position ---- *)
  Definition bump (x : Z) : R :=
    if (x =? 0)%Z || (x =? Z.of_nat K)%Z then 1/2 else if ((0 <? x) && (x <? Z.of_nat K))%Z%bool then 1 else 0.
  Lemma bump_sum n q : (1 <= n)%nat ->
    rsum n (fun s => bump (Z.of_nat q - Z.of_nat (s * K))) =
    if (q =? 0)%nat || (q =? n * K)%nat then 1/2 else if (q <? n * K)%nat then 1 else 0.
  Proof.
    induction n as [|n IH]; intros Hn; [lia|]. destruct (Nat.eq_dec n 0) as [->|Hn0].
    - cbn [rsum]. rewrite Rplus_0_l. unfold bump. cbn [Nat.mul]. rewrite Nat.add_0_r.
      destruct (Nat.eqb_spec q 0), (Nat.eqb_spec q K), (Nat.ltb_spec q K), (Z.eqb_spec (Z.of_nat q - Z.of_nat 0) 0),
        (Z.eqb_spec (Z.of_nat q - Z.of_nat 0) (Z.of_nat K)), (Z.ltb_spec 0 (Z.of_nat q - Z.of_nat 0)),
        (Z.ltb_spec (Z.of_nat q - Z.of_nat 0) (Z.of_nat K)); cbn; try lra; lia.
    - cbn [rsum]. rewrite IH by lia. unfold bump. replace (S n * K)%nat with (n * K + K)%nat by lia.
      assert (K <= n * K)%nat by nia. clear IH. generalize dependent (n * K)%nat. intros a Ha.
      destruct (Nat.eqb_spec q 0), (Nat.eqb_spec q a), (Nat.ltb_spec q a), (Nat.eqb_spec q (a + K)), (Nat.ltb_spec q (a + K)),
        (Z.eqb_spec (Z.of_nat q - Z.of_nat a) 0), (Z.eqb_spec (Z.of_nat q - Z.of_nat a) (Z.of_nat K)),
        (Z.ltb_spec 0 (Z.of_nat q - Z.of_nat a)), (Z.ltb_spec (Z.of_nat q - Z.of_nat a) (Z.of_nat K)); cbn; try lra; lia.
  Qed.
  Lemma block_sum s q : rsum Nw (fun wi => if Nat.eqb (s * K + wi) q then ends_half Nw wi else 0) = bump (Z.of_nat q - Z.of_nat (s * K)).
  Proof.
    destruct (le_lt_dec (s * K) q) as [H1|H1]; [destruct (le_lt_dec q (s * K + K)) as [H2|H2]|].
    - rewrite (rsum_single _ (q - s * K)) by ((unfold Nw; lia) || (intros i Hi Hni; destruct (Nat.eqb_spec (s * K + i) q); [lia|reflexivity])).
      replace (s * K + (q - s * K))%nat with q by lia. rewrite Nat.eqb_refl. unfold ends_half, bump, Nw.
      replace (S K - 1)%nat with K by lia. 
      generalize dependent (s * K)%nat. intros a A1 A2.
      destruct (Nat.eqb_spec (q - a) 0), (Nat.eqb_spec (q - a) K), (Z.eqb_spec (Z.of_nat q - Z.of_nat a) 0),
        (Z.eqb_spec (Z.of_nat q - Z.of_nat a) (Z.of_nat K)), (Z.ltb_spec 0 (Z.of_nat q - Z.of_nat a)),
        (Z.ltb_spec (Z.of_nat q - Z.of_nat a) (Z.of_nat K)); cbn; try lra; lia.
    - rewrite rsum_zero by (intros i Hi; destruct (Nat.eqb_spec (s * K + i) q); [unfold Nw in *; lia|reflexivity]).
      unfold bump. generalize dependent (s * K)%nat. intros a A1 A2.
      destruct (Z.eqb_spec (Z.of_nat q - Z.of_nat a) 0), (Z.eqb_spec (Z.of_nat q - Z.of_nat a) (Z.of_nat K)),
        (Z.ltb_spec (Z.of_nat q - Z.of_nat a) (Z.of_nat K)), (Z.ltb_spec 0 (Z.of_nat q - Z.of_nat a)); cbn; try lra; lia.
    - rewrite rsum_zero by (intros i Hi; destruct (Nat.eqb_spec (s * K + i) q); [unfold Nw in *; lia|reflexivity]).
      unfold bump. generalize dependent (s * K)%nat. intros a A1.
      destruct (Z.eqb_spec (Z.of_nat q - Z.of_nat a) 0), (Z.eqb_spec (Z.of_nat q - Z.of_nat a) (Z.of_nat K)),
        (Z.ltb_spec (Z.of_nat q - Z.of_nat a) (Z.of_nat K)), (Z.ltb_spec 0 (Z.of_nat q - Z.of_nat a)); cbn; try lra; lia.
  Qed.
  Lemma weights_at q : (q <= M)%nat -> rsum (Nsbp * Nw) (fun k => if Nat.eqb (grid_pos k) q then wt k else 0) = trapezoid q.
  Proof.
    intros Hq. rewrite rsum_mul_blocks.
    assert (E1 : Nat.eqb Nw 1 = false) by (apply Nat.eqb_neq; unfold Nw; lia).
    assert (SW : forall i, sbp_weight Nsbp Nw flagSim i = 1 / INR Nsbp).
    { intros i. unfold sbp_weight, normalised, sbp_raw. rewrite E1. cbn [andb]. rewrite rsum_const. f_equal. ring. }
    assert (LW : forall i, lam_weight Nw i = ends_half Nw i * (/ INR K)).
    { intros i. unfold lam_weight, normalised, lam_raw. rewrite E1. rewrite (rsum_ext _ _ (ends_half Nw)) by auto.
      rewrite ends_half_sum by (unfold Nw; lia). replace (Nw - 1)%nat with K by (unfold Nw; lia). reflexivity. }
    rewrite (rsum_ext Nsbp _ (fun i => bump (Z.of_nat q - Z.of_nat (i * K)) * (/ INR Nsbp * / INR K))).
    - rewrite rsum_scal_r, bump_sum by auto. unfold SpectSpec.trapezoid. fold M.
      rewrite <- Rinv_mult. rewrite <- mult_INR. fold M. fold (Rdiv (if (q =? 0)%nat || (q =? M)%nat then 1/2 else if (q <? M)%nat then 1 else 0) (INR M)).
      f_equal. destruct (Nat.eqb_spec q 0), (Nat.eqb_spec q M), (Nat.ltb_spec q M); cbn; auto; lia.
    - intros i Hi. rewrite <- block_sum, <- rsum_scal_r. apply rsum_ext. intros j Hj.
      unfold wt, lambda_weights_all0, grid_pos.
      rewrite Nat.div_add_l, Nat.div_small, Nat.add_0_r by (unfold Nw in *; lia). rewrite (Nat.add_comm _ j), Nat.mod_add, Nat.mod_small by (unfold Nw in *; lia).
      destruct (Nat.eqb (i * K + j) q); [|ring]. rewrite SW, LW. unfold Rdiv. ring.
  Qed.

  (* ---- more than 10 pm between neighbours ---- *)
  Hypothesis Hstep : / 10 ^ 11 < step.
  Lemma key_mono a b : (a < b)%nat -> (pm_key (grid_lambda a) < pm_key (grid_lambda b))%Z.
  Proof.
    intros H. unfold pm_key. apply lt_IZR.
    assert (A := Znearest_half (fun x => negb (Z.even x)) (10 ^ 12 * grid_lambda a)). apply Rabs_le_inv in A.
    assert (B := Znearest_half (fun x => negb (Z.even x)) (10 ^ 12 * grid_lambda b)). apply Rabs_le_inv in B.
    assert (D : grid_lambda b - grid_lambda a = INR (b - a) * step) by (unfold SpectSpec.grid_lambda; fold M; fold step; rewrite minus_INR by lia; ring).
    assert (1 <= INR (b - a)) by (replace 1 with (INR 1) by reflexivity; apply le_INR; lia).
    assert (P : / 10 ^ 11 <= grid_lambda b - grid_lambda a) by (rewrite D; nra).
    assert (10 <= 10 ^ 12 * grid_lambda b - 10 ^ 12 * grid_lambda a) by lra. lra.
  Qed.
  Lemma key_inj a b : pm_key (grid_lambda a) = pm_key (grid_lambda b) -> a = b.
  Proof.
    intros H. destruct (lt_eq_lt_dec a b) as [[C|C]|C]; auto; apply key_mono in C; lia.
  Qed.
  Lemma grid_sep i j : (i < Nsbp * Nw)%nat -> (j < Nsbp * Nw)%nat -> pm_key (lam i) <> pm_key (lam j) -> / 10 ^ 11 < Rabs (lam i - lam j).
  Proof.
    intros Hi Hj H. rewrite !lam_grid in * by auto.
    set (a := grid_pos i) in *. set (b := grid_pos j) in *.
    assert (Hab : a <> b) by congruence.
    assert (D : forall a b, (a < b)%nat -> / 10 ^ 11 < grid_lambda b - grid_lambda a).
    { intros x y Hxy. unfold SpectSpec.grid_lambda. fold M. fold step.
      assert (E : lambda0 * (1 - fracBW / 2) + INR y * step - (lambda0 * (1 - fracBW / 2) + INR x * step) = INR (y - x) * step) by (rewrite minus_INR by lia; ring).
      rewrite E. assert (1 <= INR (y - x)) by (replace 1 with (INR 1) by reflexivity; apply le_INR; lia). 
      assert (0 < / 10 ^ 11) by (apply Rinv_0_lt_compat; lra). nra. }
    destruct (lt_eq_lt_dec a b) as [[C|C]|C]; [|contradiction|].
    - rewrite Rabs_minus_sym. eapply Rlt_le_trans; [apply (D a b C)|apply Rle_abs].
    - eapply Rlt_le_trans; [apply (D b a C)|apply Rle_abs].
  Qed.
  Lemma keys_sorted_grid n s : StronglySorted Z.lt (map (fun q => pm_key (grid_lambda q)) (seq s n)).
  Proof.
    revert s. induction n as [|n IH]; intros s; cbn; [constructor|]. constructor; auto.
    apply Forall_forall. intros x Hx. apply in_map_iff in Hx. destruct Hx as (q & <- & Hq). apply in_seq in Hq. apply key_mono. lia.
  Qed.
  Lemma sorted_lt_le l : StronglySorted Z.lt l -> StronglySorted Z.le l.
  Proof.
    induction 1; constructor; auto. eapply Forall_impl; [|eassumption]. cbn. intros; lia.
  Qed.
  Lemma unique_keys_grid :
    map (fun k => pm_key (lam k)) (inds_unique (Nsbp * Nw) lam) = map (fun q => pm_key (grid_lambda q)) (seq 0 (S M)).
  Proof.
    unfold inds_unique. rewrite (unique_map_key (Nsbp * Nw) (fun k => pm_key (lam k))).
    apply sorted_perm_eq.
    - apply sorted_lt_le, uniq_keys_sorted.
    - apply sorted_lt_le, keys_sorted_grid.
    - apply NoDup_Permutation; [apply sorted_lt_nodup, uniq_keys_sorted|apply sorted_lt_nodup, keys_sorted_grid|].
      intros x. rewrite uniq_keys_In, !in_map_iff. split.
      + intros (k & <- & Hk). apply in_seq in Hk. exists (grid_pos k). rewrite lam_grid by lia. split; auto.
        apply in_seq. assert (grid_pos k <= M)%nat by (apply grid_pos_le; lia). lia.
      + intros (q & <- & Hq). apply in_seq in Hq. destruct (grid_pos_onto q) as (k & Hk & E); [lia|].
        exists k. rewrite lam_grid, E by auto. split; auto. apply in_seq. lia.
  Qed.
  Lemma unique_length : length (inds_unique (Nsbp * Nw) lam) = S M.
  Proof. rewrite <- (map_length (fun k => pm_key (lam k))), unique_keys_grid, map_length, seq_length. reflexivity. Qed.
  Lemma unique_pos p j : nth_error (inds_unique (Nsbp * Nw) lam) p = Some j -> (j < Nsbp * Nw)%nat /\ grid_pos j = p.
  Proof.
    intros H. assert (Hj : (j < Nsbp * Nw)%nat).
    { apply nth_error_In in H. now apply (unique_in (Nsbp * Nw) (fun k => pm_key (lam k))) in H. }
    split; auto.
    assert (Hp : (p < S M)%nat) by (rewrite <- unique_length; apply nth_error_Some; congruence).
    assert (E : nth_error (map (fun k => pm_key (lam k)) (inds_unique (Nsbp * Nw) lam)) p = Some (pm_key (lam j))) by now rewrite nth_error_map, H.
    rewrite unique_keys_grid, nth_error_map in E. rewrite (nth_error_nth' _ 0%nat) in E by now rewrite seq_length.
    rewrite seq_nth in E by auto. cbn [option_map Nat.add] in E. injection E as E. rewrite lam_grid in E by auto. symmetry. now apply key_inj.
  Qed.
  Lemma regular_result p : (p <= M)%nat -> exists j,
    nth_error (inds_unique (Nsbp * Nw) lam) p = Some j /\ lam j = grid_lambda p /\
    nth_error (merged_weights (Nsbp * Nw) lam wt) p = Some (trapezoid p).
  Proof.
    intros Hp. destruct (nth_error (inds_unique (Nsbp * Nw) lam) p) as [j|] eqn:E.
    2:{ apply nth_error_None in E. rewrite unique_length in E. lia. }
    destruct (unique_pos p j E) as [Hj Hg]. exists j. split; auto. split; [rewrite lam_grid by auto; now rewrite Hg|].
    rewrite (merged_entry (Nsbp * Nw) lam wt) with (j := j); auto.
    - f_equal. rewrite <- (weights_at p Hp). apply rsum_ext. intros k Hk.
      destruct (Z.eqb_spec (pm_key (lam k)) (pm_key (lam j))) as [e|e]; destruct (Nat.eqb_spec (grid_pos k) p) as [e'|e']; auto; exfalso.
      + apply e'. rewrite !lam_grid in e by auto. apply key_inj in e. congruence.
      + apply e. rewrite !lam_grid by auto. congruence.
    - intros; apply grid_sep; auto.
  Qed.
End Regular.
