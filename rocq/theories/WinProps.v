(* C72: the tapered window in front of the vortex mask (prop.gen_tukey_for_vortex). *)
From Verif Require Import Base RBase OptModel WinSpec WinProofs.
Open Scope R_scope.
(* every radius, window size (at least two table entries) and taper in (0, 1] *)
Theorem C72_range Nw a rho : / 5 <= Nw -> 0 < a <= 1 -> 0 <= tukey_window Nw a rho <= 1.
Proof. exact (fun HN Ha => win_range Nw a HN Ha rho). Qed.
Theorem C72_zero_outside Nw a rho : / 5 <= Nw -> 0 < a <= 1 -> Nw / 2 <= Rabs rho -> tukey_window Nw a rho = 0.
Proof. exact (fun HN Ha => win_outside Nw a HN Ha rho). Qed.
Theorem C72_even Nw a rho : / 5 <= Nw -> 0 < a <= 1 -> tukey_window Nw a (- rho) = tukey_window Nw a rho.
Proof. exact (fun HN Ha => win_even Nw a HN Ha rho). Qed.
(* n = int(10*Nwindow) entries in the table *)
Theorem C72_flat_centre Nw a rho : / 5 <= Nw -> 0 < a <= 1 -> let n := INR (Z.to_nat (Int_part (10 * Nw))) in
  Rabs rho <= (1 - a) * (Nw / 2) - Nw / (n - 1) -> tukey_window Nw a rho = 1.
Proof. exact (fun HN Ha => win_flat Nw a HN Ha rho). Qed.
Theorem C72_close_to_ideal Nw a rho : / 5 <= Nw -> 0 < a <= 1 -> let n := INR (Z.to_nat (Int_part (10 * Nw))) in
  Rabs rho <= Nw / 2 -> Rabs (tukey_window Nw a rho - ideal_window a (2 * Rabs rho / Nw)) <= PI / (a * (n - 1)).
Proof. exact (fun HN Ha => win_error Nw a HN Ha rho). Qed.
(* at the table radii the window is exact *)
Theorem C72_exact_at_samples Nw a k : / 5 <= Nw -> 0 < a <= 1 -> let n := Z.to_nat (Int_part (10 * Nw)) in (S k < n)%nat ->
  let rho := - Nw / 2 + INR k * (Nw / (INR n - 1)) in tukey_window Nw a rho = ideal_window a (2 * Rabs rho / Nw).
Proof.
  intros HN Ha n Hk rho. pose proof (m_pos Nw HN) as MP. pose proof (st_pos Nw HN) as SP.
  assert (E : tukey_window Nw a rho = tukey n a k). { rewrite (win_at Nw a HN rho k); [|exact Hk|split; [apply Rle_refl|left; apply (X_inc Nw HN)]]. unfold rho, n, nlut. ring. }
  rewrite E. unfold n. pose proof (F_ideal Nw a HN Ha k) as F. unfold nlut in F. rewrite F by (unfold n in Hk; lia). f_equal. fold n. fold rho. unfold Rdiv. rewrite !Rabs_mult, (Rabs_right 2), (Rabs_right (/ Nw)) by (try lra; apply Rle_ge; left; apply Rinv_0_lt_compat; lra). reflexivity.
Qed.
(* a window of 10 samples with a 30 percent taper: full at the centre, zero at the edge, one half half way down the taper of the ideal window *)
Example C72_example : tukey_window 10 (3 / 10) 0 = 1 /\ tukey_window 10 (3 / 10) 5 = 0 /\ ideal_window (3 / 10) (85 / 100) = / 2.
Proof.
  assert (E : Int_part (10 * 10) = 100%Z). { destruct (base_Int_part (10 * 10)) as [H1 H2]. apply Z.le_antisymm; [apply le_IZR; lra|]. apply Z.lt_pred_le, lt_IZR. change (IZR (Z.pred 100)) with 99. lra. }
  split; [|split].
  - apply C72_flat_centre; [lra|lra|]. rewrite E. change (INR (Z.to_nat 100)) with (INR 100). rewrite INR_IZR_INZ. change (IZR (Z.of_nat 100)) with 100. rewrite Rabs_R0. lra.
  - apply C72_zero_outside; [lra|lra|]. rewrite Rabs_right; lra.
  - unfold ideal_window. destruct (Rle_dec (85 / 100) (1 - 3 / 10)); [lra|]. replace (PI * ((85 / 100 - (1 - 3 / 10)) / (3 / 10))) with (PI / 2) by field. rewrite cos_PI2. lra.
Qed.
Lemma interp_const x c : forall xp fp, Forall (fun f => f = c) fp -> length xp = length fp -> fp <> nil -> np_interp x xp fp = c.
Proof.
  induction xp as [|x0 xt IH]; intros [|f0 ft] F L N; try discriminate; [contradiction|].
  inversion F as [|? ? E F2]; subst. destruct xt as [|x1 xt], ft as [|f1 ft]; try discriminate; [reflexivity|].
  rewrite interp_cons. inversion F2 as [|? ? E1 F3]; subst. destruct (Rlt_dec x x0); [reflexivity|].
  destruct (Rlt_dec x x1); [unfold Rdiv; ring|]. apply IH; auto. discriminate.
Qed.
(* no taper (a <= 0): nothing is windowed, at any radius *)
Theorem C72_no_taper Nw a rho : / 5 <= Nw -> a <= 0 -> tukey_window Nw a rho = 1.
Proof.
  intros HN Ha. unfold tukey_window. cbv zeta. apply interp_const.
  - apply Forall_forall. intros f Hf. apply in_map_iff in Hf as (k & <- & _). unfold tukey.
    destruct (Nat.eqb _ 1); [reflexivity|]. destruct (Rle_dec a 0); [reflexivity|contradiction].
  - now rewrite !map_length.
  - intros E. apply map_eq_nil in E. destruct (Z.to_nat (Int_part (10 * Nw))) eqn:En; [|discriminate].
    pose proof (base_Int_part (10 * Nw)) as (B1 & B2).
    assert (1 <= Int_part (10 * Nw))%Z by (apply Z.lt_pred_le, lt_IZR; simpl (IZR (Z.pred 1)); lra). lia.
Qed.
