From Verif Require Import Base StrBase RBase CtrlModel UtilModel DmSurfModel CubModel CubProofs DmcModel CBase PropModel PropProofs OptModel ErrModel ErrSpec MagModel MagSpec MagProofs MagProofs2.
Open Scope R_scope.
Lemma divisor_eq k c mag : conserve k c mag = divisor k c mag.
Proof. unfold conserve, divisor. destruct (m_cons k), (m_amp k), c; simpl; ring. Qed.
Lemma size_given lib q n mag m : (0 < m)%nat -> mag <> 0 -> magnify_size lib q n mag m = Ok m.
Proof.
  intros H Z. unfold magnify_size, out_size. cbv zeta. destruct (Nat.eqb_spec m 0); [lia|]. destruct (Z.eqb_spec (Z.of_nat m) 0); [lia|]. rewrite Bool.andb_false_r.
  destruct (Z.ltb_spec (Z.of_nat m) 0); [lia|]. destruct (Req_EM_T mag 0); [contradiction|]. now rewrite Nat2Z.id.
Qed.
Definition rounding (lib : bool) := if lib then roundval else away.
Lemma rounding_close lib : close (rounding lib). Proof. destruct lib; [apply round_close|apply away_close]. Qed.
Definition memory (lib : bool) (mem : nat -> nat -> R) := if lib then mem else (fun _ _ => 0).
Lemma magnify_sinc ip lib mem c im mag m k : (0 < m)%nat -> mag <> 0 -> m_quick k = false ->
  magnify_with ip lib mem c im mag m k = Ok (mkf m m (fun j i => fpx (zoom (rounding lib) (memory lib mem) im m mag) j i / divisor k c mag)).
Proof.
  intros H Z Q. unfold magnify_with. rewrite Q, size_given by assumption. cbn [rbind]. cbv zeta. rewrite divisor_eq. destruct lib; reflexivity.
Qed.
Lemma zoom_border rnd mem im n m mag j i : close rnd -> square im n -> (fits rnd n m mag j && fits rnd n m mag i = false)%bool -> fpx (zoom rnd mem im m mag) j i = mem j i.
Proof. intros C [S1 S2] F. unfold zoom. cbv zeta. cbn [fpx]. now rewrite S1, F. Qed.
Lemma rsum_plus' n f g : rsum n (fun i => f i + g i) = rsum n f + rsum n g.
Proof. induction n; simpl; [ring|]. rewrite IHn. ring. Qed.
Lemma zoom_linear rnd im1 im2 a b m mag n j i : square im1 n -> square im2 n ->
  fpx (zoom rnd (fun _ _ => 0) (mkf n n (fun y x => a * fpx im1 y x + b * fpx im2 y x)) m mag) j i =
  a * fpx (zoom rnd (fun _ _ => 0) im1 m mag) j i + b * fpx (zoom rnd (fun _ _ => 0) im2 m mag) j i.
Proof.
  intros [A1 A2] [B1 B2]. unfold zoom. cbv zeta. cbn [fpx frows]. rewrite A1, B1. destruct (_ && _)%bool; [|ring].
  rewrite <- !rsum_scal, <- rsum_plus'. apply rsum_ext'. intros y _. rewrite <- !Rmult_assoc, <- !rsum_scal. rewrite <- Rmult_plus_distr_r, <- rsum_plus'.
  f_equal. apply rsum_ext'. intros x _. ring.
Qed.
(* uniform image *)
Lemma read_const v n y x : read_at (mkf n n (fun _ _ => v)) y x = v * rsum n (fun a => lanczos6 (INR a - y)) * rsum n (fun b => lanczos6 (INR b - x)).
Proof.
  unfold read_at. cbn [frows fcols fpx].
  rewrite (rsum_ext' n _ (fun a => (v * rsum n (fun b => lanczos6 (INR b - x))) * lanczos6 (INR a - y))); [rewrite rsum_scal; ring|].
  intros a _. rewrite (rsum_ext' n _ (fun b => (lanczos6 (INR a - y) * v) * lanczos6 (INR b - x))) by (intros; ring). rewrite rsum_scal. ring.
Qed.
Lemma sum_at_pixel n p : (p < n)%nat -> rsum n (fun a => lanczos6 (INR a - INR p)) = 1.
Proof. intros H. rewrite (rsum_ext' n _ (fun a => (if Nat.eqb a p then 1 else 0) * 1)). - apply (rsum_pick n p (fun _ => 1) H). - intros a _. rewrite lanczos_nat. ring. Qed.
Lemma sum_half : rsum 17 (fun a => lanczos6 (INR a - 17 / 2)) = 2 * halves.
Proof.
  cbn [rsum]. rewrite !INR_IZR_INZ. cbn [Z.of_nat Pos.of_succ_nat Pos.succ].
  rewrite (lanczos_out (0 - 17 / 2)), (lanczos_out (1 - 17 / 2)), (lanczos_out (2 - 17 / 2)), (lanczos_out (15 - 17/2)), (lanczos_out (16 - 17/2)); try (unfold Rabs; destruct (Rcase_abs _); lra).
  replace (3 - 17/2) with (- (11/2)) by field. replace (4 - 17/2) with (- (9/2)) by field. replace (5 - 17/2) with (- (7/2)) by field. replace (6 - 17/2) with (- (5/2)) by field.
  replace (7 - 17/2) with (- (3/2)) by field. replace (8 - 17/2) with (- (1/2)) by field. replace (9 - 17/2) with (1/2) by field. replace (10 - 17/2) with (3/2) by field.
  replace (11 - 17/2) with (5/2) by field. replace (12 - 17/2) with (7/2) by field. replace (13 - 17/2) with (9/2) by field. replace (14 - 17/2) with (11/2) by field.
  rewrite !lanczos_neg. unfold halves. ring.
Qed.
(* pixellate *)
Lemma freq_ix n i : (i < n)%nat -> IZR (Z.of_nat (roll_ix n (- half n) i)) - INR (n / 2) = if Nat.ltb i (n - n / 2) then INR i else INR i - INR n.
Proof.
  intros H. unfold roll_ix, half. rewrite Z2Nat.id by (apply Z.mod_pos_bound; lia). rewrite !INR_IZR_INZ, <- !minus_IZR.
  assert (D : (2 * (n / 2) <= n < 2 * (n / 2) + 2)%nat). { pose proof (Nat.div_mod n 2 ltac:(lia)). pose proof (Nat.mod_upper_bound n 2 ltac:(lia)). lia. }
  destruct (Nat.ltb_spec i (n - n / 2)); f_equal.
  - rewrite Z.mod_small by lia. lia.
  - replace (Z.of_nat i - - Z.of_nat (n / 2))%Z with (Z.of_nat i + Z.of_nat (n / 2) - Z.of_nat n + 1 * Z.of_nat n)%Z by lia. rewrite Z.mod_add by lia. rewrite Z.mod_small by lia. lia.
Qed.
Lemma mtf_value n a b i : a <> 0 -> b <> 0 -> (2 <= n)%nat -> (i < n)%nat ->
  pixel_mtf n a b i = sinc (b / a * ((if Nat.ltb i (n - n / 2) then INR i else INR i - INR n) / (2 * INR (n / 2)))).
Proof.
  intros A B N H. unfold pixel_mtf. cbv zeta. rewrite (INR_IZR_INZ (roll_ix _ _ _)), freq_ix by exact H.
  assert (D : INR (n / 2) <> 0). { apply not_0_INR. pose proof (Nat.div_le_mono 2 n 2 ltac:(lia) N). rewrite Nat.div_same in H0; lia. }
  destruct (Nat.eqb_spec i 0) as [E|E].
  - subst i. destruct (Nat.ltb_spec 0 (n - n / 2)); [|exfalso; pose proof (Nat.div_lt n 2); lia]. simpl (INR 0). unfold sinc. match goal with |- context [Req_EM_T ?x 0] => destruct (Req_EM_T x 0) as [Q|Q] end; [reflexivity|]. exfalso. apply Q. field. auto.
  - set (f := if Nat.ltb i (n - n / 2) then INR i else INR i - INR n). assert (F : f <> 0).
    { unfold f. destruct (Nat.ltb i (n - n / 2)); [apply not_0_INR; lia|]. apply lt_INR in H. lra. }
    unfold sinc. match goal with |- context [Req_EM_T ?x 0] => destruct (Req_EM_T x 0) as [Q|Q] end.
    + exfalso. apply F. replace f with (b / a * (f / (2 * INR (n / 2))) * (2 * INR (n / 2)) * a / b) by (field; auto). rewrite Q. field. auto.
    + replace (f / INR (n / 2) * (1 / 2 * (b / a) * PI)) with (PI * (b / a * (f / (2 * INR (n / 2))))) by (field; auto). reflexivity.
Qed.
Lemma dft_const s n c u : (s = 1 \/ s = -1) -> (u < n)%nat -> dft s n (fun _ => c) u = if Nat.eqb u 0 then Cmult (RtoC (INR n)) c else RtoC 0.
Proof.
  intros S H. unfold dft. rewrite csum_scal. rewrite (csum_ext n _ (fun j => Cmult (ph (- s) n j 0) (ph s n u j))).
  - rewrite dft_orth by (auto; lia). rewrite Nat.eqb_sym. destruct (Nat.eqb u 0); ring.
  - intros j _. unfold ph at 2. replace (_ * _ / _) with 0 by (simpl (INR 0); unfold Rdiv; ring). rewrite cis_0. ring.
Qed.
Lemma dft2_const s n c u v : (s = 1 \/ s = -1) -> (u < n)%nat -> (v < n)%nat -> dft2 s n n (fun _ _ => c) u v = if (Nat.eqb u 0 && Nat.eqb v 0)%bool then Cmult (RtoC (INR n * INR n)) c else RtoC 0.
Proof.
  intros S U V. rewrite dft2_sep. rewrite (dft_ext s n _ (fun _ => if Nat.eqb v 0 then Cmult (RtoC (INR n)) c else RtoC 0)) by (intros; apply dft_const; assumption).
  rewrite dft_const by assumption. destruct (Nat.eqb u 0), (Nat.eqb v 0); cbn [andb]; try reflexivity; [rewrite RtoC_mult|]; ring.
Qed.
Lemma dft2_ext s M N x y u v : (forall i j, (i < M)%nat -> (j < N)%nat -> x i j = y i j) -> dft2 s M N x u v = dft2 s M N y u v.
Proof. intros H. unfold dft2. apply csum_ext. intros i Hi. apply csum_ext. intros j Hj. now rewrite H. Qed.
Lemma conv_const v n a b i j : a <> 0 -> b <> 0 -> (i < n)%nat -> (j < n)%nat -> fpx (pixel_conv (mkf n n (fun _ _ => v)) a b) i j = Rabs v * (b / a) ^ 2.
Proof.
  intros A B Hi Hj. unfold pixel_conv. cbv zeta. unfold roll2, fft_scaled. cbn [fpx frows fcols].
  set (i' := roll_ix n (half n) i). set (j' := roll_ix n (half n) j). assert (I' : (i' < n)%nat) by (apply roll_lt; lia). assert (J' : (j' < n)%nat) by (apply roll_lt; lia).
  assert (N : INR n <> 0) by (apply not_0_INR; lia).
  rewrite (dft2_ext 1 n n _ (dft2 (-1) n n (fun _ _ => RtoC (v / (INR n * INR n))))).
  - replace (-1) with (- (1)) by ring. rewrite dft2_inverse by (auto; lia). rewrite <- !RtoC_mult. rewrite Cmod_R. replace (1 * _) with v by (field; auto). field. auto.
  - intros p q P Q. rewrite !dft2_const by (auto; lia). destruct (Nat.eqb_spec p 0), (Nat.eqb_spec q 0); cbn [andb]; try ring. subst. cbn [pixel_mtf Nat.eqb]. unfold pixel_mtf. cbn [Nat.eqb]. rewrite <- !RtoC_mult. f_equal. field. auto.
Qed.
