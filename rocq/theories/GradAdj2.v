(* Adjoint pairs for the propagators. *)
From Verif Require Import Base RBase StrBase UtilModel CBase PropModel PropSpec PropProofs PropProofs2 OptModel OptSpec LinBase OptProofs OptProofs2 OptProofs3 OptProofs4 OptProofs7 GradAdj.
Open Scope R_scope.

Lemma conj_RtoC a : Cconj (RtoC a) = RtoC a. Proof. unfold Cconj, RtoC; cbn; f_equal; ring. Qed.
Lemma transfer_conj M N w dx z u v : Cconj (transfer M N w dx z u v) = transfer M N w dx (- z) u v.
Proof. unfold transfer. rewrite Cconj_mult, <- !cis_neg. f_equal; f_equal; ring. Qed.
Lemma prop_shape k E n m : shape E n m -> shape (prop_z k E) n m. Proof. intros [H1 H2]. split; cbn; auto. Qed.
Lemma adj_prop_z k n m : adj 1 (fun E => Ok (prop_z k E)) (fun E => Ok (prop_z (fun u v => Cconj (k u v)) E)) n m n m.
Proof.
  pose (c := / (INR n * INR m)).
  assert (H : adj 1 (fun E => do A <- (do A <- (do A <- (do A <- Ok (roll2 (half n) (half m) E); Ok (fft_scaled (-1) 1 A)); Ok (mul_by k A)); Ok (fft_scaled 1 c A)); Ok (roll2 (- half n) (- half m) A))
    (fun G => do A <- Ok (roll2 (half n) (half m) G); do A <- Ok (fft_scaled (-1) c A); do A <- Ok (mul_by (fun u v => Cconj (k u v)) A); do A <- Ok (fft_scaled 1 1 A); Ok (roll2 (- half n) (- half m) A)) n m n m).
  { replace 1 with (1 * 1 * 1 * 1 * 1) at 1 by ring.
    apply adj_bind with (n1 := n) (m1 := m); [|pose proof (adj_roll (- half n) (- half m) n m) as X; rewrite !Z.opp_involutive in X; exact X].
    apply adj_bind with (n1 := n) (m1 := m); [|apply (adj_fft 1 (fun _ _ => c))].
    apply adj_bind with (n1 := n) (m1 := m); [|apply adj_mul_by].
    apply adj_bind with (n1 := n) (m1 := m); [apply adj_roll|].
    pose proof (adj_fft (-1) (fun _ _ => 1) n m) as X. cbv beta in X. replace (- -1) with 1 in X by ring. exact X. }
  apply (adj_ext _ _ _ _ _ _ _ _ _ H).
  - intros E [S1 S2]. cbn [rbind]. unfold prop_z, ifftshift, fftshift, ifftn, fftn, size. cbn [frows fcols roll2 fft_scaled mul_by]. rewrite S1, S2. apply feq_refl.
  - intros E [S1 S2]. cbn [rbind]. unfold prop_z, ifftshift, fftshift, ifftn, fftn, size. cbn [frows fcols roll2 fft_scaled mul_by]. rewrite S1, S2.
    apply roll2_feq. split; [reflexivity|]. split; [reflexivity|]. intros u v Hu Hv. cbn [fft_scaled mul_by fpx frows fcols roll2]. rewrite S1, S2. fold c.
    rewrite (dft2_ext 1 n m _ (fun i j => Cmult (RtoC c) (Cmult (Cconj (k i j)) (Cmult (RtoC 1) (dft2 (-1) n m (fun a b => fpx E (roll_ix n (half n) a) (roll_ix m (half m) b)) i j)))) u v) by (intros; ring).
    rewrite dft2_scal. ring.
Qed.
Lemma adj_ptp fw w z n : 0 < fw -> 0 < w -> (1 <= n)%nat -> adj 1 (fun E => ptp E fw w z) (fun E => ptp E fw w (- z)) n n n n.
Proof.
  intros Hf Hw Hn. apply (adj_ext 1 (fun E => Ok (prop_z (transfer n n w (fw / INR n) z) E)) (fun E => Ok (prop_z (fun u v => Cconj (transfer n n w (fw / INR n) z u v)) E))); [apply adj_prop_z| |].
  - intros E [S1 S2]. destruct (ptp_formula E fw w z) as (O & -> & F); [auto|auto|congruence|lia|]. rewrite S1, S2 in F. apply feq_sym. exact F.
  - intros E [S1 S2]. destruct (ptp_formula E fw w (- z)) as (O & -> & F); [auto|auto|congruence|lia|]. rewrite S1, S2 in F. apply feq_sym in F. cbn. eapply feq_trans; [|exact F].
    unfold prop_z. apply ifftshift_feq, fft_scaled_feq. split; [reflexivity|]. split; [reflexivity|]. intros u v Hu Hv. cbn [mul_by fpx]. now rewrite transfer_conj.
Qed.
Lemma fourier_kernel (op : field C -> res (field C)) n m n' m' (s : R) (y x ey ex : nat -> R) (lf : R) :
  (forall E, shape E n m -> exists O, op E = Ok O /\ frows O = n' /\ fcols O = m' /\ forall k l, (k < n')%nat -> (l < m')%nat -> fpx O k l = Cmult (RtoC s) (fourier_sum (frows E) (fcols E) (fpx E) y x lf (ey k) (ex l))) ->
  has_kernel op n m n' m' (fun k l i j => Cmult (RtoC s) (cis (- (2 * PI) * (ey k * y i + ex l * x j) / lf))).
Proof.
  intros H E S. destruct (H E S) as (O & EO & O1 & O2 & V). destruct S as [S1 S2]. exists O. split; [auto|]. split; [split; auto|]. intros k l Hk Hl. rewrite V by auto. rewrite S1, S2. unfold fourier_sum, apply_kernel.
  rewrite <- csum_scal. apply csum_ext. intros i _. rewrite <- csum_scal. apply csum_ext. intros j _. ring.
Qed.
(* pupil to focus / focus to pupil with the focal length negated; the two focal axes have one pitch *)
Lemma adj_p2f fl w dx d Nxi Neta c n : c <> OtherCentering -> 0 < w -> 0 < dx -> 0 < d -> (1 <= Nxi)%nat -> (1 <= Neta)%nat -> (1 <= n)%nat -> fl <> 0 ->
  adj (-1) (fun E => mft_p2f E fl w dx d Nxi d Neta c) (fun E => mft_f2p E (- fl) w d d dx n c) n n Neta Nxi.
Proof.
  intros Hc Hw Hdx Hd H1 H2 Hn Hfl.
  apply (adj_kernel (-1) _ _ n n Neta Nxi _ _
    (fourier_kernel (fun E => mft_p2f E fl w dx d Nxi d Neta c) n n Neta Nxi (sqrt (dx * dx * d * d) / (w * fl)) (coord n dx c) (coord n dx c) (coord Neta d c) (coord Nxi d c) (w * fl) ltac:(intros E [S1 S2]; destruct (p2f_value E fl w dx d Nxi d Neta c) as (O & EO & O1 & O2 & V); auto; try congruence; try lia; exists O; rewrite S1, S2 in V; rewrite S1, S2; auto))
    (fourier_kernel (fun E => mft_f2p E (- fl) w d d dx n c) Neta Nxi n n (sqrt (dx * dx * d * d) / (w * - fl)) (coord Neta d c) (coord Nxi d c) (coord n dx c) (coord n dx c) (w * - fl) ltac:(intros E [S1 S2]; destruct (f2p_value E (- fl) w d d dx n c) as (O & EO & O1 & O2 & V); auto; try congruence; try lia; try lra; exists O; rewrite S1, S2 in V; rewrite S1, S2; auto))); [|ring].
  intros k l i j _ _ _ _. rewrite Cconj_mult, conj_RtoC, <- cis_neg, Cmult_assoc, <- RtoC_mult. f_equal; [f_equal; field; lra|f_equal; field; lra].
Qed.
Lemma adj_f2p fl w dx d Nxi Neta c n : c <> OtherCentering -> 0 < w -> 0 < dx -> 0 < d -> (1 <= Nxi)%nat -> (1 <= Neta)%nat -> (1 <= n)%nat -> fl <> 0 ->
  adj (-1) (fun E => mft_f2p E fl w d d dx n c) (fun E => mft_p2f E (- fl) w dx d Nxi d Neta c) Neta Nxi n n.
Proof.
  intros Hc Hw Hdx Hd H1 H2 Hn Hfl.
  apply (adj_kernel (-1) _ _ Neta Nxi n n _ _
    (fourier_kernel (fun E => mft_f2p E fl w d d dx n c) Neta Nxi n n (sqrt (dx * dx * d * d) / (w * fl)) (coord Neta d c) (coord Nxi d c) (coord n dx c) (coord n dx c) (w * fl) ltac:(intros E [S1 S2]; destruct (f2p_value E fl w d d dx n c) as (O & EO & O1 & O2 & V); auto; try congruence; try lia; try lra; exists O; rewrite S1, S2 in V; rewrite S1, S2; auto))
    (fourier_kernel (fun E => mft_p2f E (- fl) w dx d Nxi d Neta c) n n Neta Nxi (sqrt (dx * dx * d * d) / (w * - fl)) (coord n dx c) (coord n dx c) (coord Neta d c) (coord Nxi d c) (w * - fl) ltac:(intros E [S1 S2]; destruct (p2f_value E (- fl) w dx d Nxi d Neta c) as (O & EO & O1 & O2 & V); auto; try congruence; try lia; try lra; exists O; rewrite S1, S2 in V; rewrite S1, S2; auto))); [|ring].
  intros k l i j _ _ _ _. rewrite Cconj_mult, conj_RtoC, <- cis_neg, Cmult_assoc, <- RtoC_mult. f_equal; [f_equal; field; lra|f_equal; field; lra].
Qed.
Lemma crop_src_swap n r i p : (i < n)%nat -> (p < r)%nat -> (crop_src n r i = Some p <-> crop_src r n p = Some i).
Proof.
  intros Hi Hp. unfold crop_src. split; destruct (_ && _)%bool eqn:B; try discriminate; intros Q; injection Q as <-.
  - replace (Z.of_nat n / 2 + (Z.of_nat (Z.to_nat (Z.of_nat r / 2 + (Z.of_nat i - Z.of_nat n / 2))) - Z.of_nat r / 2))%Z with (Z.of_nat i) by lia.
    rewrite Nat2Z.id. destruct ((0 <=? Z.of_nat i) && (Z.of_nat i <? Z.of_nat n))%Z eqn:B2; [auto|lia].
  - replace (Z.of_nat r / 2 + (Z.of_nat (Z.to_nat (Z.of_nat n / 2 + (Z.of_nat p - Z.of_nat r / 2))) - Z.of_nat n / 2))%Z with (Z.of_nat p) by lia.
    rewrite Nat2Z.id. destruct ((0 <=? Z.of_nat p) && (Z.of_nat p <? Z.of_nat r))%Z eqn:B2; [auto|lia].
Qed.
Definition crop_kernel (n m r c k l i j : nat) : C := match crop_src n r k, crop_src m c l with Some p, Some q => if Nat.eqb i p && Nat.eqb j q then RtoC 1 else RtoC 0 | _, _ => RtoC 0 end.
Lemma pad_crop_kernel n m r c : (1 <= n)%nat -> (1 <= m)%nat -> has_kernel (fun E => pad_cropf E n m) r c n m (crop_kernel n m r c).
Proof.
  intros Hn Hm E [S1 S2]. destruct (pad_cropf_px E n m) as (O & EO & SO & V); [lia|lia|]. exists O. split; [auto|]. split; [auto|]. intros k l Hk Hl. rewrite V, S1, S2 by auto. unfold apply_kernel, crop_kernel.
  destruct (crop_src n r k) as [p|] eqn:Ep; [destruct (crop_src m c l) as [q|] eqn:Eq|].
  - rewrite (csum_single r p); [|eapply crop_src_lt; eauto|].
    + rewrite (csum_single c q); [|eapply crop_src_lt; eauto|]; [rewrite !Nat.eqb_refl; cbn; ring|]. intros j _ Hj. rewrite (proj2 (Nat.eqb_neq j _) Hj), andb_false_r. ring.
    + intros i _ Hi. apply csum_zero. intros j _. rewrite (proj2 (Nat.eqb_neq i _) Hi). cbn. ring.
  - symmetry. apply csum_zero. intros. apply csum_zero. intros. ring.
  - symmetry. apply csum_zero. intros. apply csum_zero. intros. ring.
Qed.
Lemma adj_pad_crop n m r c : (1 <= n)%nat -> (1 <= m)%nat -> (1 <= r)%nat -> (1 <= c)%nat -> adj 1 (fun E => pad_cropf E n m) (fun E => pad_cropf E r c) r c n m.
Proof.
  intros. apply (adj_kernel 1 _ _ r c n m (crop_kernel n m r c) (crop_kernel r c n m)); [now apply pad_crop_kernel|now apply pad_crop_kernel| |ring].
  intros k l i j Hk Hl Hi Hj. unfold crop_kernel.
  assert (A : forall a b x y, (x < a)%nat -> (y < b)%nat -> match crop_src a b x with Some p => Nat.eqb y p | None => false end = match crop_src b a y with Some p => Nat.eqb x p | None => false end).
  { intros a b x y Hx Hy. pose proof (crop_src_swap a b x y Hx Hy) as X. destruct (crop_src a b x) as [p|], (crop_src b a y) as [q|]; auto.
    - destruct (Nat.eqb_spec y p) as [->|N1], (Nat.eqb_spec x q) as [->|N2]; auto; exfalso; [apply N2; destruct X as [X _]; specialize (X eq_refl); congruence|apply N1; destruct X as [_ X]; specialize (X eq_refl); congruence].
    - destruct (Nat.eqb_spec y p) as [->|N1]; auto. destruct X as [X _]. specialize (X eq_refl). discriminate.
    - destruct (Nat.eqb_spec x q) as [->|N1]; auto. destruct X as [_ X]. specialize (X eq_refl). discriminate. }
  pose proof (A n r k i Hk Hi) as A1. pose proof (A m c l j Hl Hj) as A2.
  assert (Z0 : Cmult (RtoC 1) (Cconj (RtoC 0)) = RtoC 0) by (rewrite conj_RtoC; ring). assert (Z1 : Cmult (RtoC 1) (Cconj (RtoC 1)) = RtoC 1) by (rewrite conj_RtoC; ring).
  assert (F : forall a b c d x y u v, crop_kernel a b c d x y u v = if match crop_src a c x with Some p => Nat.eqb u p | None => false end && match crop_src b d y with Some p => Nat.eqb v p | None => false end then RtoC 1 else RtoC 0).
  { intros. unfold crop_kernel. destruct (crop_src a c0 x), (crop_src b d y); cbn [andb]; rewrite ?andb_false_r; auto. }
  fold (crop_kernel r c n m i j k l). fold (crop_kernel n m r c k l i j). rewrite !F, A1, A2. destruct (_ && _)%bool; auto.
Qed.
Lemma adj_vortex q br iv ov n : 0 < br -> 0 < iv -> 0 < ov -> adj 1 (fun E => mft_p2v2p E q br iv ov false) (fun E => mft_p2v2p E q br iv ov true) n n n n.
Proof.
  intros H1 H2 H3 E G SE SG.
  assert (T : forall X rev, shape X n n -> exists V, mft_p2v2p X q br iv ov rev = Ok V /\ shape V n n).
  { intros X rev [S1 S2]. unfold mft_p2v2p. destruct (Rle_dec br 0); [lra|]. destruct (Rle_dec iv 0); [lra|]. destruct (Rle_dec ov 0); [lra|]. rewrite S1, S2, Nat.eqb_refl. cbn [negb]. eexists. split; [reflexivity|]. split; reflexivity. }
  destruct (T E false SE) as (VE & EE & SVE). destruct (T G true SG) as (VG & EG & SVG). exists VE, VG. split; [auto|]. split; [auto|]. split; [auto|]. split; [auto|].
  rewrite (vortex_adjoint q br iv ov E G VE VG n SE SG EE EG). ring.
Qed.
(* difference of two programs applied to one field *)
Lemma inner_minus_r n m a b c : inner n m a (fun i j => Cminus (b i j) (c i j)) = Cminus (inner n m a b) (inner n m a c).
Proof.
  replace (Cminus (inner n m a b) (inner n m a c)) with (Cplus (inner n m a b) (Cmult (Copp (RtoC 1)) (inner n m a c))) by ring. rewrite <- inner_scal_r, <- inner_plus_r. apply inner_ext; intros; [auto|ring].
Qed.
Lemma adj_minus s f rf g rg n m n' m' : adj s f rf n m n' m' -> adj s g rg n m n' m' ->
  adj s (fun E => do A <- f E; do B <- g E; bop Cminus A B) (fun G => do A <- rf G; do B <- rg G; bop Cminus A B) n m n' m'.
Proof.
  intros HF HG E G SE SG. destruct (HF E G SE SG) as (A & A' & -> & SA & -> & SA' & QA). destruct (HG E G SE SG) as (B & B' & -> & SB & -> & SB' & QB). cbn [rbind].
  destruct (bop_sq Cminus A B n' m' SA SB) as (O & -> & SO & VO). destruct (bop_sq Cminus A' B' n m SA' SB') as (R & -> & SR & VR).
  exists O, R. split; [auto|]. split; [auto|]. split; [auto|]. split; [auto|].
  rewrite (inner_ext n' m' _ (fpx G) _ (fun i j => Cminus (fpx A i j) (fpx B i j))) by auto. rewrite inner_minus_r, QA, QB.
  rewrite (inner_ext n m (fpx R) (fun i j => Cplus (fpx A' i j) (Cmult (Copp (RtoC 1)) (fpx B' i j))) (fpx E) (fpx E)); [|intros; rewrite VR by auto; ring|auto].
  rewrite inner_plus_l, inner_scal_l. replace (Cconj (Copp (RtoC 1))) with (Copp (RtoC 1)) by (unfold Cconj, Copp, RtoC; cbn; f_equal; ring). ring.
Qed.
