(* Two FFTs through a vortex, in centred coordinates. *)
From Coquelicot Require Import Coquelicot.
From Verif Require Import Base RBase StrBase UtilModel UtilProofs CBase PropModel PropSpec PropProofs PropProofs2 OptModel OptSpec LinBase OptProofs OptProofs2 OptProofs3 OptProofs4 DiffModel DiffProofs2 SrcModel PokeModel PokeProofs PokeProofs2 GradModel GradSpec PokeSpec VxModel VxSpec.
From Verif Require EstModel.
Open Scope R_scope.

Definition pz (n : nat) (a b : Z) : C := cis (- (2 * PI) * IZR (a * b) / INR n).
Lemma ph_pz n u j : ph (-1) n u j = pz n (Z.of_nat u) (Z.of_nat j).
Proof. unfold ph, pz. f_equal. rewrite mult_IZR, <- !INR_IZR_INZ. unfold Rdiv. ring. Qed.
Lemma pz_sym n a b : pz n a b = pz n b a. Proof. unfold pz. now rewrite Z.mul_comm. Qed.
Lemma pz_add n a b k : (1 <= n)%nat -> pz n (a + k * Z.of_nat n) b = pz n a b.
Proof.
  intros Hn. unfold pz. assert (INR n <> 0) by (apply not_0_INR; lia).
  replace (- (2 * PI) * IZR ((a + k * Z.of_nat n) * b) / INR n) with (- (2 * PI) * IZR (a * b) / INR n + 2 * PI * IZR (- (k * b))).
  - rewrite cis_add, cis_2PI. ring.
  - rewrite opp_IZR, !mult_IZR, plus_IZR, mult_IZR, <- INR_IZR_INZ. field. auto.
Qed.
Lemma pz_mod n a b : (1 <= n)%nat -> pz n (a mod Z.of_nat n) b = pz n a b.
Proof.
  intros Hn. rewrite (Z.div_mod a (Z.of_nat n)) at 2 by lia. rewrite Z.add_comm, Z.mul_comm. rewrite pz_add by auto. reflexivity.
Qed.
Lemma wave_pz n ky kx y x : wave n (IZR ky) (IZR kx) (IZR y) (IZR x) = Cmult (pz n ky y) (pz n kx x).
Proof. unfold wave, pz. rewrite <- cis_add. f_equal. rewrite !mult_IZR. unfold Rdiv. ring. Qed.
Lemma csum_roll n t f : csum n f = csum n (fun k => f (roll_ix n t k)).
Proof.
  destruct n as [|n]; [reflexivity|]. symmetry.
  rewrite (csum_ext _ _ (fun k => f ((k + Z.to_nat ((- t) mod Z.of_nat (S n))) mod S n)%nat)) by (intros; now rewrite roll_as_add by lia).
  apply (csum_cycle (S n) f).
Qed.
Lemma csum2_roll n t f : csum n (fun i => csum n (fun j => f i j)) = csum n (fun i => csum n (fun j => f (roll_ix n t i) (roll_ix n t j))).
Proof. rewrite (csum_roll n t (fun i => csum n (fun j => f i j))). apply csum_ext. intros i _. apply csum_roll. Qed.
Lemma half_hf n : half n = hf n. Proof. unfold half, hf. rewrite Nat2Z.inj_div. reflexivity. Qed.
(* position of the k-th sample of a shifted array, modulo n *)
Lemma roll_pz n k b : (1 <= n)%nat -> Nat.even n = true -> pz n (Z.of_nat (roll_ix n (- half n) k)) b = pz n (Z.of_nat k - hf n) b.
Proof.
  intros Hn He. unfold roll_ix. rewrite Z2Nat.id by (apply Z.mod_pos_bound; lia). rewrite pz_mod by auto. rewrite half_hf. apply even_hf in He.
  replace (Z.of_nat k - - hf n)%Z with (Z.of_nat k - hf n + 1 * Z.of_nat n)%Z by lia. apply pz_add; auto.
Qed.
Lemma roll_pz' n k b : (1 <= n)%nat -> Nat.even n = true -> pz n b (Z.of_nat (roll_ix n (- half n) k)) = pz n b (Z.of_nat k - hf n).
Proof. intros. rewrite !(pz_sym n b). now apply roll_pz. Qed.
Lemma roll_pz2 n k b : (1 <= n)%nat -> pz n b (Z.of_nat (roll_ix n (half n) k)) = pz n b (Z.of_nat k - hf n).
Proof. intros Hn. rewrite !(pz_sym n b). unfold roll_ix. rewrite Z2Nat.id by (apply Z.mod_pos_bound; lia). rewrite pz_mod by auto. now rewrite half_hf. Qed.
Lemma roll_inv n k : (k < n)%nat -> roll_ix n (half n) (roll_ix n (- half n) k) = k.
Proof. intros H. rewrite roll_roll by lia. replace (half n + - half n)%Z with 0%Z by lia. now apply roll_0. Qed.
Lemma ph_shift n i k : (1 <= n)%nat -> Nat.even n = true -> ph (-1) n (roll_ix n (half n) i) (roll_ix n (- half n) k) = pz n (Z.of_nat k - hf n) (Z.of_nat i - hf n).
Proof. intros. rewrite ph_pz, pz_sym, roll_pz by auto. now rewrite roll_pz2. Qed.
(* transform of a shifted array *)
Lemma fft_shifted n E p r : (1 <= n)%nat -> Nat.even n = true -> shape E n n ->
  fpx (fftn (fftshift E)) p r = csum n (fun a => csum n (fun b => Cmult (fpx E a b) (Cmult (pz n (Z.of_nat p) (Z.of_nat a - hf n)) (pz n (Z.of_nat r) (Z.of_nat b - hf n))))).
Proof.
  intros Hn He [S1 S2]. unfold fftn, fft_scaled, fftshift. cbn [fpx frows fcols roll2]. rewrite S1, S2. unfold dft2.
  rewrite (csum2_roll n (- half n)). rewrite <- csum_scal. apply csum_ext. intros a Ha. rewrite <- csum_scal. apply csum_ext. intros b Hb.
  rewrite !roll_inv by auto. rewrite !ph_pz, !roll_pz' by auto. ring.
Qed.
Lemma vaxis_off n k : Nat.even n = true -> vaxis n k = off n k.
Proof. intros He. unfold vaxis, off. apply even_hf in He. fold (hf n). rewrite minus_IZR, <- INR_IZR_INZ. rewrite (INR_IZR_INZ n), He, mult_IZR. field. Qed.
(* a pupil array padded to n samples has the focal plane of the array itself *)
Lemma focal_rep n N E E' G k l : Nat.even n = true -> Nat.even N = true -> rep N E G -> rep n E' G -> supp (- hf N) (hf N) G -> supp (- hf n) (hf n) G -> (k < n)%nat -> (l < n)%nat ->
  focal n E k l = csum n (fun a => csum n (fun b => Cmult (fpx E' a b) (Cmult (pz n (Z.of_nat k - hf n) (Z.of_nat a - hf n)) (pz n (Z.of_nat l - hf n) (Z.of_nat b - hf n))))).
Proof.
  intros He HeN [[S1 S2] V] [[T1 T2] V'] U1 U2 Hk Hl. unfold focal. rewrite S1, S2. apply even_hf in He. apply even_hf in HeN.
  set (F := fun u v => Cmult (G u v) (Cmult (pz n (Z.of_nat k - hf n) u) (pz n (Z.of_nat l - hf n) v))).
  pose proof (sum_match false Pixel (- hf N) (- hf N) N (- hf n) n F) as SM. cbn [sg] in SM.
  transitivity (wsum (- hf N) N (fun u => wsum (- hf N) N (fun v => F u v))); [|rewrite SM].
  - unfold wsum. apply csum2_ext. intros a b Ha Hb. rewrite V by auto. unfold F. rewrite <- wave_pz. unfold off. fold (hf n) (hf N).
    replace (- hf N + Z.of_nat a)%Z with (Z.of_nat a - hf N)%Z by lia. replace (- hf N + Z.of_nat b)%Z with (Z.of_nat b - hf N)%Z by lia. reflexivity.
  - unfold wsum. apply csum2_ext. intros a b Ha Hb. rewrite V' by auto. unfold F.
    replace (- hf n + Z.of_nat a)%Z with (Z.of_nat a - hf n)%Z by lia. replace (- hf n + Z.of_nat b)%Z with (Z.of_nat b - hf n)%Z by lia. reflexivity.
  - intros u v H. unfold F. rewrite U1; [ring|]. lia.
  - intros u v H. unfold F. rewrite U2; [ring|]. lia.
Qed.
Lemma shift_shape E r c : shape E r c -> shape (fftshift E) r c. Proof. intros [A B]. split; auto. Qed.
Lemma fftn_shape E r c : shape E r c -> shape (fftn E) r c. Proof. intros [A B]. split; auto. Qed.
Lemma scal_shape' t E r c : shape E r c -> shape (scal t E) r c. Proof. intros [A B]. split; auto. Qed.
Lemma ffts_value n N q E E' G : (1 <= n)%nat -> Nat.even n = true -> Nat.even N = true -> rep N E G -> rep n E' G -> supp (- hf N) (hf N) G -> supp (- hf n) (hf n) G ->
  exists O, vx_ffts n (fftshift (vx_mask q n)) E' = Ok O /\ shape O n n /\ feq O (fft_vortex n q E).
Proof.
  intros Hn He HeN R R' U1 U2. pose proof (proj1 R') as SE'. unfold vx_ffts.
  assert (SV : shape (fftshift (vx_mask q n)) n n) by (split; reflexivity).
  destruct (bop_sq Cmult _ _ n n SV (fftn_shape _ _ _ (shift_shape _ _ _ SE'))) as (VF & -> & SVF & VVF). cbn [rbind].
  eexists. split; [reflexivity|].
  assert (SO : shape (scal (RtoC (/ INR n)) (fftshift (fftn (scal (RtoC (/ INR n)) VF)))) n n) by (apply scal_shape', shift_shape, fftn_shape, scal_shape'; exact SVF).
  split; [exact SO|]. destruct SO as [O1 O2]. split; [exact O1|]. split; [exact O2|]. intros i j Hi Hj. rewrite O1 in Hi. rewrite O2 in Hj.
  cbn [fft_vortex fpx]. cbn [scal fmap fpx]. unfold fftshift at 1. cbn [roll2 fpx frows fcols fftn fft_scaled scal fmap]. destruct SVF as [F1 F2]. rewrite F1, F2. unfold dft2.
  rewrite (csum2_roll n (- half n)). rewrite <- !csum_scal. apply csum_ext. intros k Hk. rewrite <- !csum_scal. apply csum_ext. intros l Hl.
  rewrite VVF by (apply roll_lt; auto). rewrite (fft_shifted n) by auto. unfold fftshift. cbn [roll2 fpx frows fcols vx_mask]. rewrite !roll_inv by auto.
  rewrite (focal_rep n N E E' G k l) by auto.
  rewrite !ph_shift by auto.
  unfold off at 3 4 5 6. fold (hf n). rewrite wave_pz. rewrite !vaxis_off by auto.
  rewrite (csum2_ext n n _ (fun a b => Cmult (fpx E' a b) (Cmult (pz n (Z.of_nat k - hf n) (Z.of_nat a - hf n)) (pz n (Z.of_nat l - hf n) (Z.of_nat b - hf n))))).
  2:{ intros a b Ha Hb. now rewrite !roll_pz by auto. }
  assert (INR n <> 0) by (apply not_0_INR; lia). rewrite Rinv_mult, RtoC_mult. ring.
Qed.
