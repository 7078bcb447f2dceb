(* Proofs for C83 and C85: pixels of the maps *)
From Coq Require Import Factorial.
From Coquelicot Require Import Coquelicot.
From Verif Require Import Base RBase StrBase CBase EstModel ZrnModel ZrnSpec ZrnProofs ZrnProofs2 ZrnProofs3 ZrnProofs4.
From Verif Require MaskProofs.
Open Scope R_scope.
(* evaluation *)
Lemma in_max x l : In x l -> (x <= fold_right Nat.max 0 l)%nat.
Proof. induction l as [|y l IH]; cbn; intros []; [subst; lia|]. apply IH in H. lia. Qed.
Lemma powers_ok l e : In e l -> forallb (fun p => Nat.leb p (max_r_power l)) (zpowers e) = true.
Proof. intros I. apply forallb_forall. intros p P. apply Nat.leb_le. apply in_max. apply in_flat_map. eauto. Qed.
Lemma mults_ok l j n m : In (zentry j n m) l -> forallb (fun m => Nat.leb 1 m && Nat.leb m (max_theta l))%bool (zmults (zentry j n m)) = true.
Proof.
  intros I. apply forallb_forall. intros p P. apply andb_true_intro. split.
  - unfold zentry in P. destruct (Nat.eqb n 0); [destruct P|]. cbn [zmults] in P. destruct (Nat.eqb_spec m 0); [destruct P|]. destruct P as [<-|[]]. apply Nat.leb_le. lia.
  - apply Nat.leb_le. apply in_max. apply in_flat_map. eauto.
Qed.
Lemma kept_276 maxz j e : (1 <= j <= 276)%nat -> (j <= maxz)%nat -> nth_error (prop_noll_zernikes maxz) (j - 1) = Some e -> zstored true e = ztext true e.
Proof.
  intros J L H. rewrite (noll_stable j maxz 276) in H by lia. apply nth_error_In in H. pose proof text_276 as T. rewrite forallb_forall in T. apply T in H. now apply String.eqb_eq in H.
Qed.
Lemma zeval_ok maxz k n m r t : (1 <= k <= 276)%nat -> (k <= maxz)%nat -> noll k n m -> zeval (prop_noll_zernikes maxz) k r t = Ok (zernike n m (Nat.even k) r t).
Proof.
  intros K L NN. destruct (noll_entry maxz k ltac:(lia)) as (n' & q & Lq & E & N). destruct k as [|h]; [lia|]. unfold zeval.
  assert (Z : nth_error (prop_noll_zernikes maxz) h = Some (zentry (S h) n' (mth n' q))) by (rewrite <- N; f_equal; lia). rewrite Z.
  rewrite (kept_276 maxz (S h) _ K L N), String.eqb_refl. cbn [negb]. pose proof (nth_error_In _ _ Z) as I. rewrite powers_ok, mults_ok by auto. cbn [andb]. f_equal. rewrite zentry_all by auto.
  destruct (noll_mth _ _ _ NN) as (q' & Lq' & E' & ->). destruct (noll_inj n q' n' q Lq' Lq) as (-> & ->); [lia|]. reflexivity.
Qed.
Definition zref (Z : nat -> R -> R -> R) : Prop := forall k n m r t, noll k n m -> Z k r t = zernike n m (Nat.even k) r t.
Lemma noll_ex k : (1 <= k)%nat -> exists n m, noll k n m.
Proof. intros K. destruct (noll_ok k k ltac:(lia)) as (n & m & h & N & _). eauto. Qed.
Lemma zsum_ok Z maxz r t : zref Z -> forall ks vs, (forall k, In k ks -> 1 <= k <= 276)%nat -> (forall k, In k ks -> k <= maxz)%nat -> length vs = length ks ->
  zsum (prop_noll_zernikes maxz) ks vs r t = Ok (combo (fun k => Z k r t) ks vs).
Proof.
  intros HZ. induction ks as [|k ks IH]; intros [|v vs] R0 M L; try discriminate L; cbn [zsum combo]; auto.
  destruct (noll_ex k) as (n & m & N); [apply R0; left; auto|]. rewrite (zeval_ok maxz k n m) by (auto; try (apply M; left; auto); apply R0; left; auto). rewrite IH; auto; try (intros; apply R0 || apply M; right; auto). cbn [rbind]. now rewrite (HZ k n m).
Qed.
Lemma list_max_in k l : In k l -> (k <= list_max l)%nat.
Proof. intros I. pose proof (proj1 (list_max_le l (list_max l)) (Nat.le_refl _)) as F. rewrite Forall_forall in F. auto. Qed.
(* angles *)
Lemma angle_mult a b : cos a = cos b -> sin a = sin b -> forall m, cos (INR m * a) = cos (INR m * b) /\ sin (INR m * a) = sin (INR m * b).
Proof.
  intros C S m. induction m as [|m (IC & IS)]; [cbn [INR]; now rewrite !Rmult_0_l|].
  rewrite S_INR. replace ((INR m + 1) * a) with (INR m * a + a) by ring. replace ((INR m + 1) * b) with (INR m * b + b) by ring. rewrite !cos_plus, !sin_plus, IC, IS, C, S. auto.
Qed.
Lemma polar_back r t : 0 <= r -> let x := r * cos t in let y := r * sin t in
  sqrt (x ^ 2 + y ^ 2) = r /\ (0 < r -> cos (atan2 y x) = cos t /\ sin (atan2 y x) = sin t).
Proof.
  intros P x y. assert (E : x ^ 2 + y ^ 2 = r * r) by (unfold x, y; pose proof (sin2_cos2 t); unfold Rsqr in *; nra). rewrite E, sqrt_square by auto. split; auto. intros Q.
  destruct (MaskProofs.atan2_polar0 x y) as (A & B). replace (x * x + y * y) with (r * r) in * by lra. rewrite sqrt_square in * by auto. split; apply (Rmult_eq_reg_l r); try lra; [apply A|apply B].
Qed.
Lemma radial_0 n m : (1 <= m)%nat -> (exists h, n = m + 2 * h)%nat -> radial n m 0 = 0.
Proof. intros M (h & ->). rewrite radial_zc. apply rsum_zero. intros i I. rewrite pow_i by lia. ring. Qed.
Lemma zernike_pixel n m c r t : (exists h, n = m + 2 * h)%nat -> 0 <= r -> let x := r * cos t in let y := r * sin t in
  zernike n m c (sqrt (x ^ 2 + y ^ 2)) (atan2 y x) = zernike n m c r t.
Proof.
  intros H P x y. destruct (polar_back r t P) as (A & B). fold x y in A, B. rewrite A. unfold zernike. destruct (Nat.eqb_spec m 0); auto. destruct (Rle_lt_or_eq_dec 0 r P) as [Q|Q].
  - destruct (B Q) as (C & S). destruct (angle_mult _ _ C S m) as (-> & ->). reflexivity.
  - rewrite <- Q, radial_0 by (auto; lia). ring.
Qed.
Lemma noll_half j n m : noll j n m -> exists h, (n = m + 2 * h)%nat.
Proof. intros N. destruct (noll_mth _ _ _ N) as (k & K & E & ->). exists ((n - mth n k) / 2)%nat. now apply mth_half. Qed.
Lemma zpixel_ok Z every ks vs r t : zref Z -> (forall k, In k ks -> 1 <= k <= 276)%nat -> length vs = length ks -> 0 <= r ->
  zpixel every 0 ks vs (r * cos t) (r * sin t) = Ok (combo (fun k => Z k r t) ks vs).
Proof.
  intros HZ K L P. unfold zpixel. destruct (Req_EM_T 0 0) as [_|X]; [|destruct X; auto]. erewrite (zsum_ok Z) by (auto; intros; now apply list_max_in). f_equal.
  clear L. revert vs. induction ks as [|k ks IH]; intros [|v vs]; cbn [combo]; auto. f_equal; [|apply IH; intros; apply K; right; auto].
  destruct (noll_ex k) as (n & m & N); [apply K; left; auto|]. rewrite !(HZ k n m) by auto. rewrite zernike_pixel; auto. eapply noll_half; eauto.
Qed.
(* obscured: the pixel *)
Lemma zobs_pixel k eps r t : 0 <= r -> let x := r * cos t in let y := r * sin t in zobs k eps (sqrt (x ^ 2 + y ^ 2)) (atan2 y x) = zobs k eps r t.
Proof.
  intros P x y. destruct (polar_back r t P) as (A & B). fold x y in A, B. rewrite A. destruct (Rle_lt_or_eq_dec 0 r P) as [Q|Q].
  - destruct (B Q) as (C & S). pose proof (fun m => angle_mult _ _ C S m) as G. unfold zobs.
    destruct (G 2%nat) as (C2 & S2), (G 3%nat) as (C3 & S3), (G 4%nat) as (C4 & S4), (G 5%nat) as (C5 & S5). cbn [INR] in *.
    replace (1 + 1) with 2 in * by ring. replace (2 + 1) with 3 in * by ring. replace (3 + 1) with 4 in * by ring. replace (4 + 1) with 5 in * by ring.
    do 23 (destruct k as [|k]; [cbv zeta; rewrite ?C, ?S, ?C2, ?S2, ?C3, ?S3, ?C4, ?S4, ?C5, ?S5; reflexivity|]). reflexivity.
  - rewrite <- Q. clear. unfold zobs. do 23 (destruct k as [|k]; [cbv zeta; try reflexivity; f_equal; unfold Rdiv; ring|]). reflexivity.
Qed.
