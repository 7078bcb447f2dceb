(* Proofs for propagation: rolls, Fourier pairs, angular spectrum. *)
From Verif Require Import Base RBase UtilModel UtilProofs CBase PropModel PropSpec.
Open Scope R_scope.

(* ---- rolls ---- *)
Lemma roll_lt n s i : (1 <= n)%nat -> (roll_ix n s i < n)%nat.
Proof. intros H. unfold roll_ix. pose proof (Z.mod_pos_bound (Z.of_nat i - s) (Z.of_nat n)). lia. Qed.
Lemma roll_roll n s t i : (1 <= n)%nat -> roll_ix n s (roll_ix n t i) = roll_ix n (s + t) i.
Proof.
  intros H. unfold roll_ix. rewrite Z2Nat.id by (apply Z.mod_pos_bound; lia). f_equal.
  rewrite Zminus_mod_idemp_l. f_equal. lia.
Qed.
Lemma roll_congr n s t i : (1 <= n)%nat -> (s mod Z.of_nat n = t mod Z.of_nat n)%Z -> roll_ix n s i = roll_ix n t i.
Proof. intros H E. unfold roll_ix. f_equal. rewrite <- (Zminus_mod_idemp_r _ s), <- (Zminus_mod_idemp_r _ t), E. reflexivity. Qed.
Lemma roll_0 n i : (i < n)%nat -> roll_ix n 0 i = i.
Proof. intros H. unfold roll_ix. rewrite Z.sub_0_r, Z.mod_small by lia. lia. Qed.
Lemma roll_id n s i : (i < n)%nat -> (s mod Z.of_nat n = 0)%Z -> roll_ix n s i = i.
Proof. intros H E. rewrite (roll_congr n s 0) by (rewrite ?E, ?Z.mod_0_l; lia). now apply roll_0. Qed.
Lemma roll_as_add n s i : (1 <= n)%nat -> roll_ix n s i = ((i + Z.to_nat ((- s) mod Z.of_nat n)) mod n)%nat.
Proof.
  intros H. unfold roll_ix. apply Nat2Z.inj. rewrite Nat2Z.inj_mod, Nat2Z.inj_add, !Z2Nat.id by (apply Z.mod_pos_bound; lia).
  rewrite Zplus_mod_idemp_r. f_equal.
Qed.

(* ---- feq ---- *)
Lemma feq_refl {A} (a : field A) : feq a a.
Proof. repeat split; auto. Qed.
Lemma feq_sym {A} (a b : field A) : feq a b -> feq b a.
Proof. intros (H1 & H2 & H3). repeat split; auto. intros. symmetry. apply H3; congruence. Qed.
Lemma feq_trans {A} (a b c : field A) : feq a b -> feq b c -> feq a c.
Proof. intros (H1 & H2 & H3) (G1 & G2 & G3). split; [congruence|]. split; [congruence|]. intros. rewrite H3, G3; auto; congruence. Qed.
Lemma roll2_feq {A} s t (a b : field A) : feq a b -> feq (roll2 s t a) (roll2 s t b).
Proof.
  intros (H1 & H2 & H3). unfold roll2. split; [auto|]. split; [auto|]. cbn. intros i j Hi Hj. rewrite <- H1, <- H2.
  apply H3; apply roll_lt; lia.
Qed.
Lemma roll2_roll2 {A} s t s' t' (a : field A) : feq (roll2 s t (roll2 s' t' a)) (roll2 (s' + s) (t' + t) a).
Proof.
  split; [reflexivity|]. split; [reflexivity|]. cbn. intros i j Hi Hj. rewrite !roll_roll by lia. reflexivity.
Qed.
Lemma roll2_id {A} s t (a : field A) : (s mod Z.of_nat (frows a) = 0)%Z -> (t mod Z.of_nat (fcols a) = 0)%Z -> feq (roll2 s t a) a.
Proof. intros H1 H2. split; [reflexivity|]. split; [reflexivity|]. cbn. intros i j Hi Hj. now rewrite !roll_id. Qed.
Lemma shift_unshift E : feq (ifftshift (fftshift E)) E.
Proof.
  unfold ifftshift, fftshift. eapply feq_trans; [apply roll2_roll2|]. cbn. apply roll2_id; rewrite Z.add_opp_diag_r; apply Zmod_0_l.
Qed.
Lemma unshift_shift E : feq (fftshift (ifftshift E)) E.
Proof.
  unfold ifftshift, fftshift. eapply feq_trans; [apply roll2_roll2|]. cbn. apply roll2_id; rewrite Z.add_opp_diag_l; apply Zmod_0_l.
Qed.
Lemma fftshift_feq a b : feq a b -> feq (fftshift a) (fftshift b).
Proof. intros H. pose proof H as (H1 & H2 & _). unfold fftshift. rewrite H1, H2. now apply roll2_feq. Qed.
Lemma ifftshift_feq a b : feq a b -> feq (ifftshift a) (ifftshift b).
Proof. intros H. pose proof H as (H1 & H2 & _). unfold ifftshift. rewrite H1, H2. now apply roll2_feq. Qed.
Lemma dft2_ext s M N x y u v : (forall i j, (i < M)%nat -> (j < N)%nat -> x i j = y i j) -> dft2 s M N x u v = dft2 s M N y u v.
Proof. intros H. unfold dft2. apply csum_ext. intros i Hi. apply csum_ext. intros j Hj. now rewrite H. Qed.
Lemma fft_scaled_feq s a E F : feq E F -> feq (fft_scaled s a E) (fft_scaled s a F).
Proof.
  intros (H1 & H2 & H3). split; [auto|]. split; [auto|]. cbn. intros u v Hu Hv. rewrite <- H1, <- H2. f_equal. now apply dft2_ext.
Qed.
Lemma mul_by_feq k E F : feq E F -> feq (mul_by k E) (mul_by k F).
Proof. intros (H1 & H2 & H3). split; [auto|]. split; [auto|]. cbn. intros. now rewrite H3. Qed.
Lemma dft2_scal s M N c x u v : dft2 s M N (fun i j => Cmult c (x i j)) u v = Cmult c (dft2 s M N x u v).
Proof.
  unfold dft2. rewrite <- csum_scal. apply csum_ext. intros i _. rewrite <- csum_scal. apply csum_ext. intros j _. ring.
Qed.
Lemma fft_pair s a b E : (s = 1 \/ s = -1) -> a * b * (INR (frows E) * INR (fcols E)) = 1 ->
  feq (fft_scaled s a (fft_scaled (- s) b E)) E.
Proof.
  intros Hs Hab. split; [reflexivity|]. split; [reflexivity|]. intros i j Hi Hj. cbn [fft_scaled fpx frows fcols] in *.
  rewrite (dft2_scal s _ _ (RtoC b) (fun u v => dft2 (- s) (frows E) (fcols E) (fpx E) u v)).
  rewrite (dft2_inverse s (frows E) (fcols E) (fpx E)) by auto.
  rewrite !Cmult_assoc, <- !RtoC_mult, <- Rmult_assoc. rewrite Rmult_assoc with (r1 := a * b). rewrite Hab. ring.
Qed.

(* ---- shift theorem ---- *)
Lemma ph_mod s n j k : (s = 1 \/ s = -1) -> (1 <= n)%nat -> ph s n j (k mod n) = ph s n j k.
Proof.
  intros Hs Hn. assert (Hn0 : INR n <> 0) by (apply not_0_INR; lia). unfold ph.
  rewrite (Nat.div_mod k n) at 2 by lia. rewrite plus_INR, mult_INR.
  replace (s * (2 * PI) * INR j * (INR n * INR (k / n) + INR (k mod n)) / INR n)
    with (s * (2 * PI) * INR j * INR (k mod n) / INR n + 2 * PI * IZR ((if Req_EM_T s 1 then 1 else -1) * (Z.of_nat j * Z.of_nat (k / n)))).
  - now rewrite cis_period.
  - rewrite !mult_IZR, <- !INR_IZR_INZ. destruct (Req_EM_T s 1) as [->|N]; [|replace s with (-1) by (destruct Hs; lra)]; field; auto.
Qed.
Lemma dft_roll s n F t j : (s = 1 \/ s = -1) -> (1 <= n)%nat ->
  dft s n (fun u => F (roll_ix n t u)) j = Cmult (cis (s * (2 * PI) * IZR t * INR j / INR n)) (dft s n F j).
Proof.
  intros Hs Hn. assert (Hn0 : INR n <> 0) by (apply not_0_INR; lia).
  set (q := Z.to_nat ((- t) mod Z.of_nat n)).
  unfold dft. rewrite <- (csum_cycle n (fun k => Cmult (F k) (ph s n j k)) q), <- csum_scal. apply csum_ext. intros u Hu.
  rewrite <- (roll_as_add n t u Hn : roll_ix n t u = ((u + q) mod n)%nat).
  replace (ph s n j (roll_ix n t u)) with (Cmult (ph s n j u) (cis (- (s * (2 * PI) * IZR t * INR j / INR n)))).
  - transitivity (Cmult (Cmult (F (roll_ix n t u)) (ph s n j u)) (Cmult (cis (s * (2 * PI) * IZR t * INR j / INR n)) (cis (- (s * (2 * PI) * IZR t * INR j / INR n))))); [rewrite cis_inv; ring|ring].
  - rewrite roll_as_add by auto. fold q. rewrite ph_mod by auto. unfold ph. rewrite <- cis_add.
    rewrite plus_INR. assert (Hq : exists k, INR q = - IZR t + INR n * IZR k).
    { unfold q. rewrite INR_IZR_INZ, Z2Nat.id by (apply Z.mod_pos_bound; lia). exists (- ((- t) / Z.of_nat n))%Z.
      rewrite INR_IZR_INZ, <- mult_IZR, <- opp_IZR, <- plus_IZR. f_equal. pose proof (Z_div_mod_eq_full (- t) (Z.of_nat n)). lia. }
    destruct Hq as [k Hk]. rewrite Hk.
    replace (s * (2 * PI) * INR j * (INR u + (- IZR t + INR n * IZR k)) / INR n)
      with (s * (2 * PI) * INR j * INR u / INR n + - (s * (2 * PI) * IZR t * INR j / INR n) + 2 * PI * IZR ((if Req_EM_T s 1 then 1 else -1) * (Z.of_nat j * k))).
    + now rewrite cis_period.
    + rewrite !mult_IZR, <- !INR_IZR_INZ. destruct (Req_EM_T s 1) as [->|N]; [|replace s with (-1) by (destruct Hs; lra)]; field; auto.
Qed.
Lemma dft_scal s n c x u : dft s n (fun j => Cmult c (x j)) u = Cmult c (dft s n x u).
Proof. unfold dft. rewrite <- csum_scal. apply csum_ext. intros. ring. Qed.
Lemma dft2_roll s M N F t t' i j : (s = 1 \/ s = -1) -> (1 <= M)%nat -> (1 <= N)%nat ->
  dft2 s M N (fun u v => F (roll_ix M t u) (roll_ix N t' v)) i j =
  Cmult (Cmult (cis (s * (2 * PI) * IZR t * INR i / INR M)) (cis (s * (2 * PI) * IZR t' * INR j / INR N))) (dft2 s M N F i j).
Proof.
  intros Hs HM HN. rewrite !dft2_sep.
  rewrite (dft_ext s M _ (fun u => Cmult (cis (s * (2 * PI) * IZR t' * INR j / INR N)) (dft s N (F (roll_ix M t u)) j))).
  2:{ intros u _. now rewrite (dft_roll s N (F (roll_ix M t u))). }
  rewrite dft_scal, (dft_roll s M (fun u => dft s N (F u) j)) by auto. ring.
Qed.

(* ---- fft2d / ifft2d ---- *)
Lemma sqrt_pair x : 0 < x -> / sqrt x * / sqrt x * x = 1.
Proof.
  intros H. pose proof (sqrt_lt_R0 x H) as Hp. rewrite <- (sqrt_sqrt x) at 3 by lra. field. lra.
Qed.
Lemma size_pos E : (1 <= frows E)%nat -> (1 <= fcols E)%nat -> 0 < size E.
Proof. intros. unfold size. apply Rmult_lt_0_compat; apply lt_0_INR; lia. Qed.

Definition rt_phase (n i : nat) : C := cis (2 * PI * IZR (2 * half n) * INR (roll_ix n (- half n) i) / INR n).
Lemma fft_round_trip E i j : (i < frows E)%nat -> (j < fcols E)%nat ->
  fpx (ifft2d (fft2d E)) i j =
  Cmult (Cmult (rt_phase (frows E) i) (rt_phase (fcols E) j))
    (fpx E (roll_ix (frows E) (- (2 * half (frows E))) i) (roll_ix (fcols E) (- (2 * half (fcols E))) j)).
Proof.
  intros Hi Hj. assert (HM : (1 <= frows E)%nat) by lia. assert (HN : (1 <= fcols E)%nat) by lia.
  unfold ifft2d, fft2d. set (X := ifftshift E). set (F := fft2_ortho X).
  unfold ifftshift at 1, ifft2_ortho. cbn [roll2 fpx frows fcols fft_scaled fftshift F X fft2_ortho ifftshift].
  set (M := frows E) in *. set (N := fcols E) in *. set (i' := roll_ix M (- half M) i). set (j' := roll_ix N (- half N) j).
  assert (Hi' : (i' < M)%nat) by (apply roll_lt; lia). assert (Hj' : (j' < N)%nat) by (apply roll_lt; lia).
  rewrite (dft2_ext 1 M N _ (fun u v => fpx F (roll_ix M (2 * half M) u) (roll_ix N (2 * half N) v))).
  2:{ intros u v Hu Hv. rewrite !roll_roll by auto. unfold F. cbn. fold M N. replace (half M + half M)%Z with (2 * half M)%Z by lia.
      replace (half N + half N)%Z with (2 * half N)%Z by lia. reflexivity. }
  rewrite dft2_roll by auto.
  assert (EX : Cmult (RtoC (/ sqrt (size (fftshift (fftshift F))))) (dft2 1 M N (fpx F) i' j') = fpx X i' j').
  { pose proof (fft_pair 1 (/ sqrt (size E)) (/ sqrt (size E)) X) as (_ & _ & H); [auto|apply sqrt_pair, size_pos; auto|].
    cbn [frows fcols X ifftshift roll2] in H. specialize (H i' j' Hi' Hj'). cbn [fpx fft_scaled] in H.
    rewrite <- H. cbn. reflexivity. }
  rewrite Cmult_assoc, (Cmult_comm (RtoC _)), <- Cmult_assoc, EX. rewrite !Rmult_1_l. unfold rt_phase. fold M N i' j'.
  replace (1 * (2 * PI)) with (2 * PI) by ring. f_equal. unfold X. cbn [ifftshift roll2 fpx frows fcols]. fold M N. unfold i', j'. rewrite !roll_roll by auto.
  f_equal; f_equal; lia.
Qed.
Lemma half_even n : Nat.even n = true -> (2 * half n = Z.of_nat n)%Z.
Proof. intros H. apply Nat.even_spec in H. destruct H as [k ->]. unfold half. rewrite Nat.mul_comm, Nat.div_mul by lia. lia. Qed.
Lemma half_odd n : Nat.even n = false -> (2 * half n = Z.of_nat n - 1)%Z.
Proof.
  intros H. assert (Ho : Nat.odd n = true) by (unfold Nat.odd; now rewrite H). apply Nat.odd_spec in Ho. destruct Ho as [k ->]. unfold half.
  replace ((2 * k + 1) / 2)%nat with k by (rewrite Nat.mul_comm, Nat.div_add_l by lia; cbn; lia). lia.
Qed.
Lemma rt_phase_even n i : (i < n)%nat -> Nat.even n = true -> rt_phase n i = RtoC 1.
Proof.
  intros Hi He. unfold rt_phase. rewrite half_even by auto. rewrite <- INR_IZR_INZ.
  replace (2 * PI * INR n * INR (roll_ix n (- half n) i) / INR n) with (2 * PI * IZR (Z.of_nat (roll_ix n (- half n) i))).
  - apply cis_2PI.
  - rewrite <- INR_IZR_INZ. field. apply not_0_INR. lia.
Qed.
Lemma rsum_roll n t f : rsum n (fun k => f (roll_ix n t k)) = rsum n f.
Proof.
  destruct n as [|n]; [reflexivity|]. apply RtoC_inj. rewrite !RtoC_rsum.
  rewrite (csum_ext _ _ (fun k => RtoC (f ((k + Z.to_nat ((- t) mod Z.of_nat (S n))) mod S n)%nat))) by (intros; now rewrite roll_as_add by lia).
  apply (csum_cycle (S n) (fun k => RtoC (f k))).
Qed.
Lemma energy_roll s t E : fenergy (roll2 s t E) = fenergy E.
Proof.
  unfold fenergy, energy. cbn. rewrite (rsum_roll (frows E) s (fun i => rsum (fcols E) (fun j => abs2 (fpx E i (roll_ix (fcols E) t j))))).
  apply rsum_ext. intros i _. apply (rsum_roll (fcols E) t (fun j => abs2 (fpx E i j))).
Qed.
Lemma abs2_RtoC a : abs2 (RtoC a) = a * a.
Proof. unfold abs2, RtoC; cbn. ring. Qed.
Lemma energy_fft s a E : (s = 1 \/ s = -1) -> (1 <= frows E)%nat -> (1 <= fcols E)%nat ->
  fenergy (fft_scaled s a E) = a * a * size E * fenergy E.
Proof.
  intros Hs HM HN. unfold fenergy. cbn. unfold energy. 
  rewrite (rsum_ext (frows E) _ (fun i => a * a * rsum (fcols E) (fun j => abs2 (dft2 s (frows E) (fcols E) (fpx E) i j)))).
  - rewrite rsum_scal. change (rsum (frows E) (fun k => rsum (fcols E) (fun j => abs2 (dft2 s (frows E) (fcols E) (fpx E) k j))))
      with (energy (frows E) (fcols E) (dft2 s (frows E) (fcols E) (fpx E))). rewrite parseval2 by auto. unfold size, energy. ring.
  - intros i _. rewrite <- rsum_scal. apply rsum_ext. intros j _. rewrite abs2_mult, abs2_RtoC. ring.
Qed.
Lemma energy_feq a b : feq a b -> fenergy a = fenergy b.
Proof.
  intros (H1 & H2 & H3). unfold fenergy, energy. rewrite <- H1, <- H2. apply rsum_ext. intros i Hi. apply rsum_ext. intros j Hj. now rewrite H3.
Qed.
Lemma energy_mul k E : (forall u v, abs2 (k u v) = 1) -> fenergy (mul_by k E) = fenergy E.
Proof. intros H. unfold fenergy, energy; cbn. apply rsum_ext. intros i _. apply rsum_ext. intros j _. rewrite abs2_mult, H. ring. Qed.

(* ---- angular spectrum ---- *)
Definition prop_z (k : nat -> nat -> C) (E : field C) : field C := ifftshift (ifftn (mul_by k (fftn (fftshift E)))).
Lemma prop_z_feq k E F : feq E F -> feq (prop_z k E) (prop_z k F).
Proof.
  intros H. unfold prop_z. apply ifftshift_feq. pose proof (fftshift_feq _ _ H) as H2. pose proof H2 as (R1 & R2 & _). unfold ifftn, fftn.
  replace (size (mul_by k (fft_scaled (-1) 1 (fftshift E)))) with (size (mul_by k (fft_scaled (-1) 1 (fftshift F)))) by (unfold size; cbn in *; now rewrite R1, R2).
  apply fft_scaled_feq, mul_by_feq, fft_scaled_feq, H2.
Qed.
Lemma prop_z_compose k1 k2 E : (1 <= frows E)%nat -> (1 <= fcols E)%nat ->
  feq (prop_z k2 (prop_z k1 E)) (prop_z (fun u v => Cmult (k2 u v) (k1 u v)) E).
Proof.
  intros HM HN. unfold prop_z at 1 3. apply ifftshift_feq. 
  set (Y := mul_by k1 (fftn (fftshift E))).
  assert (H1 : feq (fftshift (prop_z k1 E)) (ifftn Y)) by apply unshift_shift.
  assert (H2 : feq (fftn (fftshift (prop_z k1 E))) Y).
  { eapply feq_trans; [apply fft_scaled_feq, H1|]. unfold ifftn. replace 1 with (- -1) at 2 by ring. apply fft_pair; [auto|].
    pose proof (size_pos E HM HN) as P. unfold size in *. cbn in *. field. split; intros Q; rewrite Q in P; lra. }
  unfold ifftn.
  replace (size (mul_by k2 (fftn (fftshift (prop_z k1 E))))) with (size (mul_by (fun u v => Cmult (k2 u v) (k1 u v)) (fftn (fftshift E)))) by reflexivity.
  apply fft_scaled_feq. eapply feq_trans; [apply mul_by_feq, H2|].
  split; [reflexivity|]. split; [reflexivity|]. intros u v _ _. unfold Y; cbn. ring.
Qed.
Lemma prop_z_one k E : (1 <= frows E)%nat -> (1 <= fcols E)%nat -> (forall u v, k u v = RtoC 1) -> feq (prop_z k E) E.
Proof.
  intros HM HN Hk. unfold prop_z. eapply feq_trans; [|apply shift_unshift]. apply ifftshift_feq.
  assert (H0 : feq (mul_by k (fftn (fftshift E))) (fftn (fftshift E))) by (split; [reflexivity|]; split; [reflexivity|]; intros; cbn; rewrite Hk; ring).
  unfold ifftn. eapply feq_trans; [apply fft_scaled_feq, H0|]. unfold fftn. replace (-1) with (- (1)) at 2 by ring. apply fft_pair; [auto|].
  pose proof (size_pos E HM HN) as P. unfold size in *. cbn in *. field. split; intros Q; rewrite Q in P; lra.
Qed.
Lemma energy_prop_z k E : (1 <= frows E)%nat -> (1 <= fcols E)%nat -> (forall u v, abs2 (k u v) = 1) -> fenergy (prop_z k E) = fenergy E.
Proof.
  intros HM HN Hk. unfold prop_z, ifftshift. rewrite energy_roll. unfold ifftn. rewrite energy_fft by (cbn; auto).
  rewrite energy_mul by auto. unfold fftn. rewrite energy_fft by (cbn; auto). unfold fftshift. rewrite energy_roll.
  pose proof (size_pos E HM HN) as P. unfold size in *. cbn in *. field. split; intros Q; rewrite Q in P; lra.
Qed.
Lemma transfer_mult M N w dx z1 z2 u v : Cmult (transfer M N w dx z2 u v) (transfer M N w dx z1 u v) = transfer M N w dx (z1 + z2) u v.
Proof.
  unfold transfer.
  replace (- (PI * w * (z1 + z2)) * (fftfreq M dx u * fftfreq M dx u)) with (- (PI * w * z1) * (fftfreq M dx u * fftfreq M dx u) + - (PI * w * z2) * (fftfreq M dx u * fftfreq M dx u)) by ring.
  replace (- (PI * w * (z1 + z2)) * (fftfreq N dx v * fftfreq N dx v)) with (- (PI * w * z1) * (fftfreq N dx v * fftfreq N dx v) + - (PI * w * z2) * (fftfreq N dx v * fftfreq N dx v)) by ring.
  rewrite !cis_add. ring.
Qed.
Lemma transfer_0 M N w dx u v : transfer M N w dx 0 u v = RtoC 1.
Proof. unfold transfer. rewrite !Rmult_0_r, !Ropp_0, !Rmult_0_l, cis_0. ring. Qed.
Lemma transfer_unit M N w dx z u v : abs2 (transfer M N w dx z u v) = 1.
Proof. unfold transfer. rewrite abs2_mult, !abs2_cis. ring. Qed.

(* every dz, including 0, is the same formula up to equality of entries *)
Lemma ptp_formula E fw w dz : 0 < fw -> 0 < w -> frows E = fcols E -> (1 <= frows E)%nat ->
  exists out, ptp E fw w dz = Ok out /\ feq out (prop_z (transfer (frows E) (fcols E) w (fw / INR (fcols E)) dz) E).
Proof.
  intros Hf Hw Hsq HM. unfold ptp. destruct (Rle_dec fw 0); [lra|]. destruct (Rle_dec w 0); [lra|].
  destruct (Req_EM_T dz 0) as [->|Nz].
  - exists E. split; [reflexivity|]. apply feq_sym, prop_z_one; [auto|lia|]. intros. apply transfer_0.
  - destruct (Nat.eqb_spec (fcols E) 0); [lia|]. rewrite Hsq, Nat.eqb_refl. cbn [negb]. eexists. split; [reflexivity|]. rewrite <- Hsq. apply feq_refl.
Qed.
