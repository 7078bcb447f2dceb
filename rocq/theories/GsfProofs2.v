(* Proofs for C97: sinc resampling by a whole factor passes through the samples *)
From Verif Require Import Base StrBase RBase CtrlModel UtilModel CBase PropModel PropSpec PropProofs OptModel LinBase DiffModel DiffSpec DiffProofs DiffProofs2 DiffProofs3 DiffProofs4 DiffProps.
Open Scope R_scope.

Lemma csum_roll n t f : (1 <= n)%nat -> csum n (fun k => f (roll_ix n t k)) = csum n f.
Proof. intros Hn. rewrite <- (csum_cycle n f (Z.to_nat ((- t) mod Z.of_nat n))). apply csum_ext. intros k _. now rewrite roll_as_add. Qed.
Lemma roll_q n i : (1 <= n)%nat -> exists q, INR i - INR (n / 2) = INR (roll_ix n (half n) i) + INR n * IZR q.
Proof.
  intros Hn. exists ((Z.of_nat i - half n) / Z.of_nat n)%Z. unfold roll_ix. rewrite (INR_IZR_INZ (Z.to_nat _)), Z2Nat.id by (apply Z.mod_pos_bound; lia).
  rewrite !INR_IZR_INZ, <- minus_IZR, <- mult_IZR, <- plus_IZR. f_equal. unfold half. pose proof (Z.div_mod (Z.of_nat i - Z.of_nat (n / 2)) (Z.of_nat n)). lia.
Qed.
Lemma roll_phase n i u : (1 <= n)%nat -> cis (2 * PI * ((INR i - INR (n / 2)) * (INR u - INR (n / 2)) / INR n)) = ph 1 n (roll_ix n (half n) i) (roll_ix n (half n) u).
Proof.
  intros Hn. assert (0 < INR n) by (apply lt_0_INR; lia). destruct (roll_q n i Hn) as [q ->]. destruct (roll_q n u Hn) as [q' ->]. set (a := roll_ix n (half n) i). set (b := roll_ix n (half n) u).
  unfold ph. rewrite <- (cis_period (1 * (2 * PI) * INR a * INR b / INR n) (Z.of_nat a * q' + q * Z.of_nat b + Z.of_nat n * q * q')). f_equal.
  rewrite !plus_IZR, !mult_IZR, <- !INR_IZR_INZ. field. lra.
Qed.
Lemma nround_nat k : nround (INR k) = Z.of_nat k. Proof. rewrite INR_IZR_INZ. apply nround_int. Qed.
Lemma resample_dims f z : (1 <= z)%nat -> dims (frows f * z) (fcols f * z) (resample f (INR z)).
Proof.
  intros Hz. unfold resample. destruct (Req_EM_T (INR z) 1) as [Q|Q].
  - assert (z = 1%nat) as -> by (apply INR_eq; rewrite Q; reflexivity). split; lia.
  - cbv zeta. rewrite <- !mult_INR, !nround_nat, !Nat2Z.id. split; reflexivity.
Qed.
(* pixel of the fine array on top of pixel i of the coarse one *)
Definition fine_ix (m z i : nat) : nat := (m * z / 2 + z * i - z * (m / 2))%nat.
Lemma fine_axis m z i : INR (fine_ix m z i) - INR (m * z / 2) = INR z * (INR i - INR (m / 2)).
Proof.
  unfold fine_ix. assert (z * (m / 2) <= m * z / 2)%nat. { apply Nat.div_le_lower_bound; [lia|]. pose proof (Nat.mul_div_le m 2). nia. }
  rewrite minus_INR by lia. rewrite plus_INR, !mult_INR. ring.
Qed.
Lemma resample_at f z i j : (1 <= z)%nat -> (i < frows f)%nat -> (j < fcols f)%nat -> fpx (resample f (INR z)) (fine_ix (frows f) z i) (fine_ix (fcols f) z j) = fpx f i j.
Proof.
  intros Hz Hi Hj. unfold resample. destruct (Req_EM_T (INR z) 1) as [Q|Q].
  - assert (z = 1%nat) as -> by (apply INR_eq; rewrite Q; reflexivity). unfold fine_ix. rewrite !Nat.mul_1_r. f_equal; lia.
  - cbv zeta. rewrite <- !mult_INR, !nround_nat, !Nat2Z.id. cbn [fpx]. set (m := frows f) in *. set (n := fcols f) in *. assert (Hm : (1 <= m)%nat) by lia. assert (Hn : (1 <= n)%nat) by lia.
    assert (Pm : 0 < INR m) by (apply lt_0_INR; lia). assert (Pn : 0 < INR n) by (apply lt_0_INR; lia). assert (Pz : 0 < INR z) by (apply lt_0_INR; lia).
    set (G := ifftshift (cfield f)). set (i0 := roll_ix m (half m) i). set (j0 := roll_ix n (half n) j).
    pose (FU := fun u' => Cmult (RtoC (/ sqrt (INR m * INR n))) (csum n (fun v' => Cmult (dft2 (-1) m n (fpx G) u' v') (Cmult (ph 1 m i0 u') (ph 1 n j0 v'))))).
    rewrite (csum_ext m _ (fun u => FU (roll_ix m (half m) u))).
    2:{ intros u _. unfold FU. rewrite <- csum_scal. etransitivity; [|apply (csum_roll n (half n) (fun v' => Cmult (RtoC (/ sqrt (INR m * INR n))) (Cmult (dft2 (-1) m n (fpx G) (roll_ix m (half m) u) v') (Cmult (ph 1 m i0 (roll_ix m (half m) u)) (ph 1 n j0 v')))) Hn)].
        apply csum_ext. intros v _. cbn beta. unfold axis. rewrite !fine_axis, !Rmult_1_r.
        replace (2 * PI * (INR z * (INR i - INR (m / 2)) * ((INR u - INR (m / 2)) * (1 / INR (m * z))))) with (2 * PI * ((INR i - INR (m / 2)) * (INR u - INR (m / 2)) / INR m)) by (rewrite mult_INR; field; lra).
        replace (2 * PI * (INR z * (INR j - INR (n / 2)) * ((INR v - INR (n / 2)) * (1 / INR (n * z))))) with (2 * PI * ((INR j - INR (n / 2)) * (INR v - INR (n / 2)) / INR n)) by (rewrite mult_INR; field; lra).
        rewrite !roll_phase by auto. fold i0 j0. unfold fftshift, fft2_ortho. cbn [fft_scaled roll2 frows fcols fpx]. fold G. change (frows G) with m. change (fcols G) with n. unfold size. change (frows G) with m. change (fcols G) with n. ring. }
    rewrite (csum_roll m (half m) FU Hm). unfold FU. rewrite csum_scal.
    assert (R0 : fpx G i0 j0 = RtoC (fpx f i j)).
    { unfold G, ifftshift. cbn [roll2 cfield fmap frows fcols fpx]. fold m n. unfold i0, j0. rewrite !roll_roll by auto. rewrite !Z.add_opp_diag_l, !roll_0 by auto. reflexivity. }
    pose proof (dft2_inverse 1 m n (fpx G) i0 j0 (or_introl eq_refl) (roll_lt m _ _ Hm) (roll_lt n _ _ Hn)) as X. unfold dft2 at 1 in X. replace (- (1)) with (-1) in X by lra.
    match goal with |- context [csum m ?k] => replace (csum m k) with (Cmult (RtoC (INR m * INR n)) (fpx G i0 j0)) end.
    rewrite R0. unfold RtoC, Cmult. cbn [fst snd]. rewrite !mult_INR, !sqrt_div by (try lra; apply Rmult_lt_0_compat; auto). rewrite sqrt_1. rewrite !sqrt_mult by lra.
    assert (Sz : sqrt (INR z) * sqrt (INR z) = INR z) by (apply sqrt_sqrt; lra). assert (Sm : sqrt (INR m) * sqrt (INR m) = INR m) by (apply sqrt_sqrt; lra). assert (Sn : sqrt (INR n) * sqrt (INR n) = INR n) by (apply sqrt_sqrt; lra).
    pose proof (sqrt_lt_R0 _ Pz). pose proof (sqrt_lt_R0 _ Pm). pose proof (sqrt_lt_R0 _ Pn).
    transitivity (INR z / (sqrt (INR z) * sqrt (INR z)) * ((INR m * INR n) / ((sqrt (INR m) * sqrt (INR m)) * (sqrt (INR n) * sqrt (INR n)))) * fpx f i j); [field; repeat split; lra|]. rewrite Sz, Sm, Sn. field. lra.
Qed.
