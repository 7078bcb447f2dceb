(* C68 continued: what resampling does to the size and to a uniform surface. *)
From Coquelicot Require Import Coquelicot.
From Verif Require Import Base RBase StrBase CBase PropModel OptModel DiffModel.
Open Scope R_scope.
Lemma nround_near x : Rabs (IZR (nround x) - x) <= / 2.
Proof.
  unfold nround. destruct (base_Int_part x) as [H1 H2]. set (f := Int_part x) in *. assert (E : IZR (f + 1) = IZR f + 1) by (rewrite plus_IZR; reflexivity).
  destruct (Rlt_dec (x - IZR f) (1 / 2)); [apply Rabs_le; lra|]. destruct (Rlt_dec (1 / 2) (x - IZR f)); [rewrite E; apply Rabs_le; lra|]. destruct (Z.even f); rewrite ?E; apply Rabs_le; lra.
Qed.
Lemma nround_tie x : x - IZR (Int_part x) = / 2 -> Z.even (nround x) = true.
Proof.
  intros H. unfold nround. rewrite H. destruct (Rlt_dec (/ 2) (1 / 2)); [lra|]. destruct (Rlt_dec (1 / 2) (/ 2)); [lra|]. destruct (Z.even (Int_part x)) eqn:E; [auto|]. rewrite Z.even_add, E. reflexivity.
Qed.
(* The resampled surface has, along each axis, zoom times the samples, rounded to the nearest integer. *)
Theorem C68_resampled_size f zoom : 0 < zoom -> zoom <> 1 ->
  Rabs (INR (frows (resample f zoom)) - INR (frows f) * zoom) <= / 2 /\ Rabs (INR (fcols (resample f zoom)) - INR (fcols f) * zoom) <= / 2.
Proof.
  intros Hz H1. unfold resample. destruct (Req_EM_T zoom 1); [contradiction|]. cbn [frows fcols].
  assert (G : forall m, Rabs (INR (Z.to_nat (nround (INR m * zoom))) - INR m * zoom) <= / 2).
  { intros m. assert (0 <= nround (INR m * zoom))%Z. { pose proof (nround_near (INR m * zoom)) as H. assert (0 <= INR m * zoom) by (apply Rmult_le_pos; [apply pos_INR|lra]). apply Rabs_le_between in H. apply Z.lt_pred_le, lt_IZR. cbn. lra. }
    rewrite INR_IZR_INZ, Z2Nat.id by auto. apply nround_near. }
  split; apply G.
Qed.
Lemma dft_one s n u : (s = 1 \/ s = -1) -> (1 <= n)%nat -> (u < n)%nat -> csum n (fun j => ph s n u j) = if Nat.eqb u 0 then RtoC (INR n) else RtoC 0.
Proof.
  intros Hs Hn Hu. rewrite Nat.eqb_sym. rewrite <- (dft_orth s n 0 u Hs Hn) by lia. apply csum_ext. intros j _.
  assert (E : ph (- s) n j 0 = RtoC 1). { unfold ph. cbn [INR]. replace (- s * (2 * PI) * INR j * 0 / INR n) with 0 by (unfold Rdiv; ring). apply cis_0. } rewrite E. ring.
Qed.
Lemma roll_lt n s i : (1 <= n)%nat -> (roll_ix n s i < n)%nat.
Proof. intros H. unfold roll_ix. pose proof (Z.mod_pos_bound (Z.of_nat i - s) (Z.of_nat n) ltac:(lia)). lia. Qed.
Lemma roll_half n i : (1 <= n)%nat -> (i < n)%nat -> Nat.eqb (roll_ix n (half n) i) 0 = Nat.eqb i (n / 2).
Proof.
  intros Hn Hi. unfold roll_ix, half. pose proof (Nat.div_lt n 2 ltac:(lia) ltac:(lia)) as Hh. set (h := (n / 2)%nat) in *. destruct (Nat.eqb_spec i h) as [->|Hne].
  - rewrite Z.sub_diag, Z.mod_0_l by lia. reflexivity.
  - apply Nat.eqb_neq. intros E. assert (E2 : ((Z.of_nat i - Z.of_nat h) mod Z.of_nat n = 0)%Z) by (pose proof (Z.mod_pos_bound (Z.of_nat i - Z.of_nat h) (Z.of_nat n) ltac:(lia)); lia). apply Z.mod_divide in E2; [|lia]. destruct E2 as [k Hk]. assert (k = 0)%Z by nia. nia.
Qed.
(* A uniform surface stays uniform; its height is multiplied by zoom sqrt(m n / (M N)): exactly 1 when zoom times the size is an integer along both axes, and only then (for M N <> zoom^2 m n the height is wrong). *)
Theorem C68_resampled_uniform f zoom h : zoom <> 1 -> (1 <= frows f)%nat -> (1 <= fcols f)%nat -> (1 <= frows (resample f zoom))%nat -> (1 <= fcols (resample f zoom))%nat ->
  (forall i j, (i < frows f)%nat -> (j < fcols f)%nat -> fpx f i j = h) -> forall y x,
  fpx (resample f zoom) y x = zoom * sqrt (INR (frows f) * INR (fcols f) / (INR (frows (resample f zoom)) * INR (fcols (resample f zoom)))) * h.
Proof.
  intros H1 Hm Hn HM HN Hf y x. unfold resample in *. destruct (Req_EM_T zoom 1) as [?|Hz1]; [contradiction|]. cbn [frows fcols fpx] in *. set (m := frows f) in *. set (n := fcols f) in *. set (M := Z.to_nat (nround (INR m * zoom))) in *. set (N := Z.to_nat (nround (INR n * zoom))) in *.
  assert (Fv : forall u v, (u < m)%nat -> (v < n)%nat -> fpx (fftshift (fft2_ortho (ifftshift (cfield f)))) u v = if Nat.eqb u (m / 2) && Nat.eqb v (n / 2) then RtoC (sqrt (INR m * INR n) * h) else RtoC 0).
  { intros u v Hu Hv. unfold fftshift, fft2_ortho, fft_scaled, ifftshift, roll2, cfield, fmap, size. cbn [frows fcols fpx]. fold m n. set (a := roll_ix m (half m) u). set (b := roll_ix n (half n) v).
    assert (D : dft2 (-1) m n (fun i j => RtoC (fpx f (roll_ix m (- half m) i) (roll_ix n (- half n) j))) a b = Cmult (RtoC h) (Cmult (if Nat.eqb a 0 then RtoC (INR m) else RtoC 0) (if Nat.eqb b 0 then RtoC (INR n) else RtoC 0))).
    { unfold dft2. rewrite <- (dft_one (-1) m a), <- (dft_one (-1) n b) by (auto; apply roll_lt; auto). rewrite <- csum_scal_r, <- csum_scal. apply csum_ext. intros i Hi. rewrite <- !csum_scal. apply csum_ext. intros j Hj. rewrite Hf by (apply roll_lt; auto). reflexivity. }
    rewrite D. unfold a, b. rewrite !roll_half by auto. assert (P : 0 < INR m * INR n) by (apply Rmult_lt_0_compat; apply lt_0_INR; lia).
    assert (Q : / sqrt (INR m * INR n) * (INR m * INR n) = sqrt (INR m * INR n)). { rewrite <- (sqrt_sqrt (INR m * INR n)) at 2 by lra. field. apply Rgt_not_eq, sqrt_lt_R0, P. }
    destruct (Nat.eqb u (m / 2)), (Nat.eqb v (n / 2)); cbn [andb]; rewrite <- !RtoC_mult; f_equal; try ring. transitivity (/ sqrt (INR m * INR n) * (INR m * INR n) * h); [ring|now rewrite Q]. }
  rewrite (csum_single m (m / 2)); [|apply Nat.div_lt; lia|].
  2:{ intros i Hi Hne. apply csum_zero. intros j Hj. rewrite Fv by auto. rewrite (proj2 (Nat.eqb_neq _ _) Hne). cbn [andb]. ring. }
  rewrite (csum_single n (n / 2)); [|apply Nat.div_lt; lia|].
  2:{ intros j Hj Hne. rewrite Fv by (auto; apply Nat.div_lt; lia). rewrite (proj2 (Nat.eqb_neq j _) Hne), andb_false_r. ring. }
  rewrite Fv by (apply Nat.div_lt; lia). rewrite !Nat.eqb_refl. cbn [andb]. assert (AX : forall k q, axis k q (k / 2)%nat = 0) by (intros; unfold axis; ring). rewrite !AX, !Rmult_0_r, cis_0.
  assert (PM : 0 < INR M) by (apply lt_0_INR; lia). assert (PN : 0 < INR N) by (apply lt_0_INR; lia). assert (Pm : 0 < INR m) by (apply lt_0_INR; lia). assert (Pn : 0 < INR n) by (apply lt_0_INR; lia).
  replace (Cmult (RtoC 1) (RtoC 1)) with (RtoC 1) by ring. rewrite Cmult_1_r. cbn [fst RtoC].
  rewrite <- sqrt_mult_alt by (left; apply Rdiv_lt_0_compat; lra). 
  replace (zoom * sqrt (1 / INR M * (1 / INR N)) * (sqrt (INR m * INR n) * h)) with (zoom * (sqrt (INR m * INR n) * sqrt (1 / INR M * (1 / INR N))) * h) by ring.
  rewrite <- sqrt_mult_alt by (left; apply Rmult_lt_0_compat; auto). do 3 f_equal. field. split; lra.
Qed.
(* doubling a 2 x 2 surface: 4 x 4, same height; zooming a single sample by 1.4: still a single sample, 1.4 times too high *)
Example C68_resample_example : frows (resample (mkf 2 2 (fun _ _ => 3)) 2) = 4%nat /\ fpx (resample (mkf 2 2 (fun _ _ => 3)) 2) 0%nat 0%nat = 3 /\
  frows (resample (mkf 1 1 (fun _ _ => 3)) (7 / 5)) = 1%nat /\ fpx (resample (mkf 1 1 (fun _ _ => 3)) (7 / 5)) 0%nat 0%nat = 21 / 5.
Proof.
  assert (NR : forall x z, Rabs (IZR z - x) < / 2 -> nround x = z). { intros x z H. pose proof (nround_near x) as H2. apply Rabs_le_between in H2. apply Rabs_lt_between in H. apply Z.le_antisymm; apply Z.lt_succ_r, lt_IZR; rewrite succ_IZR; lra. }
  assert (E2 : nround (INR 2 * 2) = 4%Z) by (apply NR; cbn [INR]; replace (4 - (1 + 1) * 2) with 0 by ring; rewrite Rabs_R0; lra).
  assert (E1 : nround (INR 1 * (7 / 5)) = 1%Z) by (apply NR; cbn [INR]; apply Rabs_def1; lra).
  assert (S2 : frows (resample (mkf 2 2 (fun _ _ => 3)) 2) = 4%nat /\ fcols (resample (mkf 2 2 (fun _ _ => 3)) 2) = 4%nat) by (unfold resample; destruct (Req_EM_T 2 1); [lra|]; cbn [frows fcols]; rewrite E2; auto).
  assert (S1 : frows (resample (mkf 1 1 (fun _ _ => 3)) (7 / 5)) = 1%nat /\ fcols (resample (mkf 1 1 (fun _ _ => 3)) (7 / 5)) = 1%nat) by (unfold resample; destruct (Req_EM_T (7 / 5) 1); [lra|]; cbn [frows fcols]; rewrite E1; auto).
  destruct S2 as [A2 B2]. destruct S1 as [A1 B1]. split; [auto|]. split; [|split; [auto|]].
  - rewrite (C68_resampled_uniform _ 2 3); try (cbn [frows fcols]; lia); [|lra|now intros]. rewrite A2, B2. cbn [frows fcols INR]. replace ((1 + 1) * (1 + 1) / ((1 + 1 + 1 + 1) * (1 + 1 + 1 + 1))) with (/ 2 * / 2) by field. rewrite sqrt_square by lra. field.
  - rewrite (C68_resampled_uniform _ (7 / 5) 3); try (cbn [frows fcols]; lia); [|lra|now intros]. rewrite A1, B1. cbn [frows fcols INR]. replace (1 * 1 / (1 * 1)) with 1 by field. rewrite sqrt_1. field.
Qed.
