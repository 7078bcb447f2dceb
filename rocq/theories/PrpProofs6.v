(* Proof support: the transforms are Fresnel sums, and the angular spectrum acts on plane waves *)
From Verif Require Import Base RBase CBase PropModel PropSpec PropProofs OptModel VxProofs PrpModel PrpSpec PrpProofs PrpProofs2 PrpProofs3 PrpProofs5.
Open Scope R_scope.
Definition phz (s : R) (n : nat) (a b : Z) : C := cis (s * (2 * PI) * IZR a * IZR b / INR n).
Lemma phz_add s n a b k : s = 1 \/ s = -1 -> (1 <= n)%nat -> phz s n (a + k * Z.of_nat n) b = phz s n a b.
Proof.
  intros Hs Hn. pose proof (INRpos n Hn). unfold phz. rewrite plus_IZR, mult_IZR, <- INR_IZR_INZ.
  destruct Hs as [-> | ->].
  - replace (1 * (2 * PI) * (IZR a + IZR k * INR n) * IZR b / INR n) with (1 * (2 * PI) * IZR a * IZR b / INR n + 2 * PI * IZR (k * b)) by (rewrite mult_IZR; field; lra). apply cis_period.
  - replace (-1 * (2 * PI) * (IZR a + IZR k * INR n) * IZR b / INR n) with (-1 * (2 * PI) * IZR a * IZR b / INR n + 2 * PI * IZR (- (k * b))) by (rewrite opp_IZR, mult_IZR; field; lra). apply cis_period.
Qed.
Lemma phz_sym s n a b : phz s n a b = phz s n b a. Proof. unfold phz. f_equal. unfold Rdiv. ring. Qed.
Lemma roll_Z n k : (1 <= n)%nat -> exists m, Z.of_nat (roll_ix n (half n) k) = (Z.of_nat k - half n + m * Z.of_nat n)%Z.
Proof.
  intros Hn. unfold roll_ix. rewrite Z2Nat.id by (apply Z.mod_pos_bound; lia). exists (- ((Z.of_nat k - half n) / Z.of_nat n))%Z.
  pose proof (Z.div_mod (Z.of_nat k - half n) (Z.of_nat n)). lia.
Qed.
Lemma ph_roll s n k i : s = 1 \/ s = -1 -> (1 <= n)%nat -> Nat.even n = true ->
  ph s n (roll_ix n (half n) k) (roll_ix n (half n) i) = cis (s * (2 * PI) * (INR k - INR n / 2) * (INR i - INR n / 2) / INR n).
Proof.
  intros Hs Hn Ev. transitivity (phz s n (Z.of_nat (roll_ix n (half n) k)) (Z.of_nat (roll_ix n (half n) i))).
  - unfold ph, phz. now rewrite <- !INR_IZR_INZ.
  - destruct (roll_Z n k Hn) as [m ->]. rewrite phz_add by auto. rewrite phz_sym. destruct (roll_Z n i Hn) as [m' ->]. rewrite phz_add by auto. rewrite phz_sym. unfold phz.
    apply half_even in Ev. assert (X : IZR (half n) = INR n / 2) by (apply (f_equal IZR) in Ev; rewrite mult_IZR, <- INR_IZR_INZ in Ev; lra).
    rewrite !minus_IZR, <- !INR_IZR_INZ, X. reflexivity.
Qed.
Lemma nft_centred s n E k l : s = 1 \/ s = -1 -> (1 <= n)%nat -> Nat.even n = true -> sq n E ->
  fpx (shift_center (nft s n E)) k l = csum n (fun i => csum n (fun j => Cmult (Cmult (fpx (shift_center E) i j)
     (cis (s * (2 * PI) * ((INR k - INR n / 2) * (INR i - INR n / 2) + (INR l - INR n / 2) * (INR j - INR n / 2)) / INR n))) (RtoC (/ INR n)))).
Proof.
  intros Hs Hn Ev [S1 S2]. unfold shift_center, nft, fft_scaled, roll2. cbn [fpx frows fcols]. rewrite S1, S2. unfold dft2.
  rewrite (csum2_roll n (half n)). rewrite <- csum_scal. apply csum_ext. intros i _. rewrite <- csum_scal. apply csum_ext. intros j _.
  rewrite !ph_roll by auto.
  replace (s * (2 * PI) * ((INR k - INR n / 2) * (INR i - INR n / 2) + (INR l - INR n / 2) * (INR j - INR n / 2)) / INR n)
    with (s * (2 * PI) * (INR k - INR n / 2) * (INR i - INR n / 2) / INR n + s * (2 * PI) * (INR l - INR n / 2) * (INR j - INR n / 2) / INR n) by (unfold Rdiv; ring).
  rewrite cis_add. ring.
Qed.
Lemma shift_feq (E F : field C) n i j : (1 <= n)%nat -> sq n E -> feq E F -> fpx (shift_center E) i j = fpx (shift_center F) i j.
Proof. intros Hn [A B] (X & Y & H). unfold shift_center, roll2. cbn [fpx]. rewrite <- X, <- Y, A, B. apply H; rewrite ?A, ?B; now apply roll_lt. Qed.
Lemma roll_pm n k : (k < n)%nat -> roll_ix n (- half n) (roll_ix n (half n) k) = k.
Proof. intros. rewrite roll_roll by lia. replace (- half n + half n)%Z with 0%Z by lia. now apply roll_0. Qed.
Lemma shift_off po lam d E i j : fpx (shift_center (offset_phase po lam d E)) i j = Cmult (offset po lam d) (fpx (shift_center E) i j).
Proof. unfold offset_phase, offset. destruct po; [reflexivity|]. now rewrite Cmult_1_l. Qed.
Lemma shift_qphase n lam dx c E i j : c <> 0 -> (i < n)%nat -> (j < n)%nat -> sq n E ->
  fpx (shift_center (qphase n lam dx c E)) i j = Cmult (cis (PI / (lam * c) * (((INR j - INR n / 2) * dx) ^ 2 + ((INR i - INR n / 2) * dx) ^ 2))) (fpx (shift_center E) i j).
Proof.
  intros Hc Hi Hj [A B]. unfold qphase. destruct (Req_EM_T c 0); [lra|]. unfold shift_center, roll2, mul_by. cbn [fpx frows fcols]. rewrite A, B. unfold qphase_factor. now rewrite !roll_pm.
Qed.
Lemma dsg_abs d : d <> 0 -> dsg d = - (Rabs d / d).
Proof. intros. unfold dsg. destruct (Rle_dec 0 d); [rewrite Rabs_right by lra|rewrite Rabs_left by lra]; field; lra. Qed.
Lemma Cdiv_pull a b x : Cdiv (Cmult a b) x = Cmult a (Cdiv b x). Proof. unfold Cdiv. ring. Qed.
Lemma fresnel_from_waist po w d : coherent w -> Nat.even (w_n w) = true -> w_z w = w_zw0 w -> w_zray w <= Rabs d -> exists w', prop_propagate po w d false = Ok w' /\ w_planar w' = false /\ w_z w' = w_z w + d /\ w_n w' = w_n w /\
  get_sampling w' = w_lam w * Rabs d / (INR (w_n w) * get_sampling w) /\
  forall k l, (k < w_n w)%nat -> (l < w_n w)%nat -> amplitude w' k l = Cmult (offset po (w_lam w) d) (fresnel w d (pix w' k) (pix w' l)).
Proof.
  intros C Ev Hz Hd. pose proof (coherent_sized w C) as (N & S & L). pose proof (zray_pos w C) as Z. pose proof (co_dx w C) as D. pose proof (INRpos _ N) as HN.
  assert (I : w_inside w = true) by (apply (co_in w C); rewrite Hz; replace (w_zw0 w - w_zw0 w) with 0 by ring; now rewrite Rabs_R0).
  assert (Dn : d <> 0) by (intros ->; rewrite Rabs_R0 in Hd; lra). pose proof (Rabs_pos_lt d Dn) as AD.
  assert (J : inside_at w (w_z w + d) = false). { destruct (inside_at w (w_z w + d)) eqn:Q; auto. apply inside_true in Q. rewrite Hz in Q. replace (w_zw0 w - (w_zw0 w + d)) with (- d) in Q by ring. rewrite Rabs_Ropp in Q. lra. }
  pose proof (co_pl w C I) as P. unfold prop_propagate. rewrite I, J. cbn [orb]. unfold prop_ptp. rewrite Hz. replace (w_zw0 w - w_zw0 w) with 0 by ring. rewrite Rabs_R0. pose proof tiny0. destruct (Rlt_dec 0 (/ 1000000000000)); [|lra]. cbn [rbind].
  replace (w_zw0 w + d - w_zw0 w) with d by ring. rewrite wts_ok by auto. eexists. split; [reflexivity|]. split; [reflexivity|]. split; [cbn; congruence|]. split; [reflexivity|]. split; [reflexivity|].
  intros k l Hk Hl. unfold fresnel, amplitude, physical, pix, get_sampling, get_refradius, get_wavefront. unfold wmove. cbn [w_arr moved set_type w_planar w_lam w_dx w_z w_zw0 w_n]. rewrite P.
  set (n := w_n w) in *. set (dx := w_dx w) in *. set (lam := w_lam w) in *. unfold WT. rewrite shift_off.
  rewrite (shift_feq _ _ n k l N (dirft_sq _ _ _ (qphase_sq _ _ _ _ _ _ S)) (dirft_nft d n _ N (qphase_sq _ _ _ _ _ _ S))).
  rewrite nft_centred by (auto using dsg_cases, qphase_sq).
  unfold Cdiv. rewrite <- !Cmult_assoc. f_equal. rewrite <- !csum_scal_r. apply csum_ext. intros i Hi. rewrite <- !csum_scal_r. apply csum_ext. intros j Hj.
  rewrite shift_qphase by auto. set (e := fpx (shift_center (w_arr w)) i j). set (dx' := ndx n lam dx d).
  assert (X1 : dx' = lam * Rabs d / (INR n * dx)) by reflexivity. assert (X1p : 0 < dx') by (apply ndx_pos; auto).
  set (yk := INR k - INR n / 2). set (xl := INR l - INR n / 2). set (yi := INR i - INR n / 2). set (xj := INR j - INR n / 2).
  rewrite Rmult_1_r || idtac.
  assert (PH : cis (PI * ((yk * dx' - yi * dx) ^ 2 + (xl * dx' - xj * dx) ^ 2) / (lam * d)) =
     Cmult (Cmult (cis (PI / (lam * d) * ((xj * dx) ^ 2 + (yi * dx) ^ 2))) (cis (dsg d * (2 * PI) * (yk * yi + xl * xj) / INR n))) (cis (PI * ((yk * dx') ^ 2 + (xl * dx') ^ 2) / (lam * (w_z w + d - w_zw0 w))))).
  { rewrite <- !cis_add. f_equal. replace (w_z w + d - w_zw0 w) with d by lra. rewrite dsg_abs by auto. rewrite X1. field. repeat split; lra. }
  rewrite PH. clear PH. rewrite <- !RtoC_inv by lra.
  assert (X2 : / INR n * / dx' = / dx * (dx ^ 2 / (lam * Rabs d))) by (rewrite X1; field; repeat split; lra).
  replace (RtoC (dx ^ 2 / (lam * Rabs d))) with (Cmult (RtoC dx) (RtoC (/ INR n * / dx'))) by (rewrite <- RtoC_mult; f_equal; rewrite X2; field; lra).
  rewrite RtoC_mult. set (q1 := cis _). set (q2 := cis _). set (q3 := cis _). assert (X3 : Cmult (RtoC (/ dx)) (RtoC dx) = RtoC 1) by (rewrite <- RtoC_mult; f_equal; field; lra).
  transitivity (Cmult (Cmult (RtoC (/ dx)) (RtoC dx)) (Cmult q1 (Cmult e (Cmult q2 (Cmult (RtoC (/ INR n)) (Cmult q3 (RtoC (/ dx')))))))); [rewrite X3; ring|ring].
Qed.
