(* Property theorems C36 (relay), C37 (shifted FFT pair), C38 (free-space propagation), C39 (matrix Fourier transforms). *)
From Verif Require Import Base RBase UtilModel UtilProofs CBase PropModel PropSpec PropProofs PropProofs2.
Open Scope R_scope.

(* ---------------- C36 ---------------- *)
(* n single relays, one after the other *)
Fixpoint relays {A} (n : nat) (E : field A) (c : centering) : res (field A) :=
  match n with O => Ok E | S n => do F <- relays n E c; relay F 1 c end.

(* What one relay does to each pixel. *)
Theorem C36_one_relay_reversed : forall A (E : field A), exists out, relay E 1 Interpixel = Ok out /\
  frows out = frows E /\ fcols out = fcols E /\
  forall i j, (i < frows E)%nat -> (j < fcols E)%nat -> fpx out i j = fpx E (frows E - 1 - i)%nat (fcols E - 1 - j)%nat.
Proof. intros A E. eexists. split; [reflexivity|]. now cbn. Qed.
Theorem C36_one_relay_pixel : forall A (E : field A), exists out, relay E 1 Pixel = Ok out /\
  frows out = frows E /\ fcols out = fcols E /\
  forall i j, (i < frows E)%nat -> (j < fcols E)%nat ->
    fpx out i j = fpx E ((frows E - i) mod frows E)%nat ((fcols E - j) mod fcols E)%nat.
Proof. intros A E. eexists. split; [reflexivity|]. split; [reflexivity|]. split; [reflexivity|]. apply relay_pixel_px. Qed.

Lemma relay_parity {A} (E : field A) a b c : (a mod 2 = b mod 2)%Z -> relay E a c = relay E b c.
Proof. intros H. unfold relay. now rewrite H. Qed.
Lemma relay_feq {A} (E F : field A) n c G : feq E F -> relay E n c = Ok G -> exists G', relay F n c = Ok G' /\ feq G G'.
Proof.
  intros H. pose proof H as (H1 & H2 & H3). unfold relay. destruct c; [| |discriminate]; destruct (n mod 2 =? 1)%Z; intros Q; injection Q as <-; (eexists; split; [reflexivity|]); auto.
  - split; [auto|]. split; [auto|]. intros i j Hi Hj. change (frows (roll2 1 1 (flip2 E))) with (frows E) in Hi. change (fcols (roll2 1 1 (flip2 E))) with (fcols E) in Hj.
    rewrite (relay_pixel_px E i j Hi Hj). rewrite H1, H2 in *. rewrite (relay_pixel_px F i j Hi Hj).
    apply H3; apply Nat.mod_upper_bound; lia.
  - split; [auto|]. split; [auto|]. cbn. intros i j Hi Hj. rewrite <- H1, <- H2. apply H3; lia.
Qed.
Lemma mod_refl_ix n i : (i < n)%nat -> ((n - (n - i) mod n) mod n = i)%nat.
Proof.
  intros H. destruct i as [|i]; [now rewrite Nat.sub_0_r, Nat.mod_same, Nat.sub_0_r, Nat.mod_same by lia|].
  rewrite (Nat.mod_small (n - S i)) by lia. rewrite Nat.mod_small by lia. lia.
Qed.
Lemma relay_twice {A} (E : field A) c : c <> OtherCentering -> exists F G, relay E 1 c = Ok F /\ relay F 1 c = Ok G /\ feq G E.
Proof.
  intros Hc. destruct c; [| |congruence]; (eexists _, _; split; [reflexivity|]; split; [reflexivity|]; split; [reflexivity|]; split; [reflexivity|]); intros i j Hi Hj.
  - change (frows (roll2 1 1 (flip2 (roll2 1 1 (flip2 E))))) with (frows E) in Hi. change (fcols (roll2 1 1 (flip2 (roll2 1 1 (flip2 E))))) with (fcols E) in Hj.
    rewrite (relay_pixel_px (roll2 1 1 (flip2 E)) i j Hi Hj).
    change (frows (roll2 1 1 (flip2 E))) with (frows E). change (fcols (roll2 1 1 (flip2 E))) with (fcols E).
    rewrite relay_pixel_px by (apply Nat.mod_upper_bound; lia). now rewrite !mod_refl_ix.
  - cbn in *. f_equal; lia.
Qed.
Theorem C36_two_relays_identity : forall A (E : field A) c, c <> OtherCentering ->
  exists F G, relay E 1 c = Ok F /\ relay F 1 c = Ok G /\ feq G E /\ relay E 2 c = Ok E.
Proof.
  intros A E c Hc. destruct (relay_twice E c Hc) as (F & G & H1 & H2 & H3). exists F, G. do 3 (split; [auto|]). destruct c; [reflexivity|reflexivity|congruence].
Qed.
(* n relays at once are n successive relays *)
Theorem C36_count_is_iteration : forall A (E : field A) c n, c <> OtherCentering ->
  exists F G, relays n E c = Ok F /\ relay E (Z.of_nat n) c = Ok G /\ feq F G.
Proof.
  intros A E c n Hc. induction n as [|n IH].
  - exists E, E. split; [reflexivity|]. split; [destruct c; [reflexivity|reflexivity|congruence]|]. apply feq_refl.
  - destruct IH as (F & G & HF & HG & HE). cbn [relays]. rewrite HF. cbn [rbind].
    assert (H : exists K, relay F 1 c = Ok K) by (destruct c; [eexists; reflexivity|eexists; reflexivity|congruence]). destruct H as [K HK].
    destruct (relay_feq F G 1 c K HE HK) as (K' & HK' & HKE).
    destruct (relay_twice E c Hc) as (P & Q & HP & HQ & HPQ).
    destruct (Z.eq_dec (Z.of_nat n mod 2) 1) as [Hn|Hn].
    + rewrite (relay_parity E (Z.of_nat n) 1) in HG by (rewrite Hn; reflexivity). rewrite HP in HG. injection HG as <-.
      rewrite HQ in HK'. injection HK' as <-. exists K, E. split; [auto|]. split; [|eapply feq_trans; eauto].
      rewrite (relay_parity E (Z.of_nat (S n)) 0) by (rewrite Nat2Z.inj_succ; cbn [Z.modulo]; Z.div_mod_to_equations; lia).
      destruct c; [reflexivity|reflexivity|congruence].
    + assert (Hn0 : (Z.of_nat n mod 2 = 0)%Z) by (Z.div_mod_to_equations; lia).
      rewrite (relay_parity E (Z.of_nat n) 0) in HG by (rewrite Hn0; reflexivity).
      assert (G = E) as -> by (destruct c; cbn in HG; congruence).
      exists K, K'. split; [auto|]. split; [|auto]. rewrite (relay_parity E (Z.of_nat (S n)) 1); [auto|].
      rewrite Nat2Z.inj_succ. cbn [Z.modulo]. Z.div_mod_to_equations. lia.
Qed.
(* counts add, also negative ones: -1 relays undo (and equal) one relay *)
Theorem C36_counts_add : forall A (E : field A) c a b, c <> OtherCentering ->
  exists F G H, relay E a c = Ok F /\ relay F b c = Ok G /\ relay E (a + b) c = Ok H /\ feq G H.
Proof.
  intros A E c a b Hc. destruct (relay_twice E c Hc) as (P & Q & HP & HQ & HPQ).
  assert (Z0 : forall X : field A, relay X 0 c = Ok X) by (intros; destruct c; [reflexivity|reflexivity|congruence]).
  assert (Hcase : forall z : Z, (z mod 2 = 0 \/ z mod 2 = 1)%Z) by (intros; Z.div_mod_to_equations; lia).
  destruct (Hcase a) as [Ha|Ha], (Hcase b) as [Hb|Hb].
  - exists E, E, E. rewrite (relay_parity E a 0), (relay_parity E b 0), (relay_parity E (a+b) 0) by (cbn [Z.modulo]; Z.div_mod_to_equations; lia). repeat split; auto.
  - exists E, P, P. rewrite (relay_parity E a 0), (relay_parity E b 1), (relay_parity E (a+b) 1) by (cbn [Z.modulo]; Z.div_mod_to_equations; lia). repeat split; auto.
  - exists P, P, P. rewrite (relay_parity E a 1), (relay_parity P b 0), (relay_parity E (a+b) 1) by (cbn [Z.modulo]; Z.div_mod_to_equations; lia). repeat split; auto.
  - exists P, Q, E. rewrite (relay_parity E a 1), (relay_parity P b 1), (relay_parity E (a+b) 0) by (cbn [Z.modulo]; Z.div_mod_to_equations; lia). repeat split; auto; apply HPQ.
Qed.
Theorem C36_bad_centering : forall A (E : field A) n, relay E n OtherCentering = Raise ValueError.
Proof. reflexivity. Qed.

(* A relay rotates the field by 180 degrees about the origin of coordinates: every sample lands on the
   sample with opposite coordinates. Holds for inter-pixel centring of any size; for pixel centring of
   an even axis it holds off the first row and column, which have no opposite sample. *)
Theorem C36_rotates_interpixel : forall n dx i, (i < n)%nat -> coord n dx Interpixel (n - 1 - i)%nat = - coord n dx Interpixel i.
Proof.
  intros n dx i Hi. unfold coord. cbn [interp andb]. rewrite !minus_INR by lia. change (INR 1) with 1.
  destruct (Nat.even n) eqn:E.
  - apply Nat.even_spec in E. destruct E as [q ->]. rewrite (Nat.mul_comm 2), Nat.div_mul, mult_INR by lia. cbn [INR]. lra.
  - assert (O : Nat.odd n = true) by (unfold Nat.odd; now rewrite E). apply Nat.odd_spec in O. destruct O as [q ->].
    replace ((2 * q + 1) / 2)%nat with q by (rewrite (Nat.mul_comm 2), Nat.div_add_l by lia; cbn; lia). rewrite plus_INR, mult_INR. cbn [INR]. lra.
Qed.
Theorem C36_rotates_pixel_even : forall n dx i, (0 < i < n)%nat -> Nat.even n = true ->
  coord n dx Pixel ((n - i) mod n)%nat = - coord n dx Pixel i.
Proof.
  intros n dx i Hi E. rewrite Nat.mod_small by lia. unfold coord. cbn [interp andb]. rewrite minus_INR by lia.
  apply Nat.even_spec in E. destruct E as [q ->]. rewrite (Nat.mul_comm 2), Nat.div_mul, mult_INR by lia. cbn [INR]. lra.
Qed.
(* the sample at the origin stays (even sizes, pixel centring) *)
Theorem C36_centre_kept_even : forall A (E : field A) n, Nat.even (frows E) = true -> Nat.even (fcols E) = true ->
  (1 <= frows E)%nat -> (1 <= fcols E)%nat -> exists out, relay E n Pixel = Ok out /\
  fpx out (frows E / 2)%nat (fcols E / 2)%nat = fpx E (frows E / 2)%nat (fcols E / 2)%nat.
Proof.
  intros A E n HM HN M1 N1. unfold relay. destruct (n mod 2 =? 1)%Z; eexists; (split; [reflexivity|]); [|reflexivity].
  assert (H : forall m, Nat.even m = true -> (1 <= m)%nat -> (m / 2 < m)%nat /\ ((m - m / 2) mod m = m / 2)%nat).
  { intros m Em Hm. apply Nat.even_spec in Em. destruct Em as [q ->]. rewrite (Nat.mul_comm 2), Nat.div_mul by lia. split; [lia|]. rewrite Nat.mod_small; lia. }
  destruct (H _ HM M1), (H _ HN N1). rewrite relay_pixel_px by auto. congruence.
Qed.
(* Refuted for odd sizes: with pixel centring a relay moves the origin sample of every odd-sized array by one row and column. *)
Theorem C36_centre_moves_odd_refuted : forall A (E : field A), Nat.even (frows E) = false -> Nat.even (fcols E) = false ->
  exists out, relay E 1 Pixel = Ok out /\
  ((3 <= frows E)%nat -> (3 <= fcols E)%nat -> fpx out (frows E / 2)%nat (fcols E / 2)%nat = fpx E (frows E / 2 + 1)%nat (fcols E / 2 + 1)%nat).
Proof.
  intros A E HM HN. eexists. split; [reflexivity|]. intros M3 N3.
  assert (H : forall m, Nat.even m = false -> (3 <= m)%nat -> (m / 2 < m)%nat /\ ((m - m / 2) mod m = m / 2 + 1)%nat).
  { intros m Em Hm. assert (O : Nat.odd m = true) by (unfold Nat.odd; now rewrite Em). apply Nat.odd_spec in O. destruct O as [q ->].
    replace ((2 * q + 1) / 2)%nat with q by (rewrite (Nat.mul_comm 2), Nat.div_add_l by lia; cbn; lia). split; [lia|]. rewrite Nat.mod_small; lia. }
  destruct (H _ HM M3), (H _ HN N3). rewrite relay_pixel_px by auto. congruence.
Qed.
Print Assumptions C36_one_relay_pixel. Print Assumptions C36_two_relays_identity. Print Assumptions C36_count_is_iteration.
Print Assumptions C36_counts_add. Print Assumptions C36_rotates_interpixel. Print Assumptions C36_rotates_pixel_even.
Print Assumptions C36_centre_kept_even. Print Assumptions C36_centre_moves_odd_refuted.
(* a 2x3 array of its own indices *)
Example C36_example : let E := mkf 2 3 (fun i j => (i, j)) in
  exists out, relay E 3 Pixel = Ok out /\ fpx out 0%nat 0%nat = (0, 0)%nat /\ fpx out 1%nat 1%nat = (1, 2)%nat /\ fpx out 0%nat 2%nat = (0, 1)%nat.
Proof. eexists. split; [reflexivity|]. vm_compute. auto. Qed.

(* ---------------- C37 ---------------- *)
Theorem C37_inverse_even : forall E, Nat.even (frows E) = true -> Nat.even (fcols E) = true ->
  feq (ifft2d (fft2d E)) E.
Proof.
  intros E HM HN. split; [reflexivity|]. split; [reflexivity|]. intros i j Hi Hj.
  change (frows (ifft2d (fft2d E))) with (frows E) in Hi. change (fcols (ifft2d (fft2d E))) with (fcols E) in Hj.
  rewrite fft_round_trip by auto. rewrite !rt_phase_even by auto. rewrite (half_even _ HM), (half_even _ HN).
  rewrite !roll_id; auto; [ring| |]; rewrite Z_mod_zero_opp_full; auto; apply Z_mod_same_full.
Qed.
Theorem C37_inverse_even_other_order : forall E, Nat.even (frows E) = true -> Nat.even (fcols E) = true ->
  feq (fft2d (ifft2d E)) E.
Proof.
  intros E HM HN. destruct (frows E) as [|m] eqn:EM; [split; [reflexivity|]; split; [reflexivity|]; cbn; rewrite EM; lia|].
  destruct (fcols E) as [|n] eqn:EN; [split; [reflexivity|]; split; [reflexivity|]; cbn; rewrite EN; lia|].
  assert (K : forall q, Nat.even q = true -> ((- half q + - half q) mod Z.of_nat q = 0 /\ (half q + half q) mod Z.of_nat q = 0)%Z).
  { intros q Hq. pose proof (half_even q Hq) as Hh. split.
    - replace (- half q + - half q)%Z with (- Z.of_nat q)%Z by lia. rewrite Z_mod_zero_opp_full; auto; apply Z_mod_same_full.
    - replace (half q + half q)%Z with (Z.of_nat q) by lia. apply Z_mod_same_full. }
  assert (S0 : forall X : field C, frows X = frows E -> fcols X = fcols E -> feq (ifftshift (ifftshift X)) X).
  { intros X H1 H2. eapply feq_trans; [apply roll2_roll2|]. apply roll2_id.
    - change (frows (ifftshift X)) with (frows X). apply K. rewrite H1, EM. exact HM.
    - change (fcols (ifftshift X)) with (fcols X). apply K. rewrite H2, EN. exact HN. }
  assert (S1 : feq (fftshift (fftshift E)) E).
  { eapply feq_trans; [apply roll2_roll2|]. apply roll2_id.
    - change (frows (fftshift E)) with (frows E). apply K. rewrite EM. exact HM.
    - change (fcols (fftshift E)) with (fcols E). apply K. rewrite EN. exact HN. }
  unfold fft2d, ifft2d. eapply feq_trans; [|exact S1]. apply fftshift_feq.
  eapply feq_trans.
  { unfold fft2_ortho. match goal with |- feq (fft_scaled (-1) ?a _) _ => apply (fft_scaled_feq (-1) a) end. apply S0; reflexivity. }
  unfold ifft2_ortho. replace (-1) with (- 1) at 1 by lra.
  match goal with |- feq (fft_scaled ?s ?a (fft_scaled ?t ?b ?F)) _ => replace t with (- s) by lra; apply fft_pair end; [lra|].
  apply sqrt_pair. unfold size. cbn. rewrite EM, EN. apply Rmult_lt_0_compat; apply lt_0_INR; lia.
Qed.
(* What happens in general: the field comes back shifted by one pixel on every odd axis, times a phase. *)
Theorem C37_round_trip_general : forall E i j, (i < frows E)%nat -> (j < fcols E)%nat ->
  exists ph, abs2 ph = 1 /\ fpx (ifft2d (fft2d E)) i j =
    Cmult ph (fpx E (if Nat.even (frows E) then i else (i + (frows E - 1)) mod frows E)%nat
                    (if Nat.even (fcols E) then j else (j + (fcols E - 1)) mod fcols E)%nat).
Proof.
  intros E i j Hi Hj. rewrite fft_round_trip by auto. eexists. split; [|f_equal].
  - unfold rt_phase. now rewrite abs2_mult, !abs2_cis, Rmult_1_l.
  - assert (H : forall n k, (k < n)%nat -> roll_ix n (- (2 * half n)) k = (if Nat.even n then k else (k + (n - 1)) mod n)%nat).
    { intros n k Hk. destruct (Nat.even n) eqn:En.
      - rewrite (half_even n En). apply roll_id; auto. rewrite Z_mod_zero_opp_full; auto; apply Z_mod_same_full.
      - rewrite (half_odd n En). rewrite roll_as_add by lia. do 2 f_equal. rewrite Z.opp_involutive, Z.mod_small; lia. }
    now rewrite !H.
Qed.
(* Refuted for odd sizes: for every array size with an odd axis of at least 3 samples some field does not come back. *)
Theorem C37_inverse_odd_refuted : forall M N, Nat.even M = false -> (3 <= M)%nat -> (1 <= N)%nat ->
  exists E, frows E = M /\ fcols E = N /\ ~ feq (ifft2d (fft2d E)) E.
Proof.
  intros M N HM M3 N1. exists (mkf M N (fun i _ => if Nat.eqb i 0 then RtoC 1 else RtoC 0)). split; [reflexivity|]. split; [reflexivity|].
  intros (_ & _ & H). specialize (H 0%nat 0%nat). cbn [frows fcols] in H.
  destruct (C37_round_trip_general (mkf M N (fun i _ => if Nat.eqb i 0 then RtoC 1 else RtoC 0)) 0 0) as (p & _ & E); [cbn; lia|cbn; lia|].
  rewrite H in E by (cbn; lia). cbn [frows fcols fpx] in E. rewrite HM in E. rewrite Nat.add_0_l, (Nat.mod_small (M - 1)) in E by lia.
  destruct (Nat.eqb_spec (M - 1) 0); [lia|]. cbn [Nat.eqb] in E. apply (f_equal fst) in E. cbn in E. lra.
Qed.
(* both transforms conserve energy, for every size *)
Theorem C37_energy : forall E, fenergy (fft2d E) = fenergy E /\ fenergy (ifft2d E) = fenergy E.
Proof.
  intros E. assert (H0 : (frows E = 0 \/ fcols E = 0 \/ (1 <= frows E /\ 1 <= fcols E))%nat) by lia. destruct H0 as [H0 | [H0 | [HM HN]]].
  - unfold fenergy, energy. cbn. rewrite H0. auto.
  - assert (Z0 : forall F : field C, fcols F = 0%nat -> fenergy F = 0).
    { intros F HF. unfold fenergy, energy. rewrite HF. cbn. induction (frows F) as [|n IH]; cbn; [auto|]. rewrite IH. ring. }
    rewrite !Z0; auto.
  - unfold fft2d, ifft2d, fftshift, ifftshift. rewrite !energy_roll. unfold fft2_ortho, ifft2_ortho. rewrite !energy_fft by (auto; right; lra). rewrite !energy_roll.
    cbn [frows fcols roll2]. unfold size. cbn [frows fcols roll2].
    rewrite sqrt_pair by (apply Rmult_lt_0_compat; apply lt_0_INR; lia). lra.
Qed.
Print Assumptions C37_inverse_even. Print Assumptions C37_inverse_even_other_order. Print Assumptions C37_round_trip_general.
Print Assumptions C37_inverse_odd_refuted. Print Assumptions C37_energy.

(* ---------------- C38 ---------------- *)
Theorem C38_zero_distance : forall E fw w, 0 < fw -> 0 < w -> ptp E fw w 0 = Ok E.
Proof. intros E fw w Hf Hw. unfold ptp. destruct (Rle_dec fw 0); [lra|]. destruct (Rle_dec w 0); [lra|]. destruct (Req_EM_T 0 0); [auto|congruence]. Qed.
(* z1 then z2 is z1 + z2: every field, every size, even or odd *)
Theorem C38_composes : forall E fw w z1 z2, 0 < fw -> 0 < w -> frows E = fcols E -> (1 <= frows E)%nat ->
  exists F G H, ptp E fw w z1 = Ok F /\ ptp F fw w z2 = Ok G /\ ptp E fw w (z1 + z2) = Ok H /\ feq G H.
Proof.
  intros E fw w z1 z2 Hf Hw Hsq HM.
  destruct (ptp_formula E fw w z1 Hf Hw Hsq HM) as (F & EF & HF). pose proof HF as (RF & CF & _). cbn in RF, CF.
  destruct (ptp_formula F fw w z2 Hf Hw) as (G & EG & HG); [congruence|congruence|].
  destruct (ptp_formula E fw w (z1 + z2) Hf Hw Hsq HM) as (H & EH & HH).
  exists F, G, H. do 3 (split; [auto|]). eapply feq_trans; [exact HG|]. eapply feq_trans; [|apply feq_sym; exact HH].
  rewrite RF, CF. eapply feq_trans; [apply prop_z_feq; exact HF|].
  eapply feq_trans; [apply prop_z_compose; [auto|lia]|].
  split; [reflexivity|]. split; [reflexivity|]. intros i j Hi Hj. unfold prop_z, ifftshift, ifftn, mul_by, fft_scaled. cbn [fpx roll2 frows fcols]. f_equal.
  apply dft2_ext. intros u v _ _. now rewrite transfer_mult.
Qed.
Theorem C38_back_propagation : forall E fw w z, 0 < fw -> 0 < w -> frows E = fcols E -> (1 <= frows E)%nat ->
  exists F G, ptp E fw w z = Ok F /\ ptp F fw w (- z) = Ok G /\ feq G E.
Proof.
  intros E fw w z Hf Hw Hsq HM. destruct (C38_composes E fw w z (- z) Hf Hw Hsq HM) as (F & G & H & H1 & H2 & H3 & H4).
  exists F, G. rewrite Rplus_opp_r, C38_zero_distance in H3 by auto. injection H3 as <-. auto.
Qed.
Theorem C38_energy : forall E fw w z, 0 < fw -> 0 < w -> frows E = fcols E -> (1 <= frows E)%nat ->
  exists F, ptp E fw w z = Ok F /\ fenergy F = fenergy E.
Proof.
  intros E fw w z Hf Hw Hsq HM. destruct (ptp_formula E fw w z Hf Hw Hsq HM) as (F & EF & HF). exists F. split; [auto|].
  rewrite (energy_feq _ _ HF). apply energy_prop_z; [auto|lia|]. intros. apply transfer_unit.
Qed.
Theorem C38_not_square : forall E fw w z, 0 < fw -> 0 < w -> z <> 0 -> (1 <= fcols E)%nat -> frows E <> fcols E -> ptp E fw w z = Raise ValueError.
Proof.
  intros E fw w z Hf Hw Hz HN Hsq. unfold ptp. destruct (Rle_dec fw 0); [lra|]. destruct (Rle_dec w 0); [lra|]. destruct (Req_EM_T z 0); [lra|].
  destruct (Nat.eqb_spec (fcols E) 0); [lia|]. destruct (Nat.eqb_spec (frows E) (fcols E)); [congruence|reflexivity].
Qed.
(* a uniform field comes out unchanged at every distance *)
Theorem C38_plane_wave : forall n a fw w z, 0 < fw -> 0 < w -> (1 <= n)%nat ->
  exists F, ptp (mkf n n (fun _ _ => a)) fw w z = Ok F /\ feq F (mkf n n (fun _ _ => a)).
Proof.
  intros n a fw w z Hf Hw Hn. set (E := mkf n n (fun _ _ => a)).
  destruct (ptp_formula E fw w z Hf Hw eq_refl Hn) as (F & EF & HF). exists F. split; [auto|]. eapply feq_trans; [exact HF|].
  assert (D0 : forall u, (u < n)%nat -> csum n (fun j => ph (-1) n u j) = if Nat.eqb u 0 then RtoC (INR n) else RtoC 0).
  { intros u Hu. rewrite (csum_ext n _ (fun k => cis (2 * PI * IZR (- Z.of_nat u) * INR k / INR n))).
    - rewrite root_sum by auto. destruct (Nat.eqb_spec u 0) as [-> | Hu0].
      + change (- Z.of_nat 0)%Z with 0%Z. rewrite Z.mod_0_l by lia. reflexivity.
      + destruct (Z.eqb_spec ((- Z.of_nat u) mod Z.of_nat n) 0) as [Q|Q]; [|auto].
        apply Z_mod_zero_opp_full in Q. rewrite Z.opp_involutive, Z.mod_small in Q; lia.
    - intros k _. unfold ph. f_equal. rewrite opp_IZR, <- INR_IZR_INZ. unfold Rdiv. ring. }
  assert (D : forall u v, (u < n)%nat -> (v < n)%nat -> (u <> 0 \/ v <> 0)%nat -> dft2 (-1) n n (fpx (fftshift E)) u v = RtoC 0).
  { intros u v Hu Hv Huv. unfold fftshift, E. cbn [roll2 fpx frows fcols].
    change (dft2 (-1) n n (fun _ _ : nat => a) u v = RtoC 0). rewrite dft2_sep. unfold dft.
    rewrite (csum_ext n _ (fun j => Cmult (Cmult a (csum n (fun j => ph (-1) n v j))) (ph (-1) n u j))) by (intros; now rewrite csum_scal).
    rewrite csum_scal, !D0 by auto. destruct (Nat.eqb_spec u 0), (Nat.eqb_spec v 0); try ring. lia. }
  set (k := transfer n n w (fw / INR n) z).
  assert (H : feq (mul_by k (fftn (fftshift E))) (mul_by (fun _ _ => RtoC 1) (fftn (fftshift E)))).
  { split; [reflexivity|]. split; [reflexivity|]. intros u v Hu Hv. cbn in Hu, Hv. cbn [mul_by fpx fftn fft_scaled].
    destruct (Nat.eq_dec u 0) as [-> | Nu]; [destruct (Nat.eq_dec v 0) as [-> | Nv]|].
    - f_equal. unfold k, transfer, fftfreq. destruct n as [|n]; [lia|].
      assert (L : Nat.ltb 0 ((S n + 1) / 2) = true) by (apply Nat.ltb_lt, Nat.div_str_pos; lia). rewrite L.
      change (INR 0) with 0. unfold Rdiv. rewrite !Rmult_0_l, !Rmult_0_r, cis_0. ring.
    - change (frows (fftshift E)) with n. change (fcols (fftshift E)) with n. rewrite D by (auto; lia). ring.
    - change (frows (fftshift E)) with n. change (fcols (fftshift E)) with n. rewrite D by (auto; lia). ring. }
  eapply feq_trans; [|apply (prop_z_one (fun _ _ => RtoC 1) E Hn Hn); reflexivity].
  unfold prop_z. apply ifftshift_feq. unfold ifftn. cbn [frows fcols mul_by fftn fft_scaled size]. apply fft_scaled_feq. exact H.
Qed.
(* linear in the field *)
Theorem C38_linear : forall E F a b fw w z, 0 < fw -> 0 < w -> frows E = fcols E -> (1 <= frows E)%nat -> frows F = frows E -> fcols F = fcols E ->
  exists PE PF PC, ptp E fw w z = Ok PE /\ ptp F fw w z = Ok PF /\ ptp (fcomb a b E F) fw w z = Ok PC /\ feq PC (fcomb a b PE PF).
Proof.
  intros E F a b fw w z Hf Hw Hsq HM R1 R2.
  assert (HM2 : (1 <= frows F)%nat) by congruence. assert (Hsq2 : frows F = fcols F) by congruence.
  destruct (ptp_formula E fw w z Hf Hw Hsq HM) as (PE & EE & HE).
  destruct (ptp_formula F fw w z Hf Hw Hsq2 HM2) as (PF & EF & HF).
  destruct (ptp_formula (fcomb a b E F) fw w z Hf Hw Hsq HM) as (PC & EC & HC).
  exists PE, PF, PC. do 3 (split; [auto|]).
  assert (L : forall s M N x y u v, dft2 s M N (fun i j => Cplus (Cmult a (x i j)) (Cmult b (y i j))) u v = Cplus (Cmult a (dft2 s M N x u v)) (Cmult b (dft2 s M N y u v))).
  { intros. unfold dft2. rewrite <- !csum_scal, <- csum_plus. apply csum_ext. intros i _. rewrite <- !csum_scal, <- csum_plus. apply csum_ext. intros j _. ring. }
  eapply feq_trans; [exact HC|]. destruct HE as (RE & CE & VE), HF as (RF & CF & VF). cbn [frows fcols fcomb prop_z ifftshift roll2 ifftn fft_scaled mul_by fftn fftshift] in *.
  split; [cbn; congruence|]. split; [cbn; congruence|]. intros i j Hi Hj. cbn in Hi, Hj. cbn [fcomb fpx].
  rewrite VE by (rewrite ?RE, ?CE; auto). rewrite VF by (rewrite ?RF, ?CF, ?R1, ?R2; auto).
  unfold prop_z, ifftshift, ifftn, mul_by, fftn, fftshift, fft_scaled, size, fcomb. cbn [frows fcols fpx roll2]. rewrite R1, R2.
  match goal with |- Cmult (RtoC ?q) ?x = Cplus (Cmult a (Cmult _ ?y)) (Cmult b (Cmult _ ?z)) => transitivity (Cmult (RtoC q) (Cplus (Cmult a y) (Cmult b z))); [f_equal|ring] end.
  rewrite <- L. apply dft2_ext. intros u v _ _. rewrite L. ring.
Qed.
Print Assumptions C38_zero_distance. Print Assumptions C38_composes. Print Assumptions C38_back_propagation. Print Assumptions C38_energy.
Print Assumptions C38_not_square. Print Assumptions C38_plane_wave. Print Assumptions C38_linear.

(* ---------------- C39 ---------------- *)
(* Pupil to focus: the sampled Fourier integral at the stated output coordinates, for all sizes and samplings. *)
Theorem C39_p2f_is_fourier_sum : forall E fl w dx dxi Nxi deta Neta c,
  c <> OtherCentering -> 0 < w -> 0 < dx -> 0 < dxi -> (1 <= Nxi)%nat -> 0 < deta -> (1 <= Neta)%nat ->
  frows E = fcols E -> (1 <= fcols E)%nat -> fl <> 0 ->
  exists out, mft_p2f E fl w dx dxi Nxi deta Neta c = Ok out /\ frows out = Neta /\ fcols out = Nxi /\
    forall k l, (k < Neta)%nat -> (l < Nxi)%nat ->
      fpx out k l = Cmult (RtoC (sqrt (dx * dx * dxi * deta) / (w * fl)))
        (fourier_sum (frows E) (fcols E) (fpx E) (coord (frows E) dx c) (coord (fcols E) dx c) (w * fl)
                     (coord Neta deta c k) (coord Nxi dxi c l)).
Proof. exact p2f_value. Qed.
Theorem C39_p2f_not_square : forall E fl w dx dxi Nxi deta Neta c,
  0 < w -> 0 < dx -> 0 < dxi -> (1 <= Nxi)%nat -> 0 < deta -> (1 <= Neta)%nat -> frows E <> fcols E ->
  mft_p2f E fl w dx dxi Nxi deta Neta c = Raise ValueError.
Proof.
  intros E fl w dx dxi Nxi deta Neta c Hw Hdx Hdxi HNxi Hdeta HNeta Hsq. unfold mft_p2f. destruct c; [| |reflexivity];
  (destruct (Rle_dec w 0); [lra|]; destruct (Rle_dec dx 0); [lra|]; destruct (Rle_dec dxi 0); [lra|]; destruct (Nat.eqb_spec Nxi 0); [lia|];
   destruct (Rle_dec deta 0); [lra|]; destruct (Nat.eqb_spec Neta 0); [lia|]; destruct (Nat.eqb_spec (frows E) (fcols E)); [congruence|reflexivity]).
Qed.
(* Focus to pupil: same, when the two focal-plane steps are equal. *)
Theorem C39_f2p_is_fourier_sum : forall E fl w dxi dx N c,
  c <> OtherCentering -> 0 < w -> 0 < dx -> 0 < dxi -> (1 <= N)%nat -> (1 <= frows E)%nat -> (1 <= fcols E)%nat -> fl <> 0 ->
  exists out, mft_f2p E fl w dxi dxi dx N c = Ok out /\ frows out = N /\ fcols out = N /\
    forall k l, (k < N)%nat -> (l < N)%nat ->
      fpx out k l = Cmult (RtoC (sqrt (dx * dx * dxi * dxi) / (w * fl)))
        (fourier_sum (frows E) (fcols E) (fpx E) (coord (frows E) dxi c) (coord (fcols E) dxi c) (w * fl)
                     (coord N dx c k) (coord N dx c l)).
Proof. intros. now apply f2p_value. Qed.
(* Refuted when they differ: the vertical coordinates are built with the horizontal step, so the result
   differs from the sampled Fourier integral on the stated coordinates. *)
Theorem C39_f2p_vertical_step_refuted : exists E out,
  mft_f2p E 1 1 1 (1/2) (1/2) 2 Interpixel = Ok out /\
  fpx out 0%nat 0%nat <> Cmult (RtoC (sqrt (1/2 * (1/2) * 1 * (1/2)) / (1 * 1)))
    (fourier_sum (frows E) (fcols E) (fpx E) (coord (frows E) (1/2) Interpixel) (coord (fcols E) 1 Interpixel) (1 * 1)
       (coord 2 (1/2) Interpixel 0) (coord 2 (1/2) Interpixel 0)).
Proof.
  set (E := mkf 2 1 (fun i _ => if Nat.eqb i 0 then RtoC 1 else RtoC 0)). exists E.
  destruct (f2p_value E 1 1 1 (1/2) (1/2) 2 Interpixel) as (out & H1 & _ & _ & H2); [discriminate|lra|lra|lra|lra|lia|cbn; lia|cbn; lia|lra|].
  exists out. split; [auto|]. rewrite H2 by lia. intros Q.
  assert (P : 0 < sqrt (1/2 * (1/2) * 1 * (1/2)) / (1 * 1)) by (apply Rdiv_lt_0_compat; [apply sqrt_lt_R0|]; lra).
  set (s := sqrt (1/2 * (1/2) * 1 * (1/2)) / (1 * 1)) in *.
  assert (HE : forall y x, fourier_sum (frows E) (fcols E) (fpx E) y x (1 * 1) (coord 2 (1/2) Interpixel 0) (coord 2 (1/2) Interpixel 0) =
     cis (- (2 * PI) * (- (1/4) * y 0%nat + - (1/4) * x 0%nat) / (1 * 1))).
  { intros y x. unfold fourier_sum, E. cbn [frows fcols fpx csum Nat.eqb].
    replace (coord 2 (1/2) Interpixel 0) with (- (1/4)) by (unfold coord; cbn; lra). ring. }
  rewrite !HE in Q.
  change (coord (frows E) 1 Interpixel 0) with (coord 2 1 Interpixel 0) in Q. change (coord (frows E) (1/2) Interpixel 0) with (coord 2 (1/2) Interpixel 0) in Q.
  change (coord (fcols E) 1 Interpixel 0) with (coord 1 1 Interpixel 0) in Q.
  replace (coord 2 1 Interpixel 0) with (- (1/2)) in Q by (unfold coord; cbn; lra).
  replace (coord 2 (1/2) Interpixel 0) with (- (1/4)) in Q by (unfold coord; cbn; lra).
  replace (coord 1 1 Interpixel 0) with 0 in Q by (unfold coord; cbn; lra).
  replace (- (2 * PI) * (- (1/4) * - (1/2) + - (1/4) * 0) / (1 * 1)) with (- (PI / 4)) in Q by field.
  replace (- (2 * PI) * (- (1/4) * - (1/4) + - (1/4) * 0) / (1 * 1)) with (- (PI / 8)) in Q by field.
  apply (f_equal snd) in Q. unfold cis, RtoC, Cmult in Q. cbn [fst snd] in Q. rewrite !sin_neg in Q.
  assert (sin (PI / 8) < sin (PI / 4)) by (apply sin_increasing_1; pose proof PI_RGT_0; lra).
  rewrite !Rmult_0_l, !Rplus_0_r in Q. nra.
Qed.
(* Linearity. *)
Theorem C39_p2f_linear : forall E F a b fl w dx dxi Nxi deta Neta c,
  c <> OtherCentering -> 0 < w -> 0 < dx -> 0 < dxi -> (1 <= Nxi)%nat -> 0 < deta -> (1 <= Neta)%nat ->
  frows E = fcols E -> (1 <= fcols E)%nat -> fl <> 0 -> frows F = frows E -> fcols F = fcols E ->
  exists PE PF PC, mft_p2f E fl w dx dxi Nxi deta Neta c = Ok PE /\ mft_p2f F fl w dx dxi Nxi deta Neta c = Ok PF /\
    mft_p2f (fcomb a b E F) fl w dx dxi Nxi deta Neta c = Ok PC /\ feq PC (fcomb a b PE PF).
Proof.
  intros E F a b fl w dx dxi Nxi deta Neta c H1 H2 H3 H4 H5 H6 H7 Hsq H8 H9 R1 R2.
  destruct (p2f_value E fl w dx dxi Nxi deta Neta c) as (PE & E1 & E2 & E3 & E4); auto.
  destruct (p2f_value F fl w dx dxi Nxi deta Neta c) as (PF & F1 & F2 & F3 & F4); auto; [congruence|congruence|].
  destruct (p2f_value (fcomb a b E F) fl w dx dxi Nxi deta Neta c) as (PC & C1 & C2 & C3 & C4); auto.
  exists PE, PF, PC. do 3 (split; [auto|]). split; [cbn; congruence|]. split; [cbn; congruence|]. rewrite C2, C3. intros k l Hk Hl.
  rewrite C4 by auto. cbn [fcomb fpx frows fcols]. rewrite E4, F4 by auto. rewrite fourier_sum_lin, R1, R2. ring.
Qed.
Theorem C39_f2p_linear : forall E F a b fl w dxi deta dx N c,
  c <> OtherCentering -> 0 < w -> 0 < dx -> 0 < dxi -> 0 < deta -> (1 <= N)%nat -> (1 <= frows E)%nat -> (1 <= fcols E)%nat -> fl <> 0 ->
  frows F = frows E -> fcols F = fcols E ->
  exists PE PF PC, mft_f2p E fl w dxi deta dx N c = Ok PE /\ mft_f2p F fl w dxi deta dx N c = Ok PF /\
    mft_f2p (fcomb a b E F) fl w dxi deta dx N c = Ok PC /\ feq PC (fcomb a b PE PF).
Proof.
  intros E F a b fl w dxi deta dx N c H1 H2 H3 H4 H5 H6 H7 H8 H9 R1 R2.
  destruct (f2p_value E fl w dxi deta dx N c) as (PE & E1 & E2 & E3 & E4); auto.
  destruct (f2p_value F fl w dxi deta dx N c) as (PF & F1 & F2 & F3 & F4); auto; [congruence|congruence|].
  destruct (f2p_value (fcomb a b E F) fl w dxi deta dx N c) as (PC & C1 & C2 & C3 & C4); auto.
  exists PE, PF, PC. do 3 (split; [auto|]). split; [cbn; congruence|]. split; [cbn; congruence|]. rewrite C2, C3. intros k l Hk Hl.
  rewrite C4 by auto. cbn [fcomb fpx frows fcols]. rewrite E4, F4 by auto. rewrite fourier_sum_lin, R1, R2. ring.
Qed.
Print Assumptions C39_p2f_is_fourier_sum. Print Assumptions C39_f2p_is_fourier_sum. Print Assumptions C39_f2p_vertical_step_refuted.
Print Assumptions C39_p2f_linear. Print Assumptions C39_f2p_linear. Print Assumptions C39_p2f_not_square.
Example C39_example : exists out, mft_p2f (mkf 4 4 (fun i j => RtoC (INR (i + j)))) 1 1 (1/4) 1 5 2 3 Pixel = Ok out /\ frows out = 3%nat /\ fcols out = 5%nat.
Proof. destruct (C39_p2f_is_fourier_sum (mkf 4 4 (fun i j => RtoC (INR (i + j)))) 1 1 (1/4) 1 5 2 3 Pixel) as (o & H1 & H2 & H3 & _); [discriminate|lra|lra|lra|lia|lra|lia|reflexivity|cbn; lia|lra|eauto]. Qed.

(* ---------------- C57 ---------------- *)
(* Pupil -> focus -> pupil with matched sampling dx*dxi*n = wavelength*|fl| is the field seen through one
   relay: every sample lands on the one with the opposite coordinates, values unchanged. *)
Lemma round_trip_mirror E fl w dx dxi c : c <> OtherCentering -> 0 < w -> 0 < dx -> 0 < dxi -> fl <> 0 ->
  frows E = fcols E -> (1 <= fcols E)%nat -> dx * dxi * INR (fcols E) = w * fl ->
  exists F G, mft_p2f E fl w dx dxi (fcols E) dxi (fcols E) c = Ok F /\ mft_f2p F fl w dxi dxi dx (fcols E) c = Ok G /\
    frows G = fcols E /\ fcols G = fcols E /\
    forall a b, (a < fcols E)%nat -> (b < fcols E)%nat -> fpx G a b = fpx E (mirror (fcols E) c a) (mirror (fcols E) c b).
Proof.
  intros Hc Hw Hdx Hdxi Hfl Hsq Hn Hcrit. set (n := fcols E) in *.
  destruct (p2f_value E fl w dx dxi n dxi n c) as (F & F1 & F2 & F3 & F4); auto.
  destruct (f2p_value F fl w dxi dxi dx n c) as (G & G1 & G2 & G3 & G4); auto; [congruence|congruence|].
  exists F, G. do 4 (split; [auto|]). intros a b Ha Hb. rewrite G4 by auto.
  assert (Hlf : w * fl <> 0) by (intros Q; apply Rmult_integral in Q; lra).
  assert (Hs : sqrt (dx * dx * dxi * dxi) = dx * dxi).
  { replace (dx * dx * dxi * dxi) with ((dx * dxi) * (dx * dxi)) by ring. apply sqrt_square. apply Rlt_le, Rmult_lt_0_compat; auto. }
  assert (Hn0 : INR n <> 0) by (apply not_0_INR; lia).
  rewrite F2, F3. fold n in F4. rewrite Hsq in F4. fold n in F4.
  transitivity (Cmult (Cmult (RtoC (sqrt (dx * dx * dxi * dxi) / (w * fl))) (RtoC (sqrt (dx * dx * dxi * dxi) / (w * fl))))
    (fourier_sum n n (fun k l => fourier_sum n n (fpx E) (coord n dx c) (coord n dx c) (w * fl) (coord n dxi c k) (coord n dxi c l))
      (coord n dxi c) (coord n dxi c) (w * fl) (coord n dx c a) (coord n dx c b))).
  - rewrite <- Cmult_assoc. f_equal. unfold fourier_sum at 1 2. rewrite <- csum_scal. apply csum_ext. intros k Hk. rewrite <- csum_scal. apply csum_ext. intros l Hl.
    rewrite F4 by auto. apply eq_sym, Cmult_assoc.
  - rewrite double_fourier by auto. rewrite Hs, <- Hcrit, Cmult_assoc, <- !RtoC_mult.
    replace (dx * dxi / (dx * dxi * INR n) * (dx * dxi / (dx * dxi * INR n)) * (INR n * INR n)) with 1 by (field; lra). ring.
Qed.
Theorem C57_round_trip_is_relay : forall E fl w dx dxi c,
  (c = Interpixel \/ (c = Pixel /\ Nat.even (fcols E) = true)) -> 0 < w -> 0 < dx -> 0 < dxi -> fl <> 0 ->
  frows E = fcols E -> (1 <= fcols E)%nat -> dx * dxi * INR (fcols E) = w * fl ->
  exists F G H, mft_p2f E fl w dx dxi (fcols E) dxi (fcols E) c = Ok F /\ mft_f2p F fl w dxi dxi dx (fcols E) c = Ok G /\
    relay E 1 c = Ok H /\ feq G H.
Proof.
  intros E fl w dx dxi c Hc Hw Hdx Hdxi Hfl Hsq Hn Hcrit.
  destruct (round_trip_mirror E fl w dx dxi c) as (F & G & HF & HG & R1 & R2 & HV); auto; [destruct Hc as [-> | [-> _]]; discriminate|].
  destruct Hc as [-> | [-> Ev]].
  - destruct (C36_one_relay_reversed C E) as (H & H1 & H2 & H3 & H4). exists F, G, H. do 3 (split; [auto|]).
    split; [congruence|]. split; [congruence|]. rewrite R1, R2. intros i j Hi Hj. rewrite HV, H4 by (auto; congruence). rewrite Hsq. reflexivity.
  - destruct (C36_one_relay_pixel C E) as (H & H1 & H2 & H3 & H4). exists F, G, H. do 3 (split; [auto|]).
    split; [congruence|]. split; [congruence|]. rewrite R1, R2. intros i j Hi Hj. rewrite HV, H4 by (auto; congruence). rewrite Hsq.
    unfold mirror. now rewrite Ev.
Qed.
(* Refuted for odd arrays with pixel centring (3 samples or more): relay and transforms disagree. *)
Theorem C57_odd_refuted : forall n fl w dx dxi, Nat.even n = false -> (3 <= n)%nat -> 0 < w -> 0 < dx -> 0 < dxi -> fl <> 0 -> dx * dxi * INR n = w * fl ->
  exists E F G H, frows E = n /\ fcols E = n /\ mft_p2f E fl w dx dxi n dxi n Pixel = Ok F /\ mft_f2p F fl w dxi dxi dx n Pixel = Ok G /\
    relay E 1 Pixel = Ok H /\ ~ feq G H.
Proof.
  intros n fl w dx dxi Ho H3 Hw Hdx Hdxi Hfl Hcrit. set (E := mkf n n (fun i j => if Nat.eqb i 0 && Nat.eqb j 0 then RtoC 1 else RtoC 0)).
  destruct (round_trip_mirror E fl w dx dxi Pixel) as (F & G & HF & HG & R1 & R2 & HV); auto; [discriminate|cbn; lia|].
  destruct (C36_one_relay_pixel C E) as (H & HH & _ & _ & H4). cbn [frows fcols E] in *.
  exists E, F, G, H. do 5 (split; [auto|]). intros (_ & _ & Q). specialize (Q 0%nat 0%nat). rewrite R1, R2, HV, H4 in Q by lia.
  specialize (Q ltac:(lia) ltac:(lia)). unfold mirror in Q. rewrite Ho in Q. rewrite !Nat.sub_0_r, Nat.mod_same in Q by lia. cbn [fpx E] in Q.
  destruct (Nat.eqb_spec (n - 1) 0); [lia|]. cbn [andb Nat.eqb] in Q. apply RtoC_inj in Q. lra.
Qed.
Print Assumptions C57_round_trip_is_relay. Print Assumptions C57_odd_refuted.
Example C57_example : exists F G H, mft_p2f (mkf 4 4 (fun i j => RtoC (INR (i + 2 * j)))) 2 (1/2) (1/4) 1 4 1 4 Pixel = Ok F /\
  mft_f2p F 2 (1/2) 1 1 (1/4) 4 Pixel = Ok G /\ relay (mkf 4 4 (fun i j => RtoC (INR (i + 2 * j)))) 1 Pixel = Ok H /\ feq G H.
Proof. apply (C57_round_trip_is_relay (mkf 4 4 (fun i j => RtoC (INR (i + 2 * j)))) 2 (1/2) (1/4) 1 Pixel); [auto|lra|lra|lra|lra|reflexivity|cbn; lia|cbn; lra]. Qed.
