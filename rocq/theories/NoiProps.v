(* C92: image noise, for every outcome of the random draws *)
From Verif Require Import StrBase Base RBase CtrlModel CBase PropModel OptModel SrcModel ThpModel ThpProofs.
From Flocq Require Import Core.Raux Core.Generic_fmt.
Open Scope R_scope.
(* flux and exposure time of a sub-band; the peak count is positive *)
Definition band (d : detector) (si : Z) (flux texp : R) : Prop := (0 <= si)%Z /\ np_get (d_flux d) si = Ok flux /\ np_get (d_texp d) si = Ok texp /\ 0 < flux * texp.
Definition lit (d : detector) (flux texp : R) (J : field R) : Prop :=
  (forall i j, (i < frows J)%nat -> (j < fcols J)%nat -> 0 <= d_gain d * (flux * texp) * fpx J i j <= lam_max) /\ 0 <= d_dark d * texp <= lam_max.
Lemma all_ok_iff A : all_ok A = true <-> forall i j, (i < frows A)%nat -> (j < fcols A)%nat -> 0 <= fpx A i j <= lam_max.
Proof.
  unfold all_ok. rewrite forallb_forall. unfold lam_ok. split.
  - intros H i j Hi Hj. assert (K : In (fpx A i j) (pixels A)) by (apply in_pixels; now exists i, j). apply H in K. apply andb_prop in K. destruct K as [K1 K2]. apply leb_iff in K1. apply leb_iff in K2. auto.
  - intros H v I1. apply in_pixels in I1. destruct I1 as (i & j & Hi & Hj & ->). destruct (H i j Hi Hj). apply andb_true_intro. split; now apply leb_iff.
Qed.
(* what the detector collected, in electrons, averaged over the exposures *)
Definition electrons (d : detector) (w : draws) (i j : nat) : R := rsum (d_nexp d) (fun e => INR (shot w e i j) + INR (darkc w e i j) + d_read d * gauss w e i j) / INR (d_nexp d).
Lemma half_round x : Rabs (IZR (ZnearestE x) - x) <= / 2.
Proof. rewrite Rabs_minus_sym. apply Znearest_half. Qed.
Lemma nat_pos n : (1 <= n)%nat -> 0 < INR n. Proof. intros. apply lt_0_INR. lia. Qed.
Lemma counts_near d w i j : (1 <= d_nexp d)%nat -> d_gain d <> 0 -> Rabs (counts d w i j - electrons d w i j / d_gain d) <= / 2.
Proof.
  intros Hn Hg. pose proof (nat_pos _ Hn) as Hp. unfold counts, electrons. set (f := fun e => INR (shot w e i j) + INR (darkc w e i j) + d_read d * gauss w e i j).
  assert (E : rsum (d_nexp d) (fun e => IZR (ZnearestE (f e / d_gain d)) / INR (d_nexp d)) - rsum (d_nexp d) f / INR (d_nexp d) / d_gain d = / INR (d_nexp d) * rsum (d_nexp d) (fun e => IZR (ZnearestE (f e / d_gain d)) - f e / d_gain d)).
  { rewrite (rsum_ext _ (fun e => IZR (ZnearestE (f e / d_gain d)) - f e / d_gain d) (fun e => IZR (ZnearestE (f e / d_gain d)) + (- / d_gain d) * f e)) by (intros; field; auto). rewrite rsum_plus, rsum_scal.
    rewrite (rsum_ext _ (fun e => IZR (ZnearestE (f e / d_gain d)) / INR (d_nexp d)) (fun e => / INR (d_nexp d) * IZR (ZnearestE (f e / d_gain d)))) by (intros; field; lra). rewrite rsum_scal. field. split; lra. }
  change (Rabs (rsum (d_nexp d) (fun e => IZR (ZnearestE (f e / d_gain d)) / INR (d_nexp d)) - rsum (d_nexp d) f / INR (d_nexp d) / d_gain d) <= / 2). rewrite E. rewrite Rabs_mult, Rabs_right by (apply Rle_ge; left; now apply Rinv_0_lt_compat).
  assert (B : forall n g, (forall k, (k < n)%nat -> Rabs (g k) <= / 2) -> Rabs (rsum n g) <= INR n * / 2).
  { induction n as [|n IH]; intros g H. { cbn. rewrite Rabs_R0. lra. } cbn [rsum]. eapply Rle_trans; [apply Rabs_triang|]. rewrite S_INR. specialize (IH g (fun k Hk => H k ltac:(lia))). specialize (H n ltac:(lia)). lra. }
  apply (Rle_trans _ (/ INR (d_nexp d) * (INR (d_nexp d) * / 2))).
  - apply Rmult_le_compat_l; [left; now apply Rinv_0_lt_compat|]. apply B. intros. apply half_round.
  - right. field. lra.
Qed.
(* success, shape, and the value to within half a count *)
Theorem C92_value d w J si flux texp : band d si flux texp -> lit d flux texp J -> (1 <= d_nexp d)%nat -> d_gain d <> 0 ->
  exists A, add_noise d w J si = Ok (Pixels A) /\ frows A = frows J /\ fcols A = fcols J /\
    forall i j, (exists n : Z, fpx A i j * (flux * texp) * INR (d_nexp d) = IZR n) /\ Rabs (fpx A i j - electrons d w i j / (d_gain d * (flux * texp))) <= / (2 * (flux * texp)).
Proof.
  intros (H0 & H1 & H2 & H3) (L1 & L2) Hn Hg. eexists. split.
  - unfold add_noise. destruct (Z.ltb_spec si 0); [lia|]. rewrite H1, H2. cbn [rbind]. destruct (Nat.eqb_spec (d_nexp d) 0); [lia|].
    rewrite (proj2 (all_ok_iff (mkf (frows J) (fcols J) (fun i j => d_gain d * (flux * texp) * fpx J i j))) L1). rewrite (proj2 (all_ok_iff (mkf (frows J) (fcols J) (fun _ _ => d_dark d * texp)))) by (intros; exact L2). cbn [andb]. reflexivity.
  - cbn [frows fcols fpx]. split; [reflexivity|]. split; [reflexivity|]. intros i j. pose proof (nat_pos _ Hn) as Hp. split.
    + assert (Z1 : forall n (f : nat -> Z), exists m : Z, rsum n (fun e => IZR (f e)) = IZR m) by (intros n f; induction n as [|n (m & IH)]; [exists 0%Z; reflexivity|exists (m + f n)%Z; cbn [rsum]; now rewrite IH, plus_IZR]).
      destruct (Z1 (d_nexp d) (fun e => ZnearestE ((INR (shot w e i j) + INR (darkc w e i j) + d_read d * gauss w e i j) / d_gain d))) as (m & Hm). exists m. rewrite <- Hm. unfold counts.
      rewrite (rsum_ext _ (fun e => IZR (ZnearestE ((INR (shot w e i j) + INR (darkc w e i j) + d_read d * gauss w e i j) / d_gain d)) / INR (d_nexp d)) (fun e => / INR (d_nexp d) * IZR (ZnearestE ((INR (shot w e i j) + INR (darkc w e i j) + d_read d * gauss w e i j) / d_gain d)))) by (intros; field; lra).
      rewrite rsum_scal. assert (flux <> 0 /\ texp <> 0) as [? ?] by (split; intros Q; rewrite Q in H3; lra). field. repeat split; auto; lra.
    + pose proof (counts_near d w i j Hn Hg) as B. replace (counts d w i j / (flux * texp) - electrons d w i j / (d_gain d * (flux * texp))) with ((counts d w i j - electrons d w i j / d_gain d) * / (flux * texp)) by (assert (flux <> 0 /\ texp <> 0) as [? ?] by (split; intros Q; rewrite Q in H3; lra); field; repeat split; auto).
      rewrite Rabs_mult, (Rabs_right (/ (flux * texp))) by (apply Rle_ge; left; now apply Rinv_0_lt_compat). rewrite (Rinv_mult 2). apply Rmult_le_compat_r; [left; now apply Rinv_0_lt_compat|]. exact B.
Qed.
(* the output is the image plus shot noise, dark current and read noise: the mean dark current is not taken off again *)
Theorem C92_noise_terms d w J si flux texp : band d si flux texp -> lit d flux texp J -> (1 <= d_nexp d)%nat -> d_gain d <> 0 ->
  exists A, add_noise d w J si = Ok (Pixels A) /\ forall i j,
    let peak := flux * texp in
    let shot_err := rsum (d_nexp d) (fun e => INR (shot w e i j) - d_gain d * peak * fpx J i j) / INR (d_nexp d) in
    let dark := rsum (d_nexp d) (fun e => INR (darkc w e i j)) / INR (d_nexp d) in
    let read := d_read d * (rsum (d_nexp d) (fun e => gauss w e i j) / INR (d_nexp d)) in
    Rabs (fpx A i j - (fpx J i j + (shot_err + dark + read) / (d_gain d * peak))) <= / (2 * peak).
Proof.
  intros Hb Hl Hn Hg. destruct (C92_value d w J si flux texp Hb Hl Hn Hg) as (A & A1 & _ & _ & A2). exists A. split; [exact A1|]. intros i j. cbv zeta. destruct (A2 i j) as (_ & B). pose proof (nat_pos _ Hn) as Hp. destruct Hb as (_ & _ & _ & P).
  replace (fpx J i j + _) with (electrons d w i j / (d_gain d * (flux * texp))); [exact B|]. unfold electrons.
  rewrite (rsum_ext _ (fun e => INR (shot w e i j) + INR (darkc w e i j) + d_read d * gauss w e i j) (fun e => (INR (shot w e i j) - d_gain d * (flux * texp) * fpx J i j) + (d_gain d * (flux * texp) * fpx J i j + (INR (darkc w e i j) + d_read d * gauss w e i j)))) by (intros; ring).
  rewrite !rsum_plus, rsum_const, rsum_scal. assert (flux * texp <> 0) by lra. assert (flux <> 0 /\ texp <> 0) as [? ?] by (split; intros Q; rewrite Q in P; lra). field. repeat split; auto; lra.
Qed.
(* a pixel that collects the mean dark current and exactly its own light comes out brighter than it is *)
Theorem C92_dark_not_subtracted d w J si flux texp i j : band d si flux texp -> lit d flux texp J -> (1 <= d_nexp d)%nat -> 0 < d_gain d -> d_gain d < d_dark d * texp ->
  (forall e, (e < d_nexp d)%nat -> INR (shot w e i j) = d_gain d * (flux * texp) * fpx J i j /\ INR (darkc w e i j) = d_dark d * texp /\ gauss w e i j = 0) ->
  exists A, add_noise d w J si = Ok (Pixels A) /\ fpx J i j + d_dark d * texp / (d_gain d * (flux * texp)) - / (2 * (flux * texp)) <= fpx A i j /\ fpx J i j < fpx A i j.
Proof.
  intros Hb Hl Hn Hg Hd He. destruct (C92_noise_terms d w J si flux texp Hb Hl Hn) as (A & A1 & A2); [lra|]. exists A. split; [exact A1|]. specialize (A2 i j). cbv zeta in A2. pose proof (nat_pos _ Hn) as Hp. destruct Hb as (_ & _ & _ & P).
  rewrite (rsum_zero _ (fun e => INR (shot w e i j) - d_gain d * (flux * texp) * fpx J i j)) in A2 by (intros e H; destruct (He e H) as (Q & _); rewrite Q; ring).
  rewrite (rsum_ext _ (fun e => INR (darkc w e i j)) (fun _ => d_dark d * texp)) in A2 by (intros e H; now destruct (He e H)). rewrite (rsum_zero _ (fun e => gauss w e i j)) in A2 by (intros e H; now destruct (He e H) as (_ & _ & ?)).
  rewrite rsum_const in A2. replace ((0 / INR (d_nexp d) + INR (d_nexp d) * (d_dark d * texp) / INR (d_nexp d) + d_read d * (0 / INR (d_nexp d))) / (d_gain d * (flux * texp))) with (d_dark d * texp / (d_gain d * (flux * texp))) in A2 by (assert (flux <> 0 /\ texp <> 0) as [? ?] by (split; intros Q; rewrite Q in P; lra); field; repeat split; auto; lra).
  apply Rabs_le_inv in A2. split; [lra|].
  assert (/ (flux * texp) < d_dark d * texp / (d_gain d * (flux * texp))).
  { apply (Rmult_lt_reg_r (d_gain d * (flux * texp))); [nra|]. assert (flux <> 0 /\ texp <> 0) as [? ?] by (split; intros Q; rewrite Q in P; lra). replace (/ (flux * texp) * (d_gain d * (flux * texp))) with (d_gain d) by (field; auto). replace (d_dark d * texp / (d_gain d * (flux * texp)) * (d_gain d * (flux * texp))) with (d_dark d * texp) by (field; repeat split; auto; lra). exact Hd. }
  rewrite (Rinv_mult 2) in A2. assert (0 < / (flux * texp)) by (now apply Rinv_0_lt_compat). lra.
Qed.
(* below half a count in every exposure nothing is seen, however many exposures are stacked *)
Theorem C92_faint_lost d w J si flux texp i j : band d si flux texp -> lit d flux texp J -> (1 <= d_nexp d)%nat -> 0 < d_gain d ->
  (forall e, (e < d_nexp d)%nat -> Rabs (INR (shot w e i j) + INR (darkc w e i j) + d_read d * gauss w e i j) < d_gain d / 2) ->
  exists A, add_noise d w J si = Ok (Pixels A) /\ fpx A i j = 0.
Proof.
  intros Hb Hl Hn Hg He. destruct (C92_value d w J si flux texp Hb Hl Hn) as (A & A1 & _); [lra|]. exists A. split; [exact A1|]. destruct Hb as (H0 & H1 & H2 & H3). unfold add_noise in A1. destruct (Z.ltb_spec si 0); [lia|]. rewrite H1, H2 in A1. cbn [rbind] in A1.
  destruct (Nat.eqb_spec (d_nexp d) 0); [lia|]. destruct (_ && _)%bool; [|discriminate]. injection A1 as <-. cbn [fpx]. unfold counts. rewrite rsum_zero; [unfold Rdiv; ring|]. intros e Hk. specialize (He e Hk). pose proof (nat_pos _ Hn).
  rewrite (Znearest_imp _ _ 0%Z); [unfold Rdiv; ring|]. rewrite Rminus_0_r. unfold Rdiv. rewrite Rabs_mult, (Rabs_right (/ d_gain d)) by (apply Rle_ge; left; now apply Rinv_0_lt_compat).
  apply (Rmult_lt_reg_r (d_gain d)); [auto|]. rewrite Rmult_assoc, Rinv_l by lra. lra.
Qed.
(* without read noise no pixel is negative *)
Theorem C92_nonnegative d w J si flux texp i j : band d si flux texp -> lit d flux texp J -> (1 <= d_nexp d)%nat -> 0 < d_gain d -> d_read d = 0 ->
  exists A, add_noise d w J si = Ok (Pixels A) /\ 0 <= fpx A i j.
Proof.
  intros Hb Hl Hn Hg Hr. destruct (C92_value d w J si flux texp Hb Hl Hn) as (A & A1 & _); [lra|]. exists A. split; [exact A1|]. destruct Hb as (H0 & H1 & H2 & H3). unfold add_noise in A1. destruct (Z.ltb_spec si 0); [lia|]. rewrite H1, H2 in A1. cbn [rbind] in A1.
  destruct (Nat.eqb_spec (d_nexp d) 0); [lia|]. destruct (_ && _)%bool; [|discriminate]. injection A1 as <-. cbn [fpx]. unfold counts. apply Rmult_le_pos; [|left; now apply Rinv_0_lt_compat]. apply rsum_nonneg. intros e Hk. apply Rmult_le_pos; [|left; apply Rinv_0_lt_compat, nat_pos, Hn].
  apply IZR_le. rewrite Hr, Rmult_0_l, Rplus_0_r. apply (Z.le_trans _ (Zfloor ((INR (shot w e i j) + INR (darkc w e i j)) / d_gain d))); [|apply Znearest_ge_floor]. apply Zfloor_lub. cbn. apply Rmult_le_pos; [|left; now apply Rinv_0_lt_compat]. pose proof (pos_INR (shot w e i j)). pose proof (pos_INR (darkc w e i j)). lra.
Qed.
(* refusals: a negative sub-band, a missing one, a pixel darker than zero (or too bright to draw) *)
Theorem C92_refusals d w J si : (si < 0 -> add_noise d w J si = Raise ValueError)%Z /\ (Z.of_nat (length (d_flux d)) <= si -> add_noise d w J si = Raise IndexError)%Z /\
  (forall flux texp i j, band d si flux texp -> (1 <= d_nexp d)%nat -> (i < frows J)%nat -> (j < fcols J)%nat -> d_gain d * (flux * texp) * fpx J i j < 0 \/ lam_max < d_gain d * (flux * texp) * fpx J i j -> add_noise d w J si = Raise ValueError).
Proof.
  split; [|split].
  - intros H. unfold add_noise. destruct (Z.ltb_spec si 0); [reflexivity|lia].
  - intros H. unfold add_noise. destruct (Z.ltb_spec si 0); [lia|]. unfold np_get at 1, np_ix. destruct (Z.leb_spec 0 si); [|lia]. destruct (Z.ltb_spec si (Z.of_nat (length (d_flux d)))); [lia|]. cbn [andb].
    destruct (Z.ltb_spec si 0); [lia|]. rewrite andb_false_r. reflexivity.
  - intros flux texp i j (H0 & H1 & H2 & H3) Hn Hi Hj B. unfold add_noise. destruct (Z.ltb_spec si 0); [lia|]. rewrite H1, H2. cbn [rbind]. destruct (Nat.eqb_spec (d_nexp d) 0); [lia|].
    destruct (all_ok (mkf (frows J) (fcols J) (fun i0 j0 => d_gain d * (flux * texp) * fpx J i0 j0))) eqn:E; [|reflexivity]. exfalso. pose proof (proj1 (all_ok_iff _) E i j Hi Hj) as Q. cbn [fpx] in Q. lra.
Qed.
(* no exposures: the number 0, whatever the image, and no refusal of negative pixels *)
Theorem C92_no_exposures d w J si flux texp : band d si flux texp -> d_nexp d = 0%nat -> add_noise d w J si = Ok Scalar0.
Proof. intros (H0 & H1 & H2 & _) E. unfold add_noise. destruct (Z.ltb_spec si 0); [lia|]. rewrite H1, H2, E. reflexivity. Qed.
(* a detector with two exposures: 5 counts of light, 20 of dark current *)
Definition ex_det : detector := mkdet [10] [1] 1 2 20 0.
Definition ex_draws : draws := mkdraws (fun _ _ _ => 5%nat) (fun _ _ _ => 20%nat) (fun _ _ _ => 0).
Lemma lam_big : 100 <= lam_max.
Proof.
  unfold lam_max. replace (2 ^ 63 - 1)%Z with 9223372036854775807%Z by reflexivity. assert (S : sqrt 9223372036854775807 < 9223372036854775807 / 100).
  { rewrite <- (sqrt_Rsqr (9223372036854775807 / 100)) by lra. apply sqrt_lt_1; unfold Rsqr; lra. } lra.
Qed.
Example C92_example : exists A, add_noise ex_det ex_draws (mkf 1 1 (fun _ _ => 1 / 2)) 0 = Ok (Pixels A) /\ 2 <= fpx A 0 0 /\ band ex_det 0 10 1 /\ lit ex_det 10 1 (mkf 1 1 (fun _ _ => 1 / 2)).
Proof.
  pose proof lam_big as LB. assert (B : band ex_det 0 10 1) by (repeat split; [lia|lra]).
  assert (L : lit ex_det 10 1 (mkf 1 1 (fun _ _ => 1 / 2))) by (split; cbn; intros; lra).
  destruct (C92_dark_not_subtracted ex_det ex_draws (mkf 1 1 (fun _ _ => 1 / 2)) 0 10 1 0 0 B L) as (A & A1 & A2 & _); [cbn; lia|cbn; lra|cbn; lra|intros e _; cbn; repeat split; lra|]. exists A. split; [exact A1|]. split; [|split; auto]. cbn in A2. lra.
Qed.
