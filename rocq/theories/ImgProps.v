(* Property theorems C34 (simulated images), C35 (expected image), C55 (perfect estimator), C56 (normalisation). *)
From Verif Require Import Base RBase PoolModel PoolSpec PoolProofs JacModel SpectModel SpectSpec SpectProofs EfcSpec ImgModel ImgSpec ImgProofs.
Open Scope R_scope.

(* ---------------- C34 ---------------- *)
(* Serial builder: the weighted sum, each term with its own polarisation and mask. *)
Theorem C34_serial_is_weighted_sum : forall Nw stars pols lamw hlc fpm inten noise m si,
  sbp_image_serial Nw stars pols lamw hlc fpm inten false noise m si =
  subband_sum Nw stars pols lamw inten (fun s w => if hlc : bool then fpm s w else m 1%nat) si.
Proof. intros. now rewrite sbp_serial. Qed.
Print Assumptions C34_serial_is_weighted_sum.

(* Threaded builder: same image in every schedule and for any number of workers when there is one
   polarisation state and (for the HLC) one mask, or when there is one worker. *)
Theorem C34_any_schedule : forall Nw stars pols lamw hlc fpm inten fN noise T m sched si I,
  ((all_equal pols /\ (hlc = true -> forall w w', (w < Nw)%nat -> (w' < Nw)%nat -> fpm si w = fpm si w')) \/ T = 1%nat) ->
  sbp_image_pool Nw stars pols lamw hlc fpm inten fN noise T m sched si = Some I ->
  I = sbp_image_serial Nw stars pols lamw hlc fpm inten fN noise m si.
Proof.
  intros Nw stars pols lamw hlc fpm inten fN noise T m sched si I H HI.
  unfold sbp_image_pool, sbp_jobs in HI. rewrite (map_ext _ _ (comp_is_gcode pols hlc fpm si)) in HI.
  destruct (pool_reads _ _ _ _) as [r|] eqn:E; [|discriminate]. injection HI as <-.
  assert (r = map (good (fun '(_, ipol, _) => pol pols ipol) (fun '(wi, _, _) => fpm si wi) hlc m) (inds_list Nw stars pols)) as ->.
  { eapply gcode_schedule; [|exact E]. destruct H as [[HP HF]|H]; [left|auto].
    assert (Hin : forall wi ip s, In (wi, ip, s) (inds_list Nw stars pols) -> (wi < Nw)%nat /\ (ip < length pols)%nat).
    { intros wi ip s Hi. unfold inds_list in Hi. rewrite !in_prod_iff, !in_seq in Hi. unfold Npol in Hi. lia. }
    split.
    - intros x y Hx Hy. apply in_map_iff in Hx, Hy. destruct Hx as ([[w1 p1] s1] & <- & H1), Hy as ([[w2 p2] s2] & <- & H2).
      apply HP; unfold pol; apply nth_In; [apply (Hin _ _ _ H1)|apply (Hin _ _ _ H2)].
    - intros Hh x y Hx Hy. apply in_map_iff in Hx, Hy. destruct Hx as ([[w1 p1] s1] & <- & H1), Hy as ([[w2 p2] s2] & <- & H2).
      apply HF; auto; [apply (Hin _ _ _ H1)|apply (Hin _ _ _ H2)]. }
  rewrite subband_total_good, sbp_serial. reflexivity.
Qed.
Print Assumptions C34_any_schedule.
(* such complete schedules exist for any number of workers *)
Theorem C34_schedules_exist : forall Nw stars pols lamw hlc fpm inten fN noise T m si, (1 <= T)%nat ->
  exists sched, sbp_image_pool Nw stars pols lamw hlc fpm inten fN noise T m sched si =
                Some (sbp_image_serial Nw stars pols lamw hlc fpm inten fN noise m si).
Proof.
  intros Nw stars pols lamw hlc fpm inten fN noise T m si HT.
  destruct (serial_schedule T m (sbp_jobs Nw stars pols hlc fpm si) HT) as [sc E].
  - intros c Hc. unfold sbp_jobs in Hc. rewrite (map_ext _ _ (comp_is_gcode pols hlc fpm si)) in Hc. now apply gcode_ne in Hc.
  - exists sc. unfold sbp_image_pool. now rewrite E.
Qed.
Print Assumptions C34_schedules_exist.

(* Refuted in general: with at least two workers, whenever two components that follow each other have
   different polarisations, some schedule evaluates the first with the polarisation of the second. *)
Theorem C34_polarisation_race_refuted : forall Nw stars pols hlc fpm T m si a x y b, (2 <= T)%nat ->
  inds_list Nw stars pols = a ++ x :: y :: b ->
  pol pols (snd (fst x)) <> pol pols (snd (fst y)) ->
  exists sched reads p q, pool_reads T m (sbp_jobs Nw stars pols hlc fpm si) sched = Some reads /\
    nth_error reads (length a) = Some [p; q] /\ p = pol pols (snd (fst y)) /\ p <> pol pols (snd (fst x)).
Proof.
  intros Nw stars pols hlc fpm T m si a x y b HT E N.
  unfold sbp_jobs. rewrite (map_ext _ _ (comp_is_gcode pols hlc fpm si)), E.
  destruct (gcode_pol_race (fun '(_, ipol, _) => pol pols ipol) (fun '(wi, _, _) => fpm si wi) hlc T m a x y b HT) as (s & l & t & E1 & E2).
  destruct x as [[wx px] sx], y as [[wy py] sy]. eexists s, _, _, _. split; [exact E1|]. rewrite <- E2, nth_error_mid. split; [reflexivity|]. cbn in *. split; [reflexivity|congruence].
Qed.
Print Assumptions C34_polarisation_race_refuted.
(* The same for the stored HLC mask: one polarisation, two wavelengths are enough. *)
Theorem C34_mask_race_refuted : forall Nw stars pols fpm T m si a x y b, (2 <= T)%nat ->
  inds_list Nw stars pols = a ++ x :: y :: b -> fpm si (fst (fst x)) <> fpm si (fst (fst y)) ->
  exists sched reads p q, pool_reads T m (sbp_jobs Nw stars pols true fpm si) sched = Some reads /\
    nth_error reads (length a) = Some [p; q] /\ q = fpm si (fst (fst y)) /\ q <> fpm si (fst (fst x)).
Proof.
  intros Nw stars pols fpm T m si a x y b HT E N.
  unfold sbp_jobs. rewrite (map_ext _ _ (comp_is_gcode pols true fpm si)), E.
  destruct (gcode_mask_race (fun '(_, ipol, _) => pol pols ipol) (fun '(wi, _, _) => fpm si wi) true T m a x y b HT eq_refl) as (s & l & t & E1 & E2).
  destruct x as [[wx px] sx], y as [[wy py] sy]. eexists s, _, _, _. split; [exact E1|]. rewrite <- E2, nth_error_mid. split; [reflexivity|]. cbn in *. split; [reflexivity|congruence].
Qed.
Print Assumptions C34_mask_race_refuted.
(* An image that depends on the schedule: two polarisations (-1, 1), one bright and one dark, two workers. *)
Definition bright_if_plus (si wi star : nat) (p q : Z) : R := if (p =? 1)%Z then 1 else 0.
Theorem C34_image_depends_on_schedule_refuted :
  sbp_image_serial 1 1 [-1; 1]%Z (fun _ => 1) false (fun _ _ => 0%Z) bright_if_plus false (fun _ i => i) (fun _ => 0%Z) 0 = 1/2 /\
  sbp_image_pool 1 1 [-1; 1]%Z (fun _ => 1) false (fun _ _ => 0%Z) bright_if_plus false (fun _ i => i) 2 (fun _ => 0%Z) [0; 1; 0; 0; 1; 1]%nat 0 = Some 1.
Proof.
  split.
  - rewrite sbp_serial. cbv [subband_sum rsum length map bright_if_plus rsuml]. cbn. lra.
  - unfold sbp_image_pool.
    replace (pool_reads 2 (fun _ => 0%Z) (sbp_jobs 1 1 [-1; 1]%Z false (fun _ _ => 0%Z) 0) [0; 1; 0; 0; 1; 1]%nat) with (Some [[1; 0]; [1; 0]]%Z) by reflexivity.
    cbn [option_map]. f_equal. unfold subband_total. rewrite acc_sum_eq. unfold bright_if_plus, comp_value, with_reads, inds_list. cbn. lra.
Qed.
Print Assumptions C34_image_depends_on_schedule_refuted.
(* example: two adjacent components of a two-polarisation list *)
Example C34_race_hypotheses : exists a x y b, inds_list 1 1 [-1; 1]%Z = a ++ x :: y :: b /\
  pol [-1; 1]%Z (snd (fst x)) <> pol [-1; 1]%Z (snd (fst y)).
Proof. exists [], (0, 0, 0)%nat, (0, 1, 0)%nat, []. split; [reflexivity|cbn; lia]. Qed.
Example C34_any_schedule_hypotheses : forall T m sched I,
  sbp_image_pool 2 2 [0]%Z (fun _ => 1/2) false (fun _ _ => 0%Z) bright_if_plus false (fun _ i => i) T m sched 0 = Some I ->
  I = sbp_image_serial 2 2 [0]%Z (fun _ => 1/2) false (fun _ _ => 0%Z) bright_if_plus false (fun _ i => i) m 0.
Proof. intros T m sched I. apply C34_any_schedule. left. split; [|discriminate]. intros x y [<-|[]] [<-|[]]. reflexivity. Qed.

(* Band-averaged image, serial: weighted sum of the (possibly noisy) sub-band images. *)
Theorem C34_summed_serial : forall Nsbp Nw stars pols sbpw lamw hlc fpm inten fN noise m,
  summed_serial Nsbp Nw stars pols sbpw lamw hlc fpm inten fN noise m =
  rsum Nsbp (fun si => sbpw si * (let I := subband_sum Nw stars pols lamw inten (fun s w => if hlc : bool then fpm s w else m 1%nat) si in
                                  if fN : bool then noise si I else I)).
Proof. intros. unfold summed_serial. rewrite summed_loop_eq, acc_sum_eq, rsuml_map_seq. reflexivity. Qed.
Print Assumptions C34_summed_serial.
(* Threaded: any schedule, one polarisation state, no HLC mask (or one worker): sum over the merged wavelength list. *)
Lemma summed_pool_value Nw pols hlc fpm inten T m sched uniq wall I :
  ((all_equal pols /\ hlc = false) \/ T = 1%nat) ->
  summed_pool Nw pols hlc fpm inten uniq wall T m sched = Some I ->
  I = rsum (length uniq) (fun i => nth i wall 0 * (rsuml (map (fun p =>
        inten (fst (rep Nw uniq i)) (snd (rep Nw uniq i)) 0%nat p (if hlc : bool then fpm (fst (rep Nw uniq i)) (snd (rep Nw uniq i)) else m 1%nat)) pols)
        / INR (length pols))).
Proof.
  intros H HI. unfold summed_pool in HI. rewrite (map_ext _ _ (uniq_is_gcode Nw hlc fpm uniq)) in HI.
  destruct (pool_reads _ _ _ _) as [r|] eqn:E; [|discriminate]. injection HI as <-.
  match type of E with pool_reads _ _ (map (gcode ?P ?F _) ?l) _ = _ => assert (r = map (good P F hlc m) l) as -> end.
  { eapply gcode_schedule; [|exact E]. destruct H as [[HP ->]|H]; [left|auto]. split; [|discriminate].
    intros x y Hx Hy. apply in_map_iff in Hx, Hy. destruct Hx as ([w1 p1] & <- & H1), Hy as ([w2 p2] & <- & H2).
    unfold vals_list in *. apply in_prod_iff in H1, H2. apply HP; tauto. }
  rewrite combine_map, map_map, acc_sum_eq. unfold vals_list. rewrite rsuml_list_prod, rsuml_map_seq. apply rsum_ext. intros i Hi.
  rewrite (rsuml_map_ext _ (fun p => nth i wall 0 / INR (length pols) *
     inten (fst (rep Nw uniq i)) (snd (rep Nw uniq i)) 0%nat p (if hlc : bool then fpm (fst (rep Nw uniq i)) (snd (rep Nw uniq i)) else m 1%nat))).
  - rewrite rsuml_map_scal. unfold Rdiv. ring.
  - intros p _. unfold uniq_value, good, with_reads, Npol. reflexivity.
Qed.
(* Parallel and serial band-averaged images agree: no image noise, one star, wavelengths that are equal or more than
   10 pm apart, fields that depend only on the wavelength; any schedule (one polarisation state, or one worker). *)
Theorem C34_summed_parallel_is_serial : forall Nsbp Nw pols flagSim lambda0 fracBW hlc fpm inten noise T m sched I,
  (1 <= Nw)%nat ->
  let lam := lambdas Nsbp Nw flagSim lambda0 fracBW in
  let n := Nlam Nsbp Nw in
  let mask := fun s w => if hlc : bool then fpm s w else m 1%nat in
  separated n lam ->
  (forall k j p, (k < n)%nat -> (j < n)%nat -> pm_key (lam k) = pm_key (lam j) ->
     inten (k / Nw)%nat (k mod Nw)%nat 0%nat p (mask (k / Nw)%nat (k mod Nw)%nat) = inten (j / Nw)%nat (j mod Nw)%nat 0%nat p (mask (j / Nw)%nat (j mod Nw)%nat)) ->
  ((all_equal pols /\ hlc = false) \/ T = 1%nat) ->
  summed_pool Nw pols hlc fpm inten (inds_unique n lam) (merged_weights n lam (lambda_weights_all0 Nsbp Nw flagSim)) T m sched = Some I ->
  I = summed_serial Nsbp Nw 1 pols (sbp_weight Nsbp Nw flagSim) (lam_weight Nw) hlc fpm inten false noise m.
Proof.
  intros Nsbp Nw pols flagSim l0 bw hlc fpm inten noise T m sched I HW lam n mask HS HE HT HI.
  rewrite (summed_pool_value _ _ _ _ _ _ _ _ _ _ _ HT HI), C34_summed_serial.
  set (g := fun k => rsuml (map (fun p => inten (k / Nw)%nat (k mod Nw)%nat 0%nat p (mask (k / Nw)%nat (k mod Nw)%nat)) pols) / INR (length pols)).
  transitivity (rsum n (fun k => lambda_weights_all0 Nsbp Nw flagSim k * g k)).
  - rewrite <- (regroup n lam (lambda_weights_all0 Nsbp Nw flagSim) g HS).
    + apply rsum_ext. intros i Hi. reflexivity.
    + intros k j Hk Hj E. unfold g. f_equal. apply rsuml_map_ext. intros p _. now apply HE.
  - unfold n, Nlam.
    rewrite (rsum_ext Nsbp _ (fun si => rsum Nw (fun wi => sbp_weight Nsbp Nw flagSim si * lam_weight Nw wi *
       (rsuml (map (fun p => inten si wi 0%nat p (mask si wi)) pols) / INR (length pols))))).
    + rewrite block_sum by auto. apply rsum_ext. intros k Hk. reflexivity.
    + intros si _. cbv zeta. unfold subband_sum. rewrite <- rsum_scal. apply rsum_ext. intros wi _. cbn [rsum]. rewrite Rplus_0_l. unfold mask. ring.
Qed.
Print Assumptions C34_summed_parallel_is_serial.
(* The hypotheses are met, e.g. by the 3 x 3 wavelength grid around 575 nm. *)
Example C34_separated_example : separated (Nlam 3 3) (lambdas 3 3 true (575 / 10 ^ 9) (1/10)).
Proof.
  intros i j Hi Hj. apply (SpectProofs2.grid_sep 3 2 true (575 / 10 ^ 9) (1/10)); auto; try lia.
  replace (INR (3 * 2)) with 6 by (simpl; ring). lra.
Qed.
(* Refuted: two stars (the threaded builder images star 0 only) ... *)
Theorem C34_second_star_dropped_refuted : exists inten I,
  summed_pool 1 [0]%Z false (fun _ _ => 0%Z) inten [0%nat] [1] 1 (fun _ => 0%Z) [0; 0; 0]%nat = Some I /\
  I <> summed_serial 1 1 2 [0]%Z (fun _ => 1) (fun _ => 1) false (fun _ _ => 0%Z) inten false (fun _ i => i) (fun _ => 0%Z).
Proof.
  exists (fun _ _ s _ _ => if Nat.eqb s 0 then 0 else 1), 0. split.
  - unfold summed_pool.
    replace (pool_reads 1 (fun _ => 0%Z) (map (uniq_code 1 false (fun _ _ => 0%Z) [0%nat]) (vals_list [0]%Z [0%nat])) [0; 0; 0]%nat) with (Some [[0; 0]]%Z) by reflexivity.
    cbn [option_map]. f_equal. rewrite acc_sum_eq. cbn. lra.
  - rewrite C34_summed_serial. unfold subband_sum. cbn. lra.
Qed.
Print Assumptions C34_second_star_dropped_refuted.
(* ... and image noise (the threaded builder adds none). *)
Theorem C34_noise_dropped_refuted : exists noise I,
  summed_pool 1 [0]%Z false (fun _ _ => 0%Z) (fun _ _ _ _ _ => 1) [0%nat] [1] 1 (fun _ => 0%Z) [0; 0; 0]%nat = Some I /\
  I <> summed_serial 1 1 1 [0]%Z (fun _ => 1) (fun _ => 1) false (fun _ _ => 0%Z) (fun _ _ _ _ _ => 1) true noise (fun _ => 0%Z).
Proof.
  exists (fun _ i => i + 1), 1. split.
  - unfold summed_pool.
    replace (pool_reads 1 (fun _ => 0%Z) (map (uniq_code 1 false (fun _ _ => 0%Z) [0%nat]) (vals_list [0]%Z [0%nat])) [0; 0; 0]%nat) with (Some [[0; 0]]%Z) by reflexivity.
    cbn [option_map]. f_equal. rewrite acc_sum_eq. cbn. lra.
  - rewrite C34_summed_serial. unfold subband_sum. cbn. lra.
Qed.
Print Assumptions C34_noise_dropped_refuted.

(* ---------------- C35 ---------------- *)
(* After a normal return every DM command is exactly what it was on entry. *)
Theorem C35_commands_restored : forall dm_ind Nsbp sbpw compact corr Eest V dV V' img,
  expected_image dm_ind Nsbp sbpw compact corr Eest V dV = (V', Ok img) -> forall d a, V' d a = V d a.
Proof.
  intros dm_ind Nsbp sbpw compact corr Eest V dV V' img H d a. unfold expected_image in H.
  destruct (fields _ V _); [|discriminate]. destruct (fields _ _ _); [|discriminate]. injection H as <- _. cbn.
  destruct (driven dm_ind d); reflexivity.
Qed.
Print Assumptions C35_commands_restored.
Lemma fields_nth compact V l r : fields compact V l = Ok r -> forall k si, nth_error l k = Some si ->
  exists E, compact V si = Ok E /\ nth_error r k = Some E.
Proof.
  revert r; induction l as [|s l IH]; intros r H [|k] si Hk; cbn in *; try discriminate.
  - injection Hk as ->. destruct (compact V si) as [E|]; [|discriminate]. cbn in H. destruct (fields compact V l); [|discriminate].
    injection H as <-. eauto.
  - destruct (compact V s) as [E|]; [|discriminate]. cbn in H. destruct (fields compact V l) as [r'|]; [|discriminate].
    injection H as <-. cbn. eauto.
Qed.
Lemma fields_raise compact V l e : fields compact V l = Raise e -> exists si, In si l /\ compact V si = Raise e.
Proof.
  induction l as [|s l IH]; cbn; [discriminate|]. destruct (compact V s) as [E|e'] eqn:Es; cbn.
  - destruct (fields compact V l); cbn; [discriminate|]. intros H. destruct (IH H) as (si & A & B). eauto.
  - intros H. injection H as ->. eauto.
Qed.
(* The image: estimate plus the change of the modelled field between the previous and the current commands. *)
Theorem C35_expected_image : forall dm_ind Nsbp sbpw compact corr Eest V dV V' img new old,
  expected_image dm_ind Nsbp sbpw compact corr Eest V dV = (V', Ok img) ->
  (forall si, (si < Nsbp)%nat -> compact V si = Ok (new si)) ->
  (forall si, (si < Nsbp)%nat ->
     compact (fun d a => if driven dm_ind d then V d a - dV d a else V d a) si = Ok (old si)) ->
  forall px, img px = if corr px then expected_pixel Nsbp sbpw (fun si => Eest si px) (fun si => new si px) (fun si => old si px) else 0.
Proof.
  intros dm_ind Nsbp sbpw compact corr Eest V dV V' img new old H Hn Ho px. unfold expected_image in H.
  destruct (fields _ V _) as [ln|] eqn:En; [|discriminate]. match type of H with context [fields ?a ?b ?c] => destruct (fields a b c) as [lo|] eqn:Eo end; [|discriminate]. injection H as _ <-.
  rewrite acc_sum_eq, rsuml_map_seq. unfold expected_pixel. destruct (corr px).
  - apply rsum_ext. intros si Hsi.
    assert (Hs : nth_error (seq 0 Nsbp) si = Some si) by (rewrite nth_error_nth' with (d := 0%nat); [now rewrite seq_nth|now rewrite seq_length]).
    destruct (fields_nth _ _ _ _ En si si Hs) as (E1 & A1 & B1). destruct (fields_nth _ _ _ _ Eo si si Hs) as (E2 & A2 & B2).
    rewrite Hn in A1 by auto. rewrite Ho in A2 by auto. injection A1 as <-. injection A2 as <-.
    rewrite (nth_error_nth _ _ _ B1), (nth_error_nth _ _ _ B2). reflexivity.
  - apply rsum_zero. intros. ring.
Qed.
Print Assumptions C35_expected_image.
(* If the model fails, the commands are either untouched or left at the previous ones. *)
Theorem C35_on_failure : forall dm_ind Nsbp sbpw compact corr Eest V dV V' e,
  expected_image dm_ind Nsbp sbpw compact corr Eest V dV = (V', Raise e) ->
  (V' = V /\ exists si, (si < Nsbp)%nat /\ compact V si = Raise e) \/
  (forall d a, V' d a = if driven dm_ind d then V d a - dV d a else V d a).
Proof.
  intros dm_ind Nsbp sbpw compact corr Eest V dV V' e H. unfold expected_image in H.
  destruct (fields _ V _) as [ln|] eqn:En.
  - match type of H with context [fields ?a ?b ?c] => destruct (fields a b c) as [lo|] eqn:Eo end; [discriminate|]. injection H as <- _. right. auto.
  - injection H as <- <-. left. split; [reflexivity|]. destruct (fields_raise _ _ _ _ En) as (si & A & B). apply in_seq in A. exists si. split; [lia|auto].
Qed.
Print Assumptions C35_on_failure.
(* Refuted: a failure of the model while the old commands are in place is not undone. *)
Theorem C35_restored_on_failure_refuted : exists compact V dV V' e,
  expected_image [1%nat] 1 (fun _ => 1) compact (fun _ => true) (fun _ _ => (0,0)) V dV = (V', Raise e) /\ V' 1%nat 0%nat <> V 1%nat 0%nat.
Proof.
  exists (fun V si => if Req_EM_T (V 1%nat 0%nat) 0 then Raise ValueError else Ok (fun _ => (0,0))), (fun _ _ => 1), (fun _ _ => 1).
  do 2 eexists. unfold expected_image. cbn [seq fields driven existsb Nat.eqb andb orb].
  destruct (Req_EM_T 1 0); [lra|]. cbn. destruct (Req_EM_T (1 - 1) 0); [|lra]. cbn. split; [reflexivity|]. cbn. lra.
Qed.
Print Assumptions C35_restored_on_failure_refuted.
Example C35_example : exists V' img, expected_image [1%nat; 2%nat] 1 (fun _ => 1) (fun V _ => Ok (fun _ => (V 1%nat 0%nat, 0)))
  (fun _ => true) (fun _ _ => (2, 0)) (fun _ _ => 5) (fun _ _ => 3) = (V', Ok img) /\ V' 1%nat 0%nat = 5 /\ img 0%nat = 25.
Proof.
  do 2 eexists. split; [reflexivity|]. split; [reflexivity|]. cbn. unfold sqmod, cadd, csub. cbn. ring.
Qed.

(* ---------------- C55: perfect estimator ---------------- *)
(* the polarisation state used *)
Theorem C55_polarisation_choice : forall pols p, perfect_polaxis pols = Ok p ->
  (p = 10%Z /\ (set_eq pols [-2; -1; 1; 2]%Z \/ set_eq pols [10]%Z)) \/
  (p = 5%Z /\ (set_eq pols [-1; 1]%Z \/ set_eq pols [5]%Z)) \/
  (p = 6%Z /\ (set_eq pols [-2; 2]%Z \/ set_eq pols [6]%Z)) \/
  (p = 0%Z /\ set_eq pols [0]%Z).
Proof.
  intros pols p H. unfold perfect_polaxis in H.
  repeat match type of H with (if ?b then _ else _) = _ => destruct b eqn:?B; [injection H as <-|] end; try discriminate;
  repeat match goal with Q : (_ || _)%bool = true |- _ => apply orb_prop in Q; destruct Q as [Q|Q]; apply same_set_spec in Q | Q : same_set _ _ = true |- _ => apply same_set_spec in Q end; tauto.
Qed.
Print Assumptions C55_polarisation_choice.
(* and every other list is refused *)
Theorem C55_other_polarisations_refused : forall pols,
  ~ set_eq pols [-2; -1; 1; 2]%Z -> ~ set_eq pols [10]%Z -> ~ set_eq pols [-1; 1]%Z -> ~ set_eq pols [5]%Z ->
  ~ set_eq pols [-2; 2]%Z -> ~ set_eq pols [6]%Z -> ~ set_eq pols [0]%Z -> perfect_polaxis pols = Raise ValueError.
Proof.
  intros pols. rewrite <- !same_set_spec. unfold perfect_polaxis. intros.
  repeat match goal with N : ?b <> true |- _ => apply not_true_is_false in N; rewrite N; clear N end. reflexivity.
Qed.
Print Assumptions C55_other_polarisations_refused.
Example C55_polarisation_example : perfect_polaxis [1; -1; 2; -2]%Z = Ok 10%Z /\ perfect_polaxis [1; 2]%Z = Raise ValueError.
Proof. split; reflexivity. Qed.

(* Field estimate: weighted mean over the sub-band's wavelengths of the full-model field, the same serially and in
   every schedule of the pool (no HLC mask, or one worker). *)
Theorem C55_field_serial : forall Nmode Nw lamw hlc fpm sbp_ind zern_ind Efull m im, (im < Nmode)%nat ->
  fst (perfect_serial Nmode Nw lamw hlc fpm sbp_ind zern_ind Efull m) im =
  (rsum Nw (fun wi => lamw wi * fst (Efull im wi (m 0%nat) (if hlc : bool then fpm (sbp_ind im) wi else m 1%nat))),
   rsum Nw (fun wi => lamw wi * snd (Efull im wi (m 0%nat) (if hlc : bool then fpm (sbp_ind im) wi else m 1%nat)))).
Proof. intros. cbn. rewrite perf_serial_reads. now rewrite perf_mean. Qed.
Print Assumptions C55_field_serial.
Theorem C55_field_any_schedule : forall Nmode Nw lamw hlc fpm sbp_ind zern_ind Efull Nxi Neta T m sched r im,
  hlc = false \/ T = 1%nat -> (im < Nmode)%nat ->
  perfect_pool Nmode Nw lamw hlc fpm sbp_ind zern_ind Efull Nxi Neta T m sched = Some (Ok r) ->
  fst r im = fst (perfect_serial Nmode Nw lamw hlc fpm sbp_ind zern_ind Efull m) im.
Proof.
  intros Nmode Nw lamw hlc fpm sbp_ind zern_ind Efull Nxi Neta T m sched r im H Him HR. unfold perfect_pool in HR.
  destruct (pool_reads _ _ _ _) as [rd|] eqn:E; [|discriminate]. cbn in HR. apply (perf_schedule _ _ _ _ _ _ _ _ _ H) in E. subst rd.
  destruct (_ || _)%bool in HR; [|discriminate]. injection HR as <-. reflexivity.
Qed.
Print Assumptions C55_field_any_schedule.
(* Images agree when at most one piston mode belongs to each sub-band (one star). *)
Theorem C55_images_one_star : forall Nmode Nw lamw hlc fpm sbp_ind zern_ind Efull Nxi Neta T m sched r s,
  hlc = false \/ T = 1%nat ->
  (forall i j, (i < Nmode)%nat -> (j < Nmode)%nat -> zern_ind i = 1%Z -> zern_ind j = 1%Z -> sbp_ind i = sbp_ind j -> i = j) ->
  perfect_pool Nmode Nw lamw hlc fpm sbp_ind zern_ind Efull Nxi Neta T m sched = Some (Ok r) ->
  snd r s = snd (perfect_serial Nmode Nw lamw hlc fpm sbp_ind zern_ind Efull m) s.
Proof.
  intros Nmode Nw lamw hlc fpm sbp_ind zern_ind Efull Nxi Neta T m sched r s H HU HR. unfold perfect_pool in HR.
  destruct (pool_reads _ _ _ _) as [rd|] eqn:E; [|discriminate]. cbn in HR. apply (perf_schedule _ _ _ _ _ _ _ _ _ H) in E. subst rd.
  destruct (_ || _)%bool in HR; [|discriminate]. injection HR as <-. cbn [snd perfect_serial]. now apply img_same.
Qed.
Print Assumptions C55_images_one_star.
(* Refuted with two stars: the parallel branch adds the images of the stars, the serial branch keeps the last. *)
Theorem C55_images_two_stars_refuted : exists r,
  perfect_pool 2 1 (fun _ => 1) false (fun _ _ => 0%Z) (fun _ => 0%nat) (fun _ => 1%Z) (fun _ _ _ _ => (1, 0)) 5 5 1 (fun _ => 0%Z) [0; 0; 1; 1]%nat = Some (Ok r) /\
  snd r 0%nat = 2 /\
  snd (perfect_serial 2 1 (fun _ => 1) false (fun _ _ => 0%Z) (fun _ => 0%nat) (fun _ => 1%Z) (fun _ _ _ _ => (1, 0)) (fun _ => 0%Z)) 0%nat = 1.
Proof.
  eexists. split; [reflexivity|]. unfold perfect_serial, img_parallel, img_serial, band_mean, sqmod. cbn. split; ring.
Qed.
Print Assumptions C55_images_two_stars_refuted.
(* Refuted for a non-square final focal plane: the parallel branch always fails. *)
Theorem C55_nonsquare_parallel_refuted : forall Nmode Nw lamw hlc fpm sbp_ind zern_ind Efull Nxi Neta T m sched r,
  (1 <= Nmode)%nat -> (1 <= Nw)%nat -> Nxi <> Neta ->
  perfect_pool Nmode Nw lamw hlc fpm sbp_ind zern_ind Efull Nxi Neta T m sched = Some r -> r = Raise ValueError.
Proof.
  intros Nmode Nw lamw hlc fpm sbp_ind zern_ind Efull Nxi Neta T m sched r HM HW HN HR. unfold perfect_pool in HR.
  destruct (pool_reads _ _ _ _) as [rd|] eqn:E; [|discriminate]. cbn in HR. injection HR as <-.
  unfold assign_ok. destruct (Nat.eqb_spec Neta Nxi); [lia|]. destruct (Nat.eqb_spec Nxi Neta); [lia|].
  destruct (Nat.eqb_spec (Nmode * Nw) 0); [nia|]. cbn.
  destruct (Nat.eqb_spec Neta 1), (Nat.eqb_spec Nxi 1); cbn; try reflexivity. lia.
Qed.
Print Assumptions C55_nonsquare_parallel_refuted.

(* ---------------- C56: normalisation ---------------- *)
(* every (sub-band, wavelength) entry is the peak of its own unnormalised image ... *)
Theorem C56_norm_serial : forall Nsbp Nw hlc fpm peak m si wi, (si < Nsbp)%nat -> (wi < Nw)%nat ->
  norm_serial Nsbp Nw hlc fpm peak m si wi = peak si wi (m 0%nat) (if hlc : bool then fpm si wi else m 1%nat).
Proof. intros. now apply norm_serial_value. Qed.
Print Assumptions C56_norm_serial.
(* ... and the pool computes the same table in every schedule, unless HLC masks race *)
Theorem C56_norm_any_schedule : forall Nsbp Nw hlc fpm peak T m sched tab, hlc = false \/ T = 1%nat ->
  norm_pool Nsbp Nw hlc fpm peak T m sched = Some tab ->
  forall si wi, tab si wi = norm_serial Nsbp Nw hlc fpm peak m si wi.
Proof.
  intros Nsbp Nw hlc fpm peak T m sched tab H HR si wi. unfold norm_pool in HR.
  destruct (pool_reads _ _ _ _) as [rd|] eqn:E; [|discriminate]. injection HR as <-.
  unfold norm_jobs in E. rewrite (map_ext _ (hcode (fun '(si, wi) => fpm si wi) hlc)) in E by (now intros []).
  apply (hcode_schedule _ _ _ _ _ _ _ H) in E. subst rd. unfold norm_serial, norm_jobs.
  rewrite (map_ext _ (hcode (fun '(si, wi) => fpm si wi) hlc)) by (now intros []). now rewrite hserial.
Qed.
Print Assumptions C56_norm_any_schedule.
Theorem C56_hlc_race_refuted :
  (exists sched, exists tab, norm_pool 2 1 true (fun si _ => Z.of_nat si) (fun _ _ _ m => IZR m) 2 (fun _ => 0%Z) sched = Some tab /\ tab 0%nat 0%nat = 1) /\
  norm_serial 2 1 true (fun si _ => Z.of_nat si) (fun _ _ _ m => IZR m) (fun _ => 0%Z) 0 0 = 0.
Proof.
  split.
  - exists [0; 1; 0; 0; 1; 1]%nat. eexists. split; [reflexivity|]. reflexivity.
  - reflexivity.
Qed.
Print Assumptions C56_hlc_race_refuted.
