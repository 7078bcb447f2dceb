(* Property theorems C27 (spatial weights), C28 (Lyot-stop cropping), C29 (option keywords) and
   C30 (DM array padding). *)
From Verif Require Import Base RBase StrBase UtilModel UtilSpec UtilProofs SetupModel SetupSpec SetupProofs.
Open Scope R_scope.

(* ---------------- C27 ---------------- *)
(* Weight of a pixel: 0 outside the dark hole; inside, its square is the product of the intensity weights of
   all the annuli [inner, outer) containing it. *)
Theorem C27_spatial_weight : forall xis etas corr def i j,
  (forall row, In row def -> 0 <= snd row) ->
  let W := Wspatial xis etas corr def i j in
  0 <= W /\ (corr i j = false -> W = 0) /\
  (corr i j = true -> exists w, zone_weight (sqrt (xis j ^ 2 + etas i ^ 2)) def w /\ W ^ 2 = w).
Proof.
  intros xis etas corr def i j Hw W. unfold W, Wspatial.
  replace (xis j ^ 2 + etas i ^ 2) with (xis j * xis j + etas i * etas i) by ring.
  destruct (fold_zone (sqrt (xis j * xis j + etas i * etas i)) def Hw (if corr i j then 1 else 0)) as (w & Z1 & Z2 & ->).
  pose proof (sqrt_pos w). split; [destruct (corr i j); lra|]. split.
  - intros ->. ring.
  - intros ->. exists w. split; [exact Z1|]. rewrite Rmult_1_l. now apply pow2_sqrt.
Qed.
Print Assumptions C27_spatial_weight.

(* The column of star s: the dark-hole pixels in row-major order, each with star weight times pixel weight. *)
Theorem C27_weight_vector : forall n m xis etas corr def s,
  WspatialVec n m xis etas corr def s =
  map (fun p => s * Wspatial xis etas corr def (fst p) (snd p)) (dark_pixels n m corr).
Proof. intros. unfold WspatialVec. rewrite masked_dark, map_map. reflexivity. Qed.
Print Assumptions C27_weight_vector.

(* One annulus per pixel at most: plain square root of the weight of that annulus. *)
Theorem C27_single_annulus : forall xis etas corr def row i j,
  (forall r, In r def -> 0 <= snd r) -> corr i j = true -> In row def -> NoDup def ->
  covers row (sqrt (xis j ^ 2 + etas i ^ 2)) ->
  (forall r, In r def -> covers r (sqrt (xis j ^ 2 + etas i ^ 2)) -> r = row) ->
  Wspatial xis etas corr def i j = sqrt (snd row).
Proof.
  intros xis etas corr def row i j Hw Hc Hin ND Hcov Huniq.
  destruct (C27_spatial_weight xis etas corr def i j Hw) as (H0 & _ & H2). destruct (H2 Hc) as (w & Hz & E).
  assert (Ew : w = snd row); [|rewrite <- Ew, <- E; symmetry; now apply sqrt_pow2].
  clear -Hz Hin ND Hcov Huniq.
  assert (T : forall l, (forall r, In r l -> ~ covers r (sqrt (xis j ^ 2 + etas i ^ 2))) ->
     forall v, zone_weight (sqrt (xis j ^ 2 + etas i ^ 2)) l v -> v = 1).
  { intros l Hl v Hv. induction Hv; [reflexivity| |].
    - exfalso. apply (Hl row0); [now left|assumption].
    - apply IHHv. intros r Hr. apply Hl. now right. }
  induction Hz as [|r rows w C Hz IH|r rows w C Hz IH]; [contradiction| |].
  - assert (r = row) by (apply Huniq; [now left|exact C]). subst r.
    inversion ND; subst. rewrite (T rows) with (v := w); [ring| |exact Hz].
    intros r Hr Cr. assert (r = row) by (apply Huniq; [now right|exact Cr]). now subst.
  - destruct Hin as [->|Hin]; [contradiction|]. inversion ND; subst. apply IH; auto. intros; apply Huniq; auto. now right.
Qed.
Print Assumptions C27_single_annulus.

(* Overlapping annuli multiply; the last one does not win. *)
Theorem C27_last_annulus_wins_refuted :
  exists xis etas corr def i j last, corr i j = true /\ (forall r, In r def -> 0 <= snd r) /\
    In last def /\ covers last (sqrt (xis j ^ 2 + etas i ^ 2)) /\ (exists pre, def = (pre ++ [last])%list) /\
    Wspatial xis etas corr def i j <> sqrt (snd last).
Proof.
  exists (fun _ => 0), (fun _ => 0), (fun _ _ => true), [(0, 2, 4); (0, 3, 9)], 0%Z, 0%Z, (0, 3, 9).
  assert (Q : sqrt (0 ^ 2 + 0 ^ 2) = 0) by (replace (0 ^ 2 + 0 ^ 2) with 0 by ring; apply sqrt_0).
  split; [reflexivity|]. split; [intros r [<-|[<-|[]]]; cbn; lra|]. split; [right; now left|].
  split; [rewrite Q; unfold covers; cbn; lra|]. split; [exists [(0, 2, 4)]; reflexivity|].
  unfold Wspatial. replace (0 * 0 + 0 * 0) with 0 by ring. rewrite sqrt_0. cbn [fold_left]. unfold Wannulus, in_annulus. cbn [snd].
  destruct (Rle_dec 0 0); [|lra]. destruct (Rlt_dec 0 2); [|lra]. destruct (Rlt_dec 0 3); [|lra]. cbn [andb].
  replace (sqrt 4) with 2 by (symmetry; replace 4 with (2 * 2) by ring; apply sqrt_square; lra).
  replace (sqrt 9) with 3 by (symmetry; replace 9 with (3 * 3) by ring; apply sqrt_square; lra). lra.
Qed.
Print Assumptions C27_last_annulus_wins_refuted.

Example C27_case : WspatialVec 1 2 (fun j => IZR j) (fun _ => 0) (fun _ _ => true) [(1, 2, 4)] 3 = [3; 6].
Proof.
  rewrite C27_weight_vector. change (dark_pixels 1 2 (fun _ _ => true)) with [(0, 0); (0, 1)]%Z.
  cbn [map fst snd]. unfold Wspatial. cbn [fold_left].
  replace (0 * 0 + 0 * 0) with 0 by ring. replace (1 * 1 + 0 * 0) with 1 by ring. rewrite sqrt_0, sqrt_1.
  unfold Wannulus, in_annulus. cbn [snd].
  destruct (Rle_dec 1 0); [lra|]. destruct (Rlt_dec 0 2); [|lra]. destruct (Rle_dec 1 1); [|lra]. destruct (Rlt_dec 1 2); [|lra]. cbn [andb].
  replace (sqrt 4) with 2 by (symmetry; replace 4 with (2 * 2) by ring; apply sqrt_square; lra).
  f_equal; [ring|]. f_equal. ring.
Qed.

(* ---------------- C28 ---------------- *)
(* The cropping always ends. *)
Theorem C28_terminates : forall mask fuel, square_arr mask -> (nr mask < 2 * Z.of_nat fuel)%Z ->
  crop_one fuel mask <> None.
Proof.
  intros mask fuel Hs Hf. assert (H0 := proj1 Hs).
  destruct (crop_one_spec mask fuel Hs) as [(k & c & _ & _ & -> & _)|(-> & _)]; try discriminate.
  split; [lia|]. intros ->. lia.
Qed.
Print Assumptions C28_terminates.

(* What it returns: a centred crop, of side N-2k, and removing two more rows and columns would lose more than 1e-7
   of transmission; every intermediate size tested (N-4 down to N-2k) loses at most 1e-7. *)
Theorem C28_result : forall mask fuel n c, square_arr mask -> (nr mask < 2 * Z.of_nat fuel)%Z ->
  crop_one fuel mask = Some (Ok (n, c)) ->
  is_recentred mask n n 0 c /\ (exists k, (1 <= k)%Z /\ n = nr mask - 2 * k)%Z /\ (2 < n)%Z /\
  / 10 ^ 7 < Rabs (lost mask (n - 2)) /\
  (forall m, (n <= m <= nr mask - 4)%Z -> (exists q, m = nr mask - 2 * q)%Z -> Rabs (lost mask m) <= / 10 ^ 7).
Proof.
  intros mask fuel n c Hs Hf E. assert (H0 := proj1 Hs).
  destruct (crop_one_spec mask fuel Hs) as [(k & c' & K1 & K2 & K3 & K4 & K5 & K6)|(E2 & _)].
  - split; [lia|]. intros ->. lia.
  - rewrite K3 in E. assert (En : n = (nr mask - 2 * k)%Z) by congruence. assert (Ec : c = c') by congruence. subst n c. clear E. split; [exact K4|]. split; [exists k; split; [lia|reflexivity]|]. split; [lia|].
    split.
    + unfold fits, lyot_tol in K5. replace (nr mask - 2 * k - 2)%Z with (nr mask - 2 * (k + 1))%Z by lia. lra.
    + intros m Hm (q & ->). apply (K6 q). lia.
  - rewrite E2 in E. discriminate.
Qed.
Print Assumptions C28_result.

(* A TypeError is raised exactly when every smaller window keeps all but 1e-7 of the transmission (e.g. an empty
   mask, or N <= 4); there is no other exception. *)
Theorem C28_exception : forall mask fuel, square_arr mask -> (nr mask < 2 * Z.of_nat fuel)%Z ->
  forall e, crop_one fuel mask = Some (Raise e) <->
  e = TypeError /\ forall q, (2 <= q)%Z -> (0 < nr mask - 2 * q)%Z -> Rabs (lost mask (nr mask - 2 * q)) <= / 10 ^ 7.
Proof.
  intros mask fuel Hs Hf e. assert (H0 := proj1 Hs).
  destruct (crop_one_spec mask fuel Hs) as [(k & c' & K1 & K2 & K3 & K4 & K5 & K6)|(E2 & F)].
  - split; [lia|]. intros ->. lia.
  - rewrite K3. split; [discriminate|]. intros [-> H]. exfalso. apply K5. apply H; lia.
  - rewrite E2. split.
    + intros [= <-]. split; [reflexivity|]. intros q Hq Hp. apply F; lia.
    + intros [-> _]. reflexivity.
Qed.
Print Assumptions C28_exception.

(* Non-negative mask, at least two steps taken: no discarded pixel has transmission above 1e-7; for a mask of
   zeros and ones nothing is discarded. *)
Theorem C28_crop_keeps_transmission : forall mask fuel n c, square_arr mask -> (nr mask < 2 * Z.of_nat fuel)%Z ->
  (forall i j, (0 <= i < nr mask)%Z -> (0 <= j < nc mask)%Z -> 0 <= px mask i j) ->
  crop_one fuel mask = Some (Ok (n, c)) -> (n <= nr mask - 4)%Z ->
  0 <= total mask - total c <= / 10 ^ 7 /\
  (forall i j, (0 <= i < nr mask)%Z -> (0 <= j < nc mask)%Z -> in_window (nr mask) n i j = false ->
     px mask i j <= / 10 ^ 7 /\ (px mask i j = 0 \/ px mask i j = 1 -> px mask i j = 0)).
Proof.
  intros mask fuel n c Hs Hf Hp E Hn. destruct (C28_result mask fuel n c Hs Hf E) as (R1 & (k & K1 & K2) & R3 & R4 & R5).
  assert (L : Rabs (lost mask n) <= / 10 ^ 7) by (apply R5; [lia|exists k; exact K2]).
  assert (L0 : 0 <= lost mask n).
  { unfold lost. apply rsum_nonneg. intros i Hi. apply rsum_nonneg. intros j Hj.
    destruct (in_window (nr mask) n (Z.of_nat i) (Z.of_nat j)); [lra|]. apply Hp; lia. }
  rewrite Rabs_pos_eq in L by exact L0.
  pose proof (crop_sum mask n c Hs ltac:(lia) R1) as S. change (arr_sum c) with (total c) in S. change (arr_sum mask) with (total mask) in S.
  split; [lra|]. intros i j Hi Hj Hw. destruct (lost_nonneg_pixel mask n i j Hp Hi Hj Hw) as [_ Q].
  split; [lra|]. intros [|E1]; [assumption|]. exfalso. rewrite E1 in Q.
  assert (/ 10 ^ 7 < 1) by (apply Rmult_lt_reg_l with (10 ^ 7); [lra|rewrite Rinv_r; lra]). lra.
Qed.
Print Assumptions C28_crop_keeps_transmission.

(* But the first ring is cropped without being looked at: a fully transmitting mask of any size loses its border. *)
Theorem C28_first_ring_lost_refuted : forall N fuel, (5 <= N)%Z -> (N < 2 * Z.of_nat fuel)%Z ->
  exists c, crop_one fuel (mkarr N N (fun _ _ => 1)) = Some (Ok (N - 2, c)%Z) /\ 1 <= total (mkarr N N (fun _ _ => 1)) - total c.
Proof.
  intros N fuel HN Hf. set (mask := mkarr N N (fun _ _ => 1)).
  assert (Hs : square_arr mask) by (split; cbn; [lia|reflexivity]).
  assert (big : forall n, (n < N)%Z -> 1 <= lost mask n).
  { intros n Hn. destruct (lost_nonneg_pixel mask n (if N mod 2 =? 0 then 0 else N - 1)%Z (if N mod 2 =? 0 then 0 else N - 1)%Z) as [_ H].
    - intros. cbn. lra.
    - subst mask; cbn [nr nc]. destruct (N mod 2 =? 0)%Z; lia.
    - subst mask; cbn [nr nc]. destruct (N mod 2 =? 0)%Z; lia.
    - subst mask; cbn [nr]. unfold in_window. destruct (Z.eqb_spec (N mod 2) 0); lia.
    - exact H. }
  destruct (crop_one_spec mask fuel Hs) as [(k & c & K1 & K2 & K3 & K4 & K5 & K6)|(E2 & F)].
  - split; [subst mask; cbn [nr]; lia|]. intros ->. lia.
  - destruct (Z.eq_dec k 1) as [->|Hk].
    + exists c. split; [exact K3|]. pose proof (crop_sum mask (N - 2) c Hs ltac:(subst mask; cbn [nr]; lia) K4) as S.
      change (arr_sum c) with (total c) in S. change (arr_sum mask) with (total mask) in S.
      fold mask. pose proof (big (N - 2)%Z ltac:(lia)). lra.
    + exfalso. specialize (K6 k ltac:(lia)). unfold fits, lyot_tol in K6. subst mask; cbn [nr] in *.
      pose proof (big (N - 2 * k)%Z ltac:(lia)) as B. rewrite Rabs_pos_eq in K6 by lra.
      assert (/ 10 ^ 7 < 1) by (apply Rmult_lt_reg_l with (10 ^ 7); [lra|rewrite Rinv_r; lra]). lra.
  - exfalso. specialize (F 2%Z ltac:(lia)). subst mask; cbn [nr] in *. specialize (F ltac:(lia)). unfold fits, lyot_tol in F. cbn [nr] in F.
    pose proof (big (N - 2 * 2)%Z ltac:(lia)) as B. rewrite Rabs_pos_eq in F by lra.
    assert (/ 10 ^ 7 < 1) by (apply Rmult_lt_reg_l with (10 ^ 7); [lra|rewrite Rinv_r; lra]). lra.
Qed.
Print Assumptions C28_first_ring_lost_refuted.

(* The whole function: the full mask (unless in PROPER mode) and then the compact mask, each as above. *)
Theorem C28_both_masks : forall fuel proper full compact f c,
  crop_lyot_stop fuel proper full compact = Some (Ok (f, c)) ->
  crop_one fuel compact = Some (Ok c) /\
  (if proper then f = None else exists x, f = Some x /\ crop_one fuel full = Some (Ok x)).
Proof.
  intros fuel proper full compact f c. unfold crop_lyot_stop. destruct proper.
  - destruct (crop_one fuel compact) as [[?|?]|]; intros E; inversion E; subst; auto.
  - destruct (crop_one fuel full) as [[x|?]|]; try discriminate.
    destruct (crop_one fuel compact) as [[?|?]|]; intros E; inversion E; subst; eauto.
Qed.
Print Assumptions C28_both_masks.

(* A 9 x 9 mask with a single open pixel at the centre is cropped to 3 x 3 ... *)
Example C28_case : exists c, crop_one 9 (mkarr 9 9 (fun i j => if ((i =? 4) && (j =? 3))%Z then 1 else 0)) = Some (Ok (3%Z, c)).
Proof.
  set (mask := mkarr 9 9 _). assert (Hs : square_arr mask) by (split; cbn; lia).
  assert (T0 : 0 < lyot_tol) by (unfold lyot_tol; apply Rinv_0_lt_compat; lra).
  assert (T1 : lyot_tol < 1) by (unfold lyot_tol; apply Rmult_lt_reg_l with (10 ^ 7); [lra|rewrite Rinv_r; lra]).
  assert (L0 : forall n, (3 <= n <= 5)%Z -> lost mask n = 0).
  { intros n Hn. unfold lost. apply rsum_zero. intros i Hi. apply rsum_zero. intros j Hj.
    destruct (in_window (nr mask) n (Z.of_nat i) (Z.of_nat j)) eqn:W; [reflexivity|]. subst mask. cbn [px nr] in *.
    destruct ((Z.of_nat i =? 4) && (Z.of_nat j =? 3))%Z eqn:B; [exfalso|reflexivity]. unfold in_window in W. lia. }
  assert (L1 : 1 <= lost mask 1).
  { destruct (lost_nonneg_pixel mask 1 4 3) as [_ H]; try (subst mask; cbn [nr nc]; lia || reflexivity).
    - intros i j _ _. subst mask; cbn [px]. destruct (_ && _)%bool; lra.
    - exact H. }
  destruct (crop_one_spec mask 9 Hs) as [(k & c & K1 & K2 & K3 & K4 & K5 & K6)|(E2 & F)]; [split; [cbn; lia|discriminate]| |].
  - cbn [nr mask] in K2. assert (k = 1 \/ k = 2 \/ k = 3)%Z as [ -> | [ -> | -> ] ] by lia; [exfalso|exfalso|exists c; exact K3];
      apply K5; unfold fits.
    + change (nr mask - 2 * (1 + 1))%Z with 5%Z. rewrite L0, Rabs_R0 by lia. lra.
    + change (nr mask - 2 * (2 + 1))%Z with 3%Z. rewrite L0, Rabs_R0 by lia. lra.
  - exfalso. specialize (F 4%Z ltac:(lia) ltac:(cbn; lia)). unfold fits in F.
    change (nr mask - 2 * 4)%Z with 1%Z in F. rewrite Rabs_pos_eq in F by lra. lra.
Qed.

(* ---------------- C29 ---------------- *)
Definition valid_keys (m : keys) : Prop :=
  (exists w, In w ["pixel"; "interpixel"]%string /\ same_text w (k_centering m)) /\
  (exists w, In w ["VC"; "VORTEX"; "LC"; "APLC"; "FLC"; "SPLC"; "HLC"]%string /\ same_text w (k_coro m)) /\
  (exists w, In w ["fourier"; "fpm_scale"; "proper"; "roman_phasec_proper"; "wfirst_phaseb_proper"]%string /\ same_text w (k_layout m)) /\
  (exists w, In w ["perfect"; "pairwise"; "pairwise-square"; "pwp-bp-square"; "pairwise-rect"; "pwp-bp"; "pwp-kf"]%string /\ same_text w (k_estimator m)) /\
  (exists w, In w ["gridsearchefc"; "plannedefc"; "ad-efc"]%string /\ same_text w (k_controller m)).

Lemma verify_cases m :
  let a := str_in (lower (k_centering m)) allowedCenterings in
  let b := str_in (upper (k_coro m)) allowedCoronagraphTypes in
  let c := str_in (lower (k_layout m)) allowedLayouts in
  let d := str_in (lower (k_estimator m)) allowedEstimators in
  let e := str_in (lower (k_controller m)) allowedControllers in
  snd (verify_key_values m) = (if a && b && c && d && e then None else Some ValueError)%bool /\
  ((a && b && c && d && e = true)%bool -> fst (verify_key_values m) =
     mkkeys (lower (k_centering m)) (upper (k_coro m)) (lower (k_layout m)) (lower (k_estimator m)) (lower (k_controller m))).
Proof.
  cbv zeta. unfold verify_key_values. cbn [k_centering k_coro k_layout k_estimator k_controller].
  destruct (str_in (lower (k_centering m)) allowedCenterings); cbn [negb andb]; [|split; [reflexivity|discriminate]].
  destruct (str_in (upper (k_coro m)) allowedCoronagraphTypes); cbn [negb andb]; [|split; [reflexivity|discriminate]].
  destruct (str_in (lower (k_layout m)) allowedLayouts); cbn [negb andb]; [|split; [reflexivity|discriminate]].
  destruct (str_in (lower (k_estimator m)) allowedEstimators); cbn [negb andb]; [|split; [reflexivity|discriminate]].
  destruct (str_in (lower (k_controller m)) allowedControllers); cbn [negb andb]; [|split; [reflexivity|discriminate]].
  split; reflexivity.
Qed.
Ltac canon := repeat constructor.
(* accepted exactly when each keyword is a documented option up to letter case; otherwise ValueError *)
Theorem C29_accepts_exactly : forall m,
  (snd (verify_key_values m) = None <-> valid_keys m) /\
  (snd (verify_key_values m) <> None -> snd (verify_key_values m) = Some ValueError).
Proof.
  intros m. destruct (verify_cases m) as [E _]. rewrite E. unfold valid_keys.
  rewrite <- (str_in_lower (k_centering m)) by canon. rewrite <- (str_in_upper (k_coro m)) by canon.
  rewrite <- (str_in_lower (k_layout m)) by canon. rewrite <- (str_in_lower (k_estimator m)) by canon.
  rewrite <- (str_in_lower (k_controller m)) by canon.
  fold allowedCenterings allowedCoronagraphTypes allowedLayouts allowedEstimators allowedControllers.
  rewrite <- !andb_true_iff, !andb_assoc.
  destruct (_ && _)%bool; split; try split; intros; try congruence; reflexivity.
Qed.
Print Assumptions C29_accepts_exactly.

(* and then every keyword is rewritten to the documented spelling, which is the text the user gave *)
Theorem C29_canonical : forall m, snd (verify_key_values m) = None ->
  let m' := fst (verify_key_values m) in
  In (k_centering m') allowedCenterings /\ same_text (k_centering m') (k_centering m) /\
  In (k_coro m') allowedCoronagraphTypes /\ same_text (k_coro m') (k_coro m) /\
  In (k_layout m') allowedLayouts /\ same_text (k_layout m') (k_layout m) /\
  In (k_estimator m') allowedEstimators /\ same_text (k_estimator m') (k_estimator m) /\
  In (k_controller m') allowedControllers /\ same_text (k_controller m') (k_controller m).
Proof.
  intros m H. destruct (verify_cases m) as [E F]. rewrite E in H. destruct (_ && _)%bool eqn:B; [|discriminate].
  rewrite (F eq_refl). cbn [k_centering k_coro k_layout k_estimator k_controller].
  apply andb_true_iff in B as [B B5]. apply andb_true_iff in B as [B B4]. apply andb_true_iff in B as [B B3].
  apply andb_true_iff in B as [B1 B2]. apply str_in_iff in B1, B2, B3, B4, B5.
  repeat (split; [assumption || apply lower_same || apply upper_same|]). apply lower_same.
Qed.
Print Assumptions C29_canonical.

(* running the check again changes nothing *)
Theorem C29_idempotent : forall m, snd (verify_key_values m) = None ->
  verify_key_values (fst (verify_key_values m)) = (fst (verify_key_values m), None).
Proof.
  intros m H. destruct (verify_cases m) as [E F]. rewrite E in H. destruct (_ && _)%bool eqn:B; [|discriminate].
  rewrite (F eq_refl). clear E F H.
  destruct (verify_cases (mkkeys (lower (k_centering m)) (upper (k_coro m)) (lower (k_layout m)) (lower (k_estimator m)) (lower (k_controller m)))) as [E F].
  cbn [k_centering k_coro k_layout k_estimator k_controller] in E, F. rewrite !lower_idem, !upper_idem in E, F. rewrite B in E, F.
  rewrite (surjective_pairing (verify_key_values _)), E, (F eq_refl). reflexivity.
Qed.
Print Assumptions C29_idempotent.

(* Every accepted estimator and controller is known to the dispatchers (no silent no-op, no unbound result). *)
Theorem C29_accepted_are_dispatched : forall m, snd (verify_key_values m) = None ->
  let m' := fst (verify_key_values m) in
  est_wrapper_call (k_estimator m') <> None /\ ctrl_wrapper_call (k_controller m') <> None /\
  (est_wrapper_call (k_estimator m') = Some CallPairwise -> probe_generator (k_estimator m') <> None) /\
  (k_estimator m' <> "perfect"%string -> k_estimator m' <> "pwp-kf"%string -> forall Itr s, batch_branch (k_estimator m') Itr s = true).
Proof.
  intros m H m'. destruct (C29_canonical m H) as (_ & _ & _ & _ & _ & _ & HE & _ & HC & _). fold m' in HE, HC.
  revert HE HC. generalize (k_estimator m') (k_controller m'). intros e c HE HC.
  split; [|split; [|split]].
  - cbn in HE. repeat (destruct HE as [<-|HE]; [discriminate|]). contradiction.
  - cbn in HC. repeat (destruct HC as [<-|HC]; [discriminate|]). contradiction.
  - cbn in HE. repeat (destruct HE as [<-|HE]; [intros X; discriminate|]). contradiction.
  - intros H1 H2 Itr s. cbn in HE. repeat (destruct HE as [<-|HE]; [congruence || reflexivity|]). contradiction.
Qed.
Print Assumptions C29_accepted_are_dispatched.
(* ... but the Kalman-filter estimator is accepted although it computes no estimate from iteration ItrStartKF on
   (Eest is then an unbound local variable). *)
Theorem C29_accepted_estimator_always_estimates_refuted :
  exists m, snd (verify_key_values m) = None /\ est_wrapper_call (k_estimator (fst (verify_key_values m))) = Some CallPairwise /\
    forall Itr start, (start <= Itr)%Z -> batch_branch (k_estimator (fst (verify_key_values m))) Itr start = false.
Proof.
  exists (mkkeys "pixel" "LC" "fourier" "PWP-KF" "gridsearchefc"). split; [reflexivity|]. split; [reflexivity|].
  intros Itr start H. cbn. apply Z.ltb_ge. exact H.
Qed.
Print Assumptions C29_accepted_estimator_always_estimates_refuted.
Example C29_case : verify_key_values (mkkeys "Pixel" "vortex" "Fourier" "PAIRWISE" "AD-EFC") =
  (mkkeys "pixel" "VORTEX" "fourier" "pairwise" "ad-efc", None).
Proof. reflexivity. Qed.
(* a rejected keyword: the earlier ones have already been rewritten *)
Example C29_rejected : verify_key_values (mkkeys "Pixel" "xyz" "Fourier" "PAIRWISE" "AD-EFC") =
  (mkkeys "pixel" "XYZ" "Fourier" "PAIRWISE" "AD-EFC", Some ValueError).
Proof. reflexivity. Qed.

(* ---------------- C30 ---------------- *)
(* size that matters: the largest array of the DMs in use *)
Definition dm_array (use1 use2 : bool) (n1 n2 : R) : R :=
  if use1 then if use2 then Rmax n1 n2 else n1 else n2.
Lemma start_nominal u1 u2 n1 n2 nb : (u1 || u2 = true)%bool -> start_pad u1 u2 n1 n2 nb = nominal (dm_array u1 u2 n1 n2).
Proof. destruct u1, u2; try reflexivity; discriminate. Qed.
Lemma dm_array_ge u1 u2 n1 n2 : 1 <= n1 -> 1 <= n2 -> 1 <= dm_array u1 u2 n1 n2.
Proof. intros. unfold dm_array. pose proof (Rmax_l n1 n2). destruct u1, u2; lra. Qed.

(* With at least one DM in use the full-model size is the least power of two that is at least twice the DM array and
   satisfies the sampling condition N >= lambda |z| / dx^2 for both distances at the shortest wavelength; the
   doubling loop always ends. *)
Theorem C30_full_padding : forall u1 u2 n1 n2 nb lams d12 dP2 dx, (u1 || u2 = true)%bool -> 1 <= n1 -> 1 <= n2 ->
  exists k r, (forall f, (k <= f)%nat -> full_pad f u1 u2 n1 n2 nb lams d12 dP2 dx = Some r) /\
    (forall f v, full_pad f u1 u2 n1 n2 nb lams d12 dP2 dx = Some v -> v = r) /\
    least_pow2 [2 * dm_array u1 u2 n1 n2; lmin lams * Rabs d12 / (dx * dx); lmin lams * Rabs dP2 / (dx * dx)] r.
Proof.
  intros. unfold full_pad. rewrite start_nominal by assumption. apply doubling_least. now apply dm_array_ge.
Qed.
Print Assumptions C30_full_padding.
(* Compact model: the same, except that the DM1-DM2 condition uses the pixel size of the full model. *)
Theorem C30_compact_padding : forall u1 u2 n1 n2 nb lams d12 dP2 dxf dxc, (u1 || u2 = true)%bool -> 1 <= n1 -> 1 <= n2 ->
  exists k r, (forall f, (k <= f)%nat -> compact_pad f u1 u2 n1 n2 nb lams d12 dP2 dxf dxc = Some r) /\
    (forall f v, compact_pad f u1 u2 n1 n2 nb lams d12 dP2 dxf dxc = Some v -> v = r) /\
    least_pow2 [2 * dm_array u1 u2 n1 n2; lmin lams * Rabs d12 / (dxf * dxf); lmin lams * Rabs dP2 / (dxc * dxc)] r.
Proof.
  intros. unfold compact_pad. rewrite start_nominal by assumption. apply doubling_least. now apply dm_array_ge.
Qed.
Print Assumptions C30_compact_padding.
(* the wavelength used is the shortest one *)
Theorem C30_shortest_wavelength : forall lams, lams <> [] -> In (lmin lams) lams /\ forall y, In y lams -> lmin lams <= y.
Proof. exact lmin_spec. Qed.
Print Assumptions C30_shortest_wavelength.
(* The arrays hold the DM with at least a factor of two and less than a factor of four, when diffraction does not
   ask for more. *)
Theorem C30_no_diffraction : forall u1 u2 n1 n2 nb lams dx f r, (u1 || u2 = true)%bool -> 1 <= n1 -> 1 <= n2 ->
  full_pad f u1 u2 n1 n2 nb lams 0 0 dx = Some r ->
  2 * dm_array u1 u2 n1 n2 <= r < 4 * dm_array u1 u2 n1 n2.
Proof.
  intros u1 u2 n1 n2 nb lams dx f r Hu H1 H2. unfold full_pad. rewrite start_nominal by assumption.
  rewrite Rabs_R0, !Rmult_0_r. unfold Rdiv. rewrite !Rmult_0_l.
  pose proof (dm_array_ge u1 u2 n1 n2 H1 H2) as Hg.
  destruct (nominal_range (dm_array u1 u2 n1 n2) ltac:(lra)) as (k & E & K). rewrite E.
  destruct f; cbn [doubling]; [discriminate|]. destruct (Rlt_dec (powerRZ 2 k) 0); [lra|]. intros [= <-]. exact K.
Qed.
Print Assumptions C30_no_diffraction.

(* With no DM in use the size need not be a power of two. *)
Theorem C30_no_dm_power_of_two_refuted : exists nb r f, full_pad f false false 1 1 nb [1] 0 0 1 = Some r /\ ~ pow2 r.
Proof.
  exists 3, 6, 1%nat. split.
  - unfold full_pad, start_pad. cbn [andb doubling]. rewrite Rabs_R0, Rmult_0_r. unfold Rdiv. rewrite Rmult_0_l.
    destruct (Rlt_dec (2 * 3) 0); [lra|]. f_equal; ring.
  - intros (k & Hk & E). apply eq_IZR in E. destruct (Z.le_gt_cases k 2) as [H|H].
    + assert (2 ^ k <= 2 ^ 2)%Z by (apply Z.pow_le_mono_r; lia). lia.
    + assert (2 ^ 3 <= 2 ^ k)%Z by (apply Z.pow_le_mono_r; lia). lia.
Qed.
Print Assumptions C30_no_dm_power_of_two_refuted.

Lemma nominal_1 : nominal 1 = 2.
Proof.
  unfold nominal, log2. rewrite ln_1. unfold Rdiv. rewrite Rmult_0_l, Rplus_0_r. rewrite Zceil_IZR. apply powerRZ_1.
Qed.
(* The sampling condition fails at the longest wavelength, although the array is meant to serve all of them. *)
Theorem C30_all_wavelengths_refuted : exists f lams lam d dx r, In lam lams /\ 0 < lam /\
  full_pad f true false 1 1 1 lams d 0 dx = Some r /\ r < lam * Rabs d / (dx * dx).
Proof.
  exists 1%nat, [1; 5], 5, 2, 1, 2. split; [right; now left|]. split; [lra|].
  rewrite (Rabs_pos_eq 2) by lra. split; [|lra].
  unfold full_pad, start_pad, lmin. cbn [andb fold_left doubling]. rewrite nominal_1, Rabs_R0, (Rabs_pos_eq 2) by lra.
  rewrite Rmin_left by lra.
  destruct (Rlt_dec 2 (1 * 2 / (1 * 1))); [lra|]. destruct (Rlt_dec 2 (1 * 0 / (1 * 1))); [lra|]. reflexivity.
Qed.
Print Assumptions C30_all_wavelengths_refuted.
(* The compact model's own condition for the DM1-DM2 distance can fail. *)
Theorem C30_compact_sampling_refuted : exists f lam d dxf dxc r, 0 < lam /\ 0 < dxc < dxf /\
  compact_pad f true false 1 1 1 [lam] d 0 dxf dxc = Some r /\ r < lam * Rabs d / (dxc * dxc).
Proof.
  exists 1%nat, 1, 8, 2, 1, 2. split; [lra|]. split; [lra|]. rewrite (Rabs_pos_eq 8) by lra. split; [|lra].
  unfold compact_pad, start_pad, lmin. cbn [andb fold_left doubling]. rewrite nominal_1, Rabs_R0, (Rabs_pos_eq 8) by lra.
  destruct (Rlt_dec 2 (1 * 8 / (2 * 2))); [lra|]. destruct (Rlt_dec 2 (1 * 0 / (1 * 1))); [lra|]. reflexivity.
Qed.
Print Assumptions C30_compact_sampling_refuted.
Example C30_case : least_pow2 [2 * 1; 7; 3] 8.
Proof.
  split; [exists 3%Z; split; [lia|reflexivity]|]. split.
  - intros x [<-|[<-|[<-|[]]]]; lra.
  - intros q (k & Hk & ->) H. assert (7 <= IZR (2 ^ k)) by (apply H; right; now left).
    apply IZR_le. apply le_IZR in H0. change 8%Z with (2 ^ 3)%Z. apply Z.pow_le_mono_r; [lia|].
    destruct (Z.le_gt_cases 3 k); [assumption|]. assert (2 ^ k <= 2 ^ 2)%Z by (apply Z.pow_le_mono_r; lia). lia.
Qed.
