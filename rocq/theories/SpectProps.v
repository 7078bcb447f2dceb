(* Property theorems C25 (spectral weights) and C26 (modal weights). *)
From Coq Require Import Sorted.
From Verif Require Import Base RBase EfcProofs JacModel SpectModel SpectSpec SpectProofs SpectProofs2 ModalProofs EfcSpec WfscModel.
Open Scope R_scope.

(* ---------------- C25 ---------------- *)
Theorem C25_subband_weights : forall Nsbp Nw flagSim, (1 <= Nsbp)%nat ->
  rsum Nsbp (sbp_weight Nsbp Nw flagSim) = 1 /\ forall i, 0 < sbp_weight Nsbp Nw flagSim i.
Proof. intros N W f H. split; [now apply sbp_sum|]. intros i. now apply sbp_weight_pos. Qed.
Print Assumptions C25_subband_weights.
Theorem C25_wavelength_weights_in_subband : forall Nw, (1 <= Nw)%nat ->
  rsum Nw (lam_weight Nw) = 1 /\ forall i, 0 < lam_weight Nw i.
Proof. intros W H. split; [now apply lam_sum|]. intros i. now apply lam_weight_pos. Qed.
Print Assumptions C25_wavelength_weights_in_subband.

(* centres are symmetric about lambda0 *)
Theorem C25_centres_symmetric : forall Nsbp Nw flagSim lambda0 fracBW i, (i < Nsbp)%nat ->
  sbp_center Nsbp Nw flagSim lambda0 fracBW i + sbp_center Nsbp Nw flagSim lambda0 fracBW (Nsbp - 1 - i) = 2 * lambda0.
Proof. intros. apply center_sym; lia. Qed.
Print Assumptions C25_centres_symmetric.
(* one wavelength per sub-band in simulation: the end centres are the ends of the band *)
Theorem C25_centres_span_band : forall Nsbp lambda0 fracBW, (2 <= Nsbp)%nat ->
  sbp_center Nsbp 1 true lambda0 fracBW 0 = lambda0 * (1 - fracBW / 2) /\
  sbp_center Nsbp 1 true lambda0 fracBW (Nsbp - 1) = lambda0 * (1 + fracBW / 2).
Proof. intros. now apply center_ends. Qed.
Print Assumptions C25_centres_span_band.

(* Merging repeated wavelengths, for any list of wavelengths and non-negative weights. *)
(* every simulated wavelength is represented, to a picometre, by exactly one entry of the merged list *)
Theorem C25_merged_list_covers : forall n lam k, (k < n)%nat ->
  exists! j, In j (inds_unique n lam) /\ pm_key (lam j) = pm_key (lam k).
Proof.
  intros n lam k Hk. destruct (unique_rep n (fun k => pm_key (lam k)) k Hk) as (j & Hj & E). exists j. split; [auto|].
  intros i [Hi Ei]. apply (unique_key_inj n (fun k => pm_key (lam k))); auto. cbn. congruence.
Qed.
Print Assumptions C25_merged_list_covers.
(* the list is sorted, without repeats *)
Theorem C25_merged_list_sorted : forall n lam,
  StronglySorted Z.lt (map (fun k => pm_key (lam k)) (inds_unique n lam)).
Proof.
  intros n lam. unfold inds_unique. rewrite (unique_map_key n (fun k => pm_key (lam k))). apply uniq_keys_sorted.
Qed.
Print Assumptions C25_merged_list_sorted.
(* weight never decreases ... *)
Theorem C25_merged_total_at_least : forall n lam w, (forall k, (k < n)%nat -> 0 <= w k) ->
  rsum n w <= rsuml (merged_weights n lam w).
Proof. intros. now apply merged_at_least. Qed.
Print Assumptions C25_merged_total_at_least.
(* ... and is exactly preserved, entry by entry, when different wavelengths are more than 10 pm apart *)
Theorem C25_merged_weights_exact : forall n lam w, separated n lam ->
  rsuml (merged_weights n lam w) = rsum n w /\
  forall p j, nth_error (inds_unique n lam) p = Some j ->
    nth_error (merged_weights n lam w) p = Some (rsum n (fun k => if (pm_key (lam k) =? pm_key (lam j))%Z then w k else 0)).
Proof.
  intros n lam w HS. split; [now apply merged_exact|]. intros p j Hp. now apply merged_entry.
Qed.
Print Assumptions C25_merged_weights_exact.

(* The weights falco builds: total at least 1 always, exactly 1 when separated. *)
Theorem C25_final_weights_total : forall Nsbp Nw flagSim lambda0 fracBW, (1 <= Nsbp)%nat -> (1 <= Nw)%nat ->
  let lam := lambdas Nsbp Nw flagSim lambda0 fracBW in
  let m := merged_weights (Nlam Nsbp Nw) lam (lambda_weights_all0 Nsbp Nw flagSim) in
  1 <= rsuml m /\ (separated (Nlam Nsbp Nw) lam -> rsuml m = 1).
Proof.
  intros N W f l0 bw HN HW lam m. rewrite <- (all_sum N W f HN HW). split.
  - apply merged_at_least. intros k _. unfold lambda_weights_all0. apply Rmult_le_pos; apply Rlt_le; [now apply sbp_weight_pos|now apply lam_weight_pos].
  - intros HS. now apply merged_exact.
Qed.
Print Assumptions C25_final_weights_total.

(* Several wavelengths per sub-band, more than 10 pm apart: the merged list is the regular grid over the
   whole band, shared sub-band end points counted once, with trapezoid weights. *)
Theorem C25_full_band_is_trapezoid_grid : forall Nsbp K flagSim lambda0 fracBW, (1 <= Nsbp)%nat -> (1 <= K)%nat ->
  / 10 ^ 11 < lambda0 * fracBW / INR (Nsbp * K) ->
  let lam := lambdas Nsbp (S K) flagSim lambda0 fracBW in
  let n := Nlam Nsbp (S K) in
  length (inds_unique n lam) = S (Nsbp * K) /\
  forall p, (p <= Nsbp * K)%nat -> exists j, nth_error (inds_unique n lam) p = Some j /\
    lam j = grid_lambda Nsbp K lambda0 fracBW p /\
    nth_error (merged_weights n lam (lambda_weights_all0 Nsbp (S K) flagSim)) p = Some (trapezoid Nsbp K p).
Proof.
  intros N K f l0 bw HN HK HS lam n. split.
  - now apply unique_length.
  - intros p Hp. now apply regular_result.
Qed.
Print Assumptions C25_full_band_is_trapezoid_grid.
Example C25_example : / 10 ^ 11 < (550 * / 10 ^ 9) * (1/10) / INR (3 * 4).
Proof. cbn. lra. Qed.

(* Refutation of "weights always sum to one": duplicates are found at 1 pm but merged at 10 pm.  One
   sub-band pair 2 pm apart in wavelength: total weight exceeds 1. *)
Theorem C25_close_wavelengths_refuted : exists (lam w : nat -> R),
  (forall k, 0 <= w k) /\ rsum 3 w = 1 /\ 1 < rsuml (merged_weights 3 lam w).
Proof.
  (* wavelengths 0, 0 and 2 pm, weights 1/3 *)
  exists (fun k => if Nat.eqb k 2 then 2 / 10 ^ 12 else 0), (fun _ => 1/3).
  set (lam := fun k => if Nat.eqb k 2 then 2 / 10 ^ 12 else 0).
  split; [intros; lra|]. split; [cbn; lra|].
  assert (K0 : pm_key 0 = 0%Z).
  { unfold pm_key. rewrite Rmult_0_r. apply (Znearest_imp _ 0 0). rewrite Rminus_0_r, Rabs_R0. lra. }
  assert (K2 : pm_key (2 / 10 ^ 12) = 2%Z).
  { unfold pm_key. replace (10 ^ 12 * (2 / 10 ^ 12)) with 2 by field. apply (Znearest_imp _ 2 2). replace (2 - 2) with 0 by ring. rewrite Rabs_R0. lra. }
  assert (U : inds_unique 3 lam = [0; 2]%nat).
  { unfold inds_unique, lam. cbn [seq map Nat.eqb]. rewrite K0, K2. reflexivity. }
  rewrite merged_form, U. cbn [duplicate_inds seq filter existsb Nat.eqb orb negb map rsuml].
  assert (C1 : close lam 0 1 = true) by (apply Rleb_iff; unfold lam; cbn [Nat.eqb]; rewrite Rminus_0_r, Rabs_R0; lra).
  assert (C2 : close lam 2 1 = true).
  { apply Rleb_iff. unfold lam. cbn [Nat.eqb]. rewrite Rminus_0_r. rewrite Rabs_right by lra. lra. }
  rewrite C1, C2. lra.
Qed.
Print Assumptions C25_close_wavelengths_refuted.

(* ---------------- C26 ---------------- *)
Section C26.
  Variable set_list : list Z -> list Z.
  Hypothesis Hset : enumerates set_list.
  Variables (Nsbp stars : nat) (perfect : bool).
  Notation setup := (set_jacobian_modal_weights set_list Nsbp stars perfect).

  Lemma setup_inv zerns Zcoef J : setup zerns Zcoef = Ok J ->
    In 1%Z zerns /\ NoDup zerns /\ zerns = set_list zerns /\ length Zcoef = length zerns /\
    jm_Zcoef J = map (fun '(z, c) => if (z =? 1)%Z then 1 else c) (combine zerns Zcoef) /\
    jm_weightMat J = final_mat Nsbp perfect zerns (jm_Zcoef J) /\
    jm_inds J = mode_inds Nsbp (length zerns) (jm_weightMat J) /\
    jm_perStar J = length (jm_inds J) /\ jm_Nmode J = (stars * jm_perStar J)%nat /\
    jm_weights J = tile stars (map (fun '(a, b) => jm_weightMat J a b) (jm_inds J)) /\
    jm_sbp J = tile stars (map fst (jm_inds J)) /\
    jm_zern J = tile stars (map (fun '(_, b) => nth b zerns 0%Z) (jm_inds J)) /\
    jm_star J = concat (map (fun s => repeat s (jm_perStar J)) (seq 0 stars)).
  Proof.
    unfold set_jacobian_modal_weights. destruct (existsb (Z.eqb 1) zerns) eqn:E1; cbn [negb]; [|discriminate].
    unfold list_eqb. destruct (list_eq_dec Z.eq_dec zerns (set_list zerns)) as [E2|]; cbn [negb]; [|discriminate].
    unfold reset_piston. destruct (Nat.eqb_spec (length zerns) (length Zcoef)) as [E3|]; cbn [rbind]; [|discriminate].
    intros H. injection H as <-. cbn. split.
    - apply existsb_exists in E1. destruct E1 as (x & Hx & Ex). apply Z.eqb_eq in Ex. now subst.
    - split; [rewrite E2; apply (Hset zerns)|]. repeat split; auto.
  Qed.

  (* rejected input *)
  Theorem C26_piston_required : forall zerns Zcoef, ~ In 1%Z zerns -> setup zerns Zcoef = Raise ValueError.
  Proof.
    intros zerns Zcoef H. unfold set_jacobian_modal_weights. destruct (existsb (Z.eqb 1) zerns) eqn:E1; [|reflexivity].
    apply existsb_exists in E1. destruct E1 as (x & Hx & Ex). apply Z.eqb_eq in Ex. subst. contradiction.
  Qed.
  Theorem C26_repeats_rejected : forall zerns Zcoef, ~ NoDup zerns -> setup zerns Zcoef = Raise ValueError.
  Proof.
    intros zerns Zcoef H. unfold set_jacobian_modal_weights. destruct (negb (existsb (Z.eqb 1) zerns)); [reflexivity|].
    unfold list_eqb. destruct (list_eq_dec Z.eq_dec zerns (set_list zerns)) as [E|]; [|reflexivity].
    exfalso. apply H. rewrite E. apply (Hset zerns).
  Qed.
  (* Accepted exactly when piston is there, the list is in the set's own order, and there is one
     coefficient per mode. *)
  Theorem C26_accepted_iff : forall zerns Zcoef,
    (exists J, setup zerns Zcoef = Ok J) <-> In 1%Z zerns /\ zerns = set_list zerns /\ length Zcoef = length zerns.
  Proof.
    intros zerns Zcoef. split.
    - intros [J H]. apply setup_inv in H. tauto.
    - intros (H1 & H2 & H3). unfold set_jacobian_modal_weights.
      rewrite (proj2 (existsb_exists _ _)) by (exists 1%Z; auto). cbn [negb].
      unfold list_eqb. destruct (list_eq_dec Z.eq_dec zerns (set_list zerns)); [|contradiction]. cbn [negb].
      unfold reset_piston. rewrite H3, Nat.eqb_refl. cbn [rbind]. eauto.
  Qed.

  Section PistonFirst.
    Hypothesis HN : (1 <= Nsbp)%nat.
    Variables (zerns : list Z) (Zcoef : list R) (J : jmodes).
    Hypothesis HJ : setup zerns Zcoef = Ok J.
    Hypothesis H1 : nth_error zerns 0 = Some 1%Z.

    (* the piston coefficient is 1, the others are as given *)
    Theorem C26_coefficients : forall b z, nth_error zerns b = Some z ->
      nth b (jm_Zcoef J) 0 = if (z =? 1)%Z then 1 else nth b Zcoef 0.
    Proof.
      intros b z Hb. destruct (setup_inv _ _ _ HJ) as (_ & _ & _ & L & EZ & _). rewrite EZ. clear -Hb L.
      revert zerns b Hb L. induction Zcoef as [|c l IH]; intros [|y zs] [|b] Hb L; try discriminate; cbn in *; [now injection Hb as ->|]; apply IH; auto.
    Qed.

    (* Each Zernike with a non-zero coefficient: its weights over the sub-bands sum to 1 and are positive
       exactly at the sub-bands it is controlled at; a zero coefficient zeroes the column. *)
    Theorem C26_columns_normalised : forall b z, nth_error zerns b = Some z ->
      (nth b (jm_Zcoef J) 0 <> 0 -> exists v : nat -> R, (forall a, jm_weightMat J a b = Some (v a)) /\ rsum Nsbp v = 1 /\
          forall a, (active Nsbp z a = true -> 0 < v a) /\ (active Nsbp z a = false -> v a = 0)) /\
      (nth b (jm_Zcoef J) 0 = 0 -> forall a, jm_weightMat J a b = Some 0).
    Proof.
      intros b z Hb. destruct (setup_inv _ _ _ HJ) as (_ & ND & _ & _ & _ & EM & _). rewrite EM. split.
      - intros Hc. destruct (final_active Nsbp perfect HN zerns (jm_Zcoef J) H1 ND b z Hb Hc) as (v & V1 & V2 & V3 & V4).
        exists v. split; [auto|]. split; [auto|]. auto.
      - intros Hc a. now apply (final_inactive Nsbp perfect HN zerns (jm_Zcoef J) H1 ND b z).
    Qed.

    (* The modes of one star are exactly the (sub-band, Zernike) pairs under control, each once, ordered
       by sub-band and then by Zernike. *)
    Theorem C26_modes_of_a_star : NoDup (jm_inds J) /\
      (forall a b, In (a, b) (jm_inds J) <->
        (a < Nsbp)%nat /\ exists z, nth_error zerns b = Some z /\ nth b (jm_Zcoef J) 0 <> 0 /\ active Nsbp z a = true) /\
      StronglySorted lex_lt (jm_inds J).
    Proof.
      destruct (setup_inv _ _ _ HJ) as (_ & ND & _ & _ & _ & EM & EI & _). rewrite EI. unfold mode_inds.
      assert (SS : StronglySorted lex_lt (list_prod (seq 0 Nsbp) (seq 0 (length zerns)))).
      { apply prod_sorted. }
      assert (SF : forall (P : nat * nat -> bool) (l : list (nat * nat)), StronglySorted lex_lt l ->
         StronglySorted lex_lt (filter P l)).
      { intros P l. induction 1 as [|x l Hl IH Hf]; cbn; [constructor|]. destruct (P x); auto. constructor; auto.
        apply Forall_forall. intros y Hy. apply filter_In in Hy. rewrite Forall_forall in Hf. apply Hf. tauto. }
      assert (SX := SF (fun '(a, b) => positive (jm_weightMat J a b)) _ SS).
      split; [|split; auto].
      - clear -SX. induction SX as [|x l Hl IH Hf]; constructor; auto. intros Hx. rewrite Forall_forall in Hf. specialize (Hf x Hx). unfold lex_lt in Hf. lia.
      - intros a b. rewrite filter_In, in_prod_iff, !in_seq. rewrite EM. split.
        + intros [[Ha Hb] Hp]. split; [lia|]. destruct (nth_error zerns b) as [z|] eqn:Ez; [|apply nth_error_None in Ez; lia].
          exists z. split; [auto|]. now apply (positive_iff Nsbp perfect HN zerns (jm_Zcoef J) H1 ND a b z Ez).
        + intros [Ha (z & Ez & Hp)]. assert (b < length zerns)%nat by (apply nth_error_Some; congruence). split; [lia|].
          now apply (positive_iff Nsbp perfect HN zerns (jm_Zcoef J) H1 ND a b z Ez).
    Qed.

    (* The mode arrays: Nmode = stars * modes per star entries each; entry k belongs to star
       k / (modes per star) and to pair number k mod (modes per star), and its weight, sub-band and
       Zernike number are that pair's. *)
    Theorem C26_mode_arrays : jm_Nmode J = (stars * jm_perStar J)%nat /\ jm_perStar J = length (jm_inds J) /\
      length (jm_weights J) = jm_Nmode J /\ length (jm_sbp J) = jm_Nmode J /\ length (jm_zern J) = jm_Nmode J /\ length (jm_star J) = jm_Nmode J /\
      forall k, (k < jm_Nmode J)%nat -> exists a b z, nth_error (jm_inds J) (k mod jm_perStar J) = Some (a, b) /\
        nth_error zerns b = Some z /\
        nth_error (jm_star J) k = Some (k / jm_perStar J)%nat /\
        nth_error (jm_sbp J) k = Some a /\ nth_error (jm_zern J) k = Some z /\
        nth_error (jm_weights J) k = Some (jm_weightMat J a b).
    Proof.
      destruct (setup_inv _ _ _ HJ) as (_ & ND & _ & _ & _ & EM & EI & EP & EN & EW & ES & EZ & ET).
      split; [auto|]. split; [auto|].
      assert (LT : length (jm_star J) = jm_Nmode J).
      { rewrite ET, EN. clear. generalize 0%nat. induction stars as [|n IH]; intros s; cbn; [auto|]. rewrite app_length, repeat_length, IH. auto. }
      split; [rewrite EW, tile_length, map_length; congruence|]. split; [rewrite ES, tile_length, map_length; congruence|].
      split; [rewrite EZ, tile_length, map_length; congruence|]. split; [auto|].
      intros k Hk. assert (HP : (0 < jm_perStar J)%nat) by (rewrite EN in Hk; destruct (jm_perStar J); lia).
      destruct (nth_error (jm_inds J) (k mod jm_perStar J)) as [[a b]|] eqn:Ek.
      2:{ apply nth_error_None in Ek. assert (k mod jm_perStar J < jm_perStar J)%nat by (apply Nat.mod_upper_bound; lia). lia. }
      destruct (nth_error zerns b) as [z|] eqn:Ez.
      2:{ exfalso. apply nth_error_In in Ek. apply C26_modes_of_a_star in Ek. destruct Ek as (_ & z & Hz & _). congruence. }
      exists a, b, z. split; [auto|]. split; [auto|].
      assert (Hlt : Nat.ltb k (stars * length (jm_inds J)) = true) by (apply Nat.ltb_lt; rewrite <- EP, <- EN; auto).
      split; [|split; [|split]].
      - rewrite ET, nth_error_stars by auto. rewrite EP, Hlt. reflexivity.
      - rewrite ES, nth_error_tile by (rewrite map_length; lia). rewrite map_length, Hlt, nth_error_map, <- EP, Ek. reflexivity.
      - rewrite EZ, nth_error_tile by (rewrite map_length; lia). rewrite map_length, Hlt, nth_error_map, <- EP, Ek. cbn. f_equal. now apply nth_error_nth.
      - rewrite EW, nth_error_tile by (rewrite map_length; lia). rewrite map_length, Hlt, nth_error_map, <- EP, Ek. reflexivity.
    Qed.

    (* With piston alone there are Nsbp modes per star; any other Zernike with a non-zero coefficient
       makes more, and then the intensity record of the control loop has too few columns: the loop
       stops with IndexError (refutes that such a configuration can be run). *)
    Theorem C26_piston_only_mode_count : length zerns = 1%nat -> jm_perStar J = Nsbp.
    Proof.
      intros L. destruct (setup_inv _ _ _ HJ) as (_ & ND & _ & _ & _ & EM & EI & EP & _). rewrite EP, EI. unfold mode_inds. rewrite L, EM.
      assert (Hc : nth 0 (jm_Zcoef J) 0 <> 0) by (rewrite (C26_coefficients 0 1%Z H1); cbn; lra).
      assert (F : forall l, length (filter (fun '(a, b) => positive (final_mat Nsbp perfect zerns (jm_Zcoef J) a b)) (list_prod l [0%nat])) = length l).
      { induction l as [|a l IH]; [reflexivity|]. cbn [list_prod map app filter]. 
        rewrite (proj2 (positive_iff Nsbp perfect HN zerns (jm_Zcoef J) H1 ND a 0 1%Z H1)) by auto. cbn [length]. now rewrite IH. }
      rewrite F. apply seq_length.
    Qed.
    Theorem C26_extra_zernike_overflows_history_refuted : forall b z npix w corr score Eest Iinco Im,
      nth_error zerns b = Some z -> z <> 1%Z -> nth b Zcoef 0 <> 0 -> (0 < stars)%nat ->
      (norm_int_columns Nsbp stars < jm_Nmode J)%nat /\
      store_intensities (jm_Nmode J) npix w corr score (norm_int_columns Nsbp stars) Eest Iinco Im = Raise IndexError.
    Proof.
      intros b z npix w corr score Eest Iinco Im Hb Hz Hc Hs.
      assert (Lt : (norm_int_columns Nsbp stars < jm_Nmode J)%nat).
      { destruct (setup_inv _ _ _ HJ) as (_ & ND & _ & _ & _ & EM & EI & EP & EN & _). unfold norm_int_columns. rewrite EN.
        assert (S Nsbp <= jm_perStar J)%nat; [|nia]. rewrite EP.
        assert (Hb0 : b <> 0%nat) by (intros ->; congruence).
        assert (Inc : incl ((0%nat, b) :: map (fun a => (a, 0%nat)) (seq 0 Nsbp)) (jm_inds J)).
        { destruct C26_modes_of_a_star as (_ & M & _). intros x [<-|Hx]; apply M || (apply in_map_iff in Hx; destruct Hx as (a & <- & Ha); apply in_seq in Ha; apply M).
          - split; [lia|]. exists z. split; [auto|]. rewrite (C26_coefficients b z Hb). destruct (Z.eqb_spec z 1); [contradiction|].
            split; [auto|]. unfold active. destruct (Z.eqb_spec z 1); [contradiction|reflexivity].
          - split; [lia|]. exists 1%Z. split; [auto|]. rewrite (C26_coefficients 0 1%Z H1). cbn. split; [lra|reflexivity]. }
        assert (NDl : NoDup ((0%nat, b) :: map (fun a => (a, 0%nat)) (seq 0 Nsbp))).
        { constructor.
          - intros H. apply in_map_iff in H. destruct H as (a & H & _). injection H as _ H. congruence.
          - apply FinFun.Injective_map_NoDup; [intros x y H; now injection H|apply seq_NoDup]. }
        assert (L := NoDup_incl_length NDl Inc). cbn [length] in L. rewrite map_length, seq_length in L. exact L. }
      split; [auto|]. unfold store_intensities. destruct (Nat.ltb_spec (norm_int_columns Nsbp stars) (jm_Nmode J)); [reflexivity|lia].
    Qed.

    (* total weight over all modes = stars * number of Zernikes with non-zero coefficient *)
    Theorem C26_total_weight :
      rsuml (map (fun x => match x with Some r => r | None => 0 end) (jm_weights J)) =
      INR stars * INR (length (filter (fun c => if Req_EM_T c 0 then false else true) (jm_Zcoef J))).
    Proof.
      destruct (setup_inv _ _ _ HJ) as (_ & ND & _ & LZ & EZ & EM & EI & EP & EN & EW & _).
      set (val := fun x : option R => match x with Some r => r | None => 0 end).
      assert (T : forall n (l : list (option R)), rsuml (map val (tile n l)) = INR n * rsuml (map val l)).
      { unfold tile. induction n as [|n IH]; intros l; [cbn; ring|]. cbn [repeat concat]. rewrite map_app, rsuml_app, IH, S_INR. ring. }
      rewrite EW, T. f_equal. rewrite map_map, EI. unfold mode_inds. rewrite filter_sum.
      rewrite (rsuml_map_ext _ (fun '(a, b) => if positive (jm_weightMat J a b) then val (jm_weightMat J a b) else 0)) by (intros [a b] _; reflexivity).
      rewrite list_prod_sum, rsuml_swap.
      assert (LC : length (jm_Zcoef J) = length zerns) by (rewrite EZ, map_length, combine_length; lia).
      transitivity (rsuml (map (fun b => if Req_EM_T (nth b (jm_Zcoef J) 0) 0 then 0 else 1) (seq 0 (length zerns)))).
      - apply rsuml_map_ext. intros b Hb. apply in_seq in Hb. destruct (nth_error zerns b) as [z|] eqn:Ez; [|apply nth_error_None in Ez; lia].
        rewrite rsuml_map_seq. rewrite EM. destruct (Req_EM_T (nth b (jm_Zcoef J) 0) 0) as [E|E].
        + apply rsum_zero. intros a _. now rewrite (final_inactive Nsbp perfect HN zerns (jm_Zcoef J) H1 ND b z a Ez E); cbn; destruct (Rlt_dec 0 0).
        + destruct (final_active Nsbp perfect HN zerns (jm_Zcoef J) H1 ND b z Ez E) as (v & V1 & V2 & V3 & V4). rewrite <- V2.
          apply rsum_ext. intros a _. rewrite V1. cbn. destruct (Rlt_dec 0 (v a)); auto.
          destruct (active Nsbp z a) eqn:A; [exfalso; auto|]. symmetry; auto.
      - rewrite <- LC. clear. generalize (jm_Zcoef J) as l. intros l.
        assert (G : forall l s (f : nat -> R), (forall i, (i < length l)%nat -> f (s + i)%nat = nth i l 0) ->
          rsuml (map (fun b => if Req_EM_T (f b) 0 then 0 else 1) (seq s (length l))) = INR (length (filter (fun c => if Req_EM_T c 0 then false else true) l))).
        { clear. induction l as [|c l IH]; intros s f Hf; [reflexivity|]. cbn [length seq map rsuml filter].
          assert (E0 : f s = c) by (specialize (Hf 0%nat); rewrite Nat.add_0_r in Hf; apply Hf; cbn; lia). rewrite E0.
          rewrite IH by (intros i Hi; specialize (Hf (S i)); rewrite Nat.add_succ_r in Hf; apply Hf; cbn; lia).
          destruct (Req_EM_T c 0); [ring|]. cbn [length]. rewrite S_INR. ring. }
        apply (G l 0%nat (fun b => nth b l 0)). auto.
    Qed.
  End PistonFirst.
End C26.
Print Assumptions C26_piston_required.
Print Assumptions C26_repeats_rejected.
Print Assumptions C26_accepted_iff.
Print Assumptions C26_coefficients.
Print Assumptions C26_columns_normalised.
Print Assumptions C26_modes_of_a_star.
Print Assumptions C26_mode_arrays.
Print Assumptions C26_piston_only_mode_count.
Print Assumptions C26_extra_zernike_overflows_history_refuted.
Print Assumptions C26_total_weight.

(* At most one order of a given set of modes is accepted, whenever the set's order depends only on its
   elements: other orders are reported as "repeated values". *)
Theorem C26_one_order_accepted_refuted : forall set_list Nsbp stars perfect zerns zerns' Zcoef Zcoef' J,
  enumerates set_list -> (forall a b, (forall x, In x a <-> In x b) -> set_list a = set_list b) ->
  set_jacobian_modal_weights set_list Nsbp stars perfect zerns Zcoef = Ok J ->
  (forall x, In x zerns <-> In x zerns') -> zerns' <> zerns ->
  set_jacobian_modal_weights set_list Nsbp stars perfect zerns' Zcoef' = Raise ValueError.
Proof.
  intros sl N s p zs zs' c c' J HE HP HJ Hin Hne.
  destruct (setup_inv sl HE N s p zs c J HJ) as (H1 & _ & H2 & _).
  unfold set_jacobian_modal_weights. destruct (negb (existsb (Z.eqb 1) zs')); [reflexivity|].
  unfold list_eqb. destruct (list_eq_dec Z.eq_dec zs' (sl zs')) as [E|]; [|reflexivity].
  exfalso. apply Hne. rewrite E, H2. apply HP. intros x. symmetry. apply Hin.
Qed.
Print Assumptions C26_one_order_accepted_refuted.

(* Modes 8 and 1 (CPython iterates the set {1, 8} as 8, 1): accepted, but piston ends with no weight at
   any sub-band (0/0 in its column), while mode 8 takes all sub-bands. *)
Theorem C26_piston_not_first_refuted : exists J,
  set_jacobian_modal_weights cpython_set8 3 1 false [8; 1]%Z [1; 1] = Ok J /\
  (forall a, jm_weightMat J a 1%nat = None) /\ ~ In 1%Z (jm_zern J) /\ jm_zern J = [8; 8; 8]%Z.
Proof.
  unfold set_jacobian_modal_weights. cbn [existsb Z.eqb Pos.eqb orb negb].
  unfold list_eqb. destruct (list_eq_dec Z.eq_dec [8; 1]%Z (cpython_set8 [8; 1]%Z)) as [_|H]; [|exfalso; apply H; vm_compute; reflexivity].
  cbn [negb]. unfold reset_piston. cbn [length Nat.eqb rbind combine map Z.eqb Pos.eqb].
  eexists. split; [reflexivity|]. cbn [jm_weightMat jm_zern].
  assert (N : forall a, final_mat 3 false [8; 1]%Z [1; 1] a 1%nat = None).
  { intros a. unfold final_mat. cbn [nth]. destruct (Req_EM_T 1 0); [lra|]. unfold fdiv.
    assert (R0 : forall i, raw_mat 3 false [8; 1]%Z i 1%nat = 0).
    { intros i. unfold raw_mat. cbn [mat_loop]. unfold mat_step, m_set. cbn [Z.eqb Pos.eqb Nat.eqb]. rewrite !andb_false_r. reflexivity. }
    rewrite (rsum_zero 3) by auto. destruct (Req_EM_T 0 0); [reflexivity|contradiction]. }
  split; [exact N|].
  assert (P : forall a, positive (final_mat 3 false [8; 1]%Z [1; 1] a 0%nat) = true).
  { intros a. unfold final_mat. cbn [nth]. destruct (Req_EM_T 1 0); [lra|]. unfold fdiv.
    assert (R1 : forall i, raw_mat 3 false [8; 1]%Z i 0%nat = 1) by (intros i; unfold raw_mat; cbn [mat_loop]; unfold mat_step; reflexivity).
    rewrite (rsum_ext 3 _ (fun _ => 1)) by auto. rewrite R1. cbn [rsum]. destruct (Req_EM_T (0 + 1 + 1 + 1) 0); [lra|].
    cbn [positive]. destruct (Rlt_dec 0 (1 / (0 + 1 + 1 + 1))) as [|H]; [reflexivity|]. exfalso. apply H. lra. }
  assert (E : mode_inds 3 2 (final_mat 3 false [8; 1]%Z [1; 1]) = [(0, 0); (1, 0); (2, 0)]%nat).
  { unfold mode_inds. cbn [seq list_prod map app filter]. rewrite !P, !N. reflexivity. }
  rewrite E. cbn. split; [|reflexivity]. intros [H|[H|[H|[]]]]; discriminate.
Qed.
Print Assumptions C26_piston_not_first_refuted.
(* Modes 1, 5, 2, all different: rejected as repeated. *)
Theorem C26_order_quirk_refuted : NoDup [1; 5; 2]%Z /\
  set_jacobian_modal_weights cpython_set8 3 1 false [1; 5; 2]%Z [1; 1; 1] = Raise ValueError.
Proof.
  split; [repeat constructor; cbn; lia|]. unfold set_jacobian_modal_weights. cbn [existsb Z.eqb Pos.eqb orb negb].
  unfold list_eqb. destruct (list_eq_dec Z.eq_dec [1; 5; 2]%Z (cpython_set8 [1; 5; 2]%Z)) as [H|_]; [|reflexivity].
  exfalso. vm_compute in H. discriminate.
Qed.
(* a configuration meeting the hypotheses: piston and modes 2, 3 *)
Example C26_example : In 1%Z [1; 2; 3]%Z /\ [1; 2; 3]%Z = cpython_set8 [1; 2; 3]%Z /\ nth_error [1; 2; 3]%Z 0 = Some 1%Z.
Proof. split; [cbn; auto|]. split; [vm_compute; reflexivity|reflexivity]. Qed.
