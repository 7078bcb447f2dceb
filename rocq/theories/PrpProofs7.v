(* Proof support: to the waist, plane waves *)
From Verif Require Import Base RBase CBase PropModel PropSpec PropProofs OptModel VxProofs PrpModel PrpSpec PrpProofs PrpProofs2 PrpProofs3 PrpProofs5 PrpProofs6.
Open Scope R_scope.
Lemma fresnel_to_waist po w d tp : coherent w -> Nat.even (w_n w) = true -> w_planar w = false -> w_z w + d = w_zw0 w -> exists w', prop_propagate po w d tp = Ok w' /\ w_planar w' = true /\ w_z w' = w_zw0 w /\ w_n w' = w_n w /\
  get_sampling w' = w_lam w * Rabs d / (INR (w_n w) * get_sampling w) /\
  forall k l, (k < w_n w)%nat -> (l < w_n w)%nat -> amplitude w' k l = Cmult (offset po (w_lam w) d) (fresnel w d (pix w' k) (pix w' l)).
Proof.
  intros C Ev P Hz. pose proof (coherent_sized w C) as (N & S & L). pose proof (zray_pos w C) as Z. pose proof (co_dx w C) as D. pose proof (INRpos _ N) as HN. pose proof (outside_nz w C P) as Dn.
  assert (Ed : w_zw0 w - w_z w = d) by lra. rewrite Ed in Dn. pose proof (Rabs_pos_lt d Dn) as AD.
  assert (I : w_inside w = false) by (destruct (w_inside w) eqn:Q; auto; rewrite (co_pl w C Q) in P; discriminate).
  assert (J : inside_at w (w_z w + d) = true) by (apply inside_true; rewrite Hz; replace (w_zw0 w - w_zw0 w) with 0 by ring; now rewrite Rabs_R0).
  unfold prop_propagate. rewrite I, J. cbn [orb]. unfold prop_stw. cbn [w_planar set_type w_zw0 w_z w_lam w_n w_dx w_arr]. rewrite P, Ed. destruct (Req_EM_T d 0) as [|Dq]; [lra|]. cbn [rbind]. cbv zeta.
  rewrite Hz. replace (w_zw0 w - w_zw0 w) with 0 by ring. unfold prop_ptp at 1. rewrite Rabs_R0. pose proof tiny0. destruct (Rlt_dec 0 (/ 1000000000000)); [|lra].
  eexists. split; [reflexivity|]. split; [reflexivity|]. split; [reflexivity|]. split; [reflexivity|]. split; [reflexivity|].
  intros k l Hk Hl. unfold fresnel, amplitude, physical, pix, get_sampling, get_refradius, get_wavefront. cbn [w_arr moved set_type w_planar w_lam w_dx w_z w_zw0 w_n]. rewrite P.
  set (n := w_n w) in *. set (dx := w_dx w) in *. set (lam := w_lam w) in *. rewrite shift_off. set (dx' := lam * Rabs d / (INR n * dx)).
  change (if Rle_dec 0 d then pfft n (w_arr w) else pifft n (w_arr w)) with (dirft d n (w_arr w)).
  rewrite shift_qphase by (auto; now apply dirft_sq).
  rewrite (shift_feq _ _ n k l N (dirft_sq _ _ _ S) (dirft_nft d n _ N S)). rewrite nft_centred by (auto using dsg_cases).
  unfold Cdiv. rewrite Cmult_1_r. rewrite <- !Cmult_assoc. f_equal. rewrite <- csum_scal_r, <- csum_scal. apply csum_ext. intros i Hi. rewrite <- csum_scal_r, <- csum_scal. apply csum_ext. intros j Hj.
  set (e := fpx (shift_center (w_arr w)) i j).
  assert (X1 : dx' = lam * Rabs d / (INR n * dx)) by reflexivity. assert (X1p : 0 < dx') by (apply (ndx_pos n lam N L dx d); auto). clearbody dx'.
  set (yk := INR k - INR n / 2). set (xl := INR l - INR n / 2). set (yi := INR i - INR n / 2). set (xj := INR j - INR n / 2).
  assert (PH : Cmult (cis (PI * ((yi * dx) ^ 2 + (xj * dx) ^ 2) / (lam * (w_z w - w_zw0 w)))) (cis (PI * ((yk * dx' - yi * dx) ^ 2 + (xl * dx' - xj * dx) ^ 2) / (lam * d))) =
     Cmult (cis (PI / (lam * d) * ((xl * dx') ^ 2 + (yk * dx') ^ 2))) (cis (dsg d * (2 * PI) * (yk * yi + xl * xj) / INR n))).
  { rewrite <- !cis_add. f_equal. replace (w_z w - w_zw0 w) with (- d) by lra. rewrite dsg_abs by auto. rewrite X1. field. repeat split; lra. }
  set (q0 := cis (PI * ((yi * dx) ^ 2 + (xj * dx) ^ 2) / (lam * (w_z w - w_zw0 w)))) in *. set (q1 := cis (PI * ((yk * dx' - yi * dx) ^ 2 + (xl * dx' - xj * dx) ^ 2) / (lam * d))) in *.
  set (q2 := cis (PI / (lam * d) * ((xl * dx') ^ 2 + (yk * dx') ^ 2))) in *. set (q3 := cis (dsg d * (2 * PI) * (yk * yi + xl * xj) / INR n)) in *.
  rewrite <- !RtoC_inv by lra.
  assert (X2 : / INR n * / dx' = / dx * (dx ^ 2 / (lam * Rabs d))) by (rewrite X1; field; repeat split; lra).
  transitivity (Cmult e (Cmult (Cmult q2 q3) (RtoC (/ INR n * / dx')))); [rewrite RtoC_mult; ring|]. rewrite <- PH, X2, RtoC_mult. ring.
Qed.
Lemma plane_waves_ok po w d tp a : coherent w -> Nat.even (w_n w) = true -> w_inside w = true -> Rabs (w_zw0 w - (w_z w + d)) < w_zray w -> / 1000000000000 <= Rabs d ->
  (forall i j, (i < w_n w)%nat -> (j < w_n w)%nat -> physical w i j = plane_waves w a i j) ->
  exists w', prop_propagate po w d tp = Ok w' /\ w_planar w' = true /\ w_z w' = w_z w + d /\ w_n w' = w_n w /\ get_sampling w' = get_sampling w /\
  forall i j, (i < w_n w)%nat -> (j < w_n w)%nat ->
    physical w' i j = Cmult (offset po (w_lam w) d) (plane_waves w (fun u v => Cmult (a u v) (cis (- (PI * w_lam w * d) * (freq w u ^ 2 + freq w v ^ 2)))) i j).
Proof.
  intros C Ev I Hn Ht Ha. pose proof (coherent_sized w C) as (N & S & L). pose proof (co_dx w C) as D. pose proof (INRpos _ N) as HN. pose proof (co_pl w C I) as P.
  assert (J : inside_at w (w_z w + d) = true) by now apply inside_true. unfold prop_propagate. rewrite I, J. cbn [orb]. unfold prop_ptp. destruct (Rlt_dec (Rabs d) (/ 1000000000000)) as [|Tq]; [lra|].
  cbn [w_planar set_type w_zw0 w_z w_lam w_n w_dx w_arr]. rewrite P. cbn [negb]. cbv zeta. eexists. split; [reflexivity|]. do 4 (split; [reflexivity|]). intros i j Hi Hj.
  unfold physical, get_wavefront. cbn [w_arr moved set_type w_planar w_n]. rewrite Cmult_1_r, shift_off. f_equal. set (n := w_n w) in *.
  pose (A := mkf n n (fun p q => Cmult (RtoC (INR n)) (a (roll_ix n (half n) p) (roll_ix n (half n) q)))). assert (SA : sq n A) by (split; reflexivity).
  assert (TR : forall b i j, (i < n)%nat -> (j < n)%nat -> fpx (shift_center (nft 1 n (mkf n n (fun p q => Cmult (RtoC (INR n)) (b (roll_ix n (half n) p) (roll_ix n (half n) q)))))) i j = plane_waves w b i j).
  { intros b i' j' Hi' Hj'. rewrite nft_centred by (auto; split; reflexivity). unfold plane_waves. fold n. apply csum_ext. intros u Hu. apply csum_ext. intros v Hv.
    unfold shift_center at 1, roll2. cbn [fpx frows fcols]. rewrite !half_even2 by auto. unfold freq, pix, get_sampling. fold n.
    replace (2 * PI * ((INR u - INR n / 2) / (INR n * w_dx w) * ((INR i' - INR n / 2) * w_dx w) + (INR v - INR n / 2) / (INR n * w_dx w) * ((INR j' - INR n / 2) * w_dx w)))
      with (1 * (2 * PI) * ((INR i' - INR n / 2) * (INR u - INR n / 2) + (INR j' - INR n / 2) * (INR v - INR n / 2)) / INR n) by (field; lra).
    set (q := cis _). transitivity (Cmult (Cmult (RtoC (INR n)) (RtoC (/ INR n))) (Cmult (b u v) q)); [ring|]. rewrite <- RtoC_mult, Rinv_r by lra. ring. }
  assert (EA : feq (w_arr w) (nft 1 n A)).
  { destruct S as [S1 S2]. split; [rewrite S1; reflexivity|]. split; [rewrite S2; reflexivity|]. rewrite S1, S2. intros p q Hp Hq.
    assert (RP : forall p, (p < n)%nat -> exists r, (r < n)%nat /\ roll_ix n (half n) r = p) by (intros r Hr; exists (roll_ix n (half n) r); split; [apply roll_lt; lia|now apply half_even2]).
    destruct (RP p Hp) as (r & Hr & <-). destruct (RP q Hq) as (t & Ht' & <-).
    specialize (Ha r t Hr Ht'). rewrite <- (TR a r t Hr Ht') in Ha. unfold physical in Ha. rewrite P, Cmult_1_r in Ha. unfold get_wavefront, shift_center, roll2 in Ha. cbn [fpx] in Ha. rewrite S1, S2 in Ha. exact Ha. }
  set (k := ptp_factor n (w_lam w) (w_dx w) d).
  assert (X : feq (aspec k n (w_arr w)) (nft 1 n (mul_by k A))).
  { eapply feq_trans; [apply aspec_feq with (F := nft 1 n A); [auto|auto|exact EA]|]. eapply feq_trans; [apply aspec_nft; auto; now apply nft_sq|]. apply nft_feq, mul_by_feq. apply (nft_inv 1 n A); auto. }
  change (pifft n (mul_by k (pfft n (w_arr w)))) with (aspec k n (w_arr w)).
  rewrite (shift_feq _ _ n i j N (aspec_sq _ _ _ S) X). rewrite <- (TR (fun u v => Cmult (a u v) (cis (- (PI * w_lam w * d) * (freq w u ^ 2 + freq w v ^ 2)))) i j Hi Hj).
  apply (shift_feq _ _ n); [auto|apply nft_sq; split; reflexivity|]. apply nft_feq. split; [reflexivity|]. split; [reflexivity|]. intros p q _ _. cbn [fpx mul_by A]. unfold k, ptp_factor, freq, get_sampling. fold n. rewrite even_div by auto.
  rewrite (Rplus_comm (_ ^ 2)). ring.
Qed.
