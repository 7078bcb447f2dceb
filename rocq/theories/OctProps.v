(* C105: PROPER's eighth-order occulter *)
From Verif Require Import Base StrBase RBase UtilModel UtilSpec UtilProofs CBase PropModel PropProofs OptModel PrpModel PrpProofs PrpProofs5 DmSurfProofs2 EllProofs ApModel ApSpec ApProofs ApProofs2 ApProofs3 RectModel RectProofs3 OctModel OctSpec OctProofs OctProofs2.
Open Scope R_scope.

(* every pixel: the ideal intensity, from the smallest to the largest on the grid, stretched from min to max transmission *)
Theorem C105_value w hwhm tmin tmax k i0 j0 i1 j1 : sound w hwhm k -> (i0 < w_n w)%nat -> (j0 < w_n w)%nat -> (i1 < w_n w)%nat -> (j1 < w_n w)%nat -> ideal_at w hwhm k i0 j0 <> ideal_at w hwhm k i1 j1 ->
  exists m p q r s, eighth w hwhm tmin tmax k = Ok m /\ frows m = w_n w /\ fcols m = w_n w /\ largest (w_n w) (ideal_at w hwhm k) p q /\ smallest (w_n w) (ideal_at w hwhm k) r s /\
    ideal_at w hwhm k r s < ideal_at w hwhm k p q /\
    forall i j, fpx m i j = sqrt (tmin + (tmax - tmin) * ((ideal_at w hwhm k i j - ideal_at w hwhm k r s) / (ideal_at w hwhm k p q - ideal_at w hwhm k r s))).
Proof.
  intros S I0 J0 I1 J1 NE. destruct (eighth_ok w hwhm tmin tmax k ltac:(lia) S) as (m & p & q & r & s & E & M1 & M2 & G & L & V). exists m, p, q, r, s.
  do 5 (split; [assumption|]). split; [|intros i j; rewrite V; unfold rescale; f_equal; ring].
  destruct G as (_ & _ & G). destruct L as (_ & _ & L). pose proof (G i0 j0 I0 J0). pose proof (L i0 j0 I0 J0). pose proof (G i1 j1 I1 J1). pose proof (L i1 j1 I1 J1). lra.
Qed.
Print Assumptions C105_value.
Lemma away_centre n k : Nat.even n = true -> away n k (n / 2) (n / 2) = 0.
Proof.
  intros EV. apply Nat.even_spec in EV. destruct EV as [h ->]. unfold away. rewrite (Nat.mul_comm 2 h), Nat.div_mul by lia. rewrite mult_INR. simpl (INR 2).
  replace (INR h - INR h * (1 + 1) / 2) with 0 by field. cbv zeta. assert (Z : sqrt (0 * 0 + 0 * 0) = 0) by (rewrite Rmult_0_l, Rplus_0_r; apply sqrt_0). destruct (k_circ k); [exact Z|]. destruct (k_ell k) as [q|]; [replace (0 / q) with 0 by (unfold Rdiv; ring); exact Z|]. rewrite Rabs_R0. now destruct (k_yaxis k).
Qed.
Lemma away_corner n k : (1 <= n)%nat -> (k_circ k = false -> k_ell k <> Some 0) -> 0 < away n k 0 0.
Proof.
  intros N Q. assert (P : 0 < INR n) by (apply lt_0_INR; lia). unfold away. cbv zeta. change (INR 0) with 0. set (x := 0 - INR n / 2). assert (X : x < 0) by (unfold x; lra).
  assert (A : 0 < Rabs x) by (unfold Rabs; destruct (Rcase_abs x); lra). destruct (k_circ k); [apply sqrt_lt_R0; nra|]. destruct (k_ell k) as [q|]; [|now destruct (k_yaxis k)].
  apply sqrt_lt_R0. pose proof (Rle_0_sqr (x / q)) as B. unfold Rsqr in B. nra.
Qed.
Lemma rho_nz w hwhm k i j : sound w hwhm k -> (away (w_n w) k i j <> 0 <-> rho_at w hwhm k i j <> 0).
Proof.
  intros S. destruct (width_ok w hwhm k S) as (_ & _ & W & _). destruct S as (D & _). unfold rho_at. split; intros N Z; apply N.
  - apply Rmult_eq_reg_r with (w_dx w / half_width w hwhm k); [rewrite Rmult_0_l; unfold Rdiv in *; lra|]. pose proof (Rdiv_lt_0_compat _ _ D W). lra.
  - rewrite Z. unfold Rdiv. ring.
Qed.
Lemma even_facts w hwhm k : sound w hwhm k -> (2 <= w_n w)%nat -> Nat.even (w_n w) = true ->
  ideal_at w hwhm k (w_n w / 2) (w_n w / 2) = 0 /\ 0 < ideal_at w hwhm k 0 0.
Proof.
  intros S N EV. split.
  - unfold ideal_at, rho_at. rewrite away_centre by exact EV. unfold Rdiv. rewrite !Rmult_0_l, ideal_0. ring.
  - assert (P : 0 < ideal (rho_at w hwhm k 0 0)); [|unfold ideal_at; nra]. apply ideal_pos. apply rho_nz; [exact S|]. destruct S as (_ & _ & _ & Q). pose proof (away_corner (w_n w) k ltac:(lia) Q). lra.
Qed.
(* even grids: the smallest is that of the middle, 0 *)
Theorem C105_even w hwhm tmin tmax k : sound w hwhm k -> (2 <= w_n w)%nat -> Nat.even (w_n w) = true ->
  exists m p q, eighth w hwhm tmin tmax k = Ok m /\ frows m = w_n w /\ fcols m = w_n w /\ largest (w_n w) (ideal_at w hwhm k) p q /\ 0 < ideal_at w hwhm k p q /\
    forall i j, fpx m i j = sqrt (tmin + (tmax - tmin) * (ideal_at w hwhm k i j / ideal_at w hwhm k p q)).
Proof.
  intros S N EV. destruct (even_facts w hwhm k S N EV) as [Z P]. assert (H2 : (w_n w / 2 < w_n w)%nat) by (apply Nat.div_lt; lia).
  destruct (C105_value w hwhm tmin tmax k (w_n w / 2) (w_n w / 2) 0 0 S H2 H2 ltac:(lia) ltac:(lia) ltac:(lra)) as (m & p & q & r & s & E & M1 & M2 & G & L & LT & V).
  assert (L0 : ideal_at w hwhm k r s = 0). { destruct L as (_ & _ & L). pose proof (L _ _ H2 H2) as B. rewrite Z in B. assert (0 <= ideal_at w hwhm k r s) by (unfold ideal_at; pose proof (ideal_nn (rho_at w hwhm k r s)); nra). lra. }
  exists m, p, q. do 4 (split; [assumption|]). split; [lra|]. intros i j. rewrite V, L0, !Rminus_0_r. reflexivity.
Qed.
Print Assumptions C105_even.
(* ... there and only there is the transmission the smallest asked for: a line of pixels, or one pixel *)
Theorem C105_centre w hwhm tmin tmax k m i j : sound w hwhm k -> (2 <= w_n w)%nat -> Nat.even (w_n w) = true -> 0 <= tmin < tmax -> eighth w hwhm tmin tmax k = Ok m -> (i < w_n w)%nat -> (j < w_n w)%nat ->
  (fpx m i j = sqrt tmin <-> if k_circ k then i = (w_n w / 2)%nat /\ j = (w_n w / 2)%nat else match k_ell k with Some _ => i = (w_n w / 2)%nat /\ j = (w_n w / 2)%nat | None => (if k_yaxis k then i else j) = (w_n w / 2)%nat end).
Proof.
  intros S N EV T E Hi Hj. destruct (C105_even w hwhm tmin tmax k S N EV) as (m' & p & q & E' & _ & _ & G & P & V). rewrite E in E'. injection E' as <-. rewrite V.
  assert (I0 : 0 <= ideal_at w hwhm k i j) by (unfold ideal_at; pose proof (ideal_nn (rho_at w hwhm k i j)); nra).
  assert (Q0 : 0 <= (tmax - tmin) * (ideal_at w hwhm k i j / ideal_at w hwhm k p q)) by (apply Rmult_le_pos; [lra|]; apply Rmult_le_pos; [lra|]; left; now apply Rinv_0_lt_compat).
  transitivity (away (w_n w) k i j = 0).
  - split.
    + intros B. apply sqrt_inj in B; [|lra|lra]. destruct (Req_dec (away (w_n w) k i j) 0) as [|NZ]; [assumption|]. apply (rho_nz w hwhm k i j S) in NZ. pose proof (ideal_pos _ NZ) as IP.
      assert (0 < (tmax - tmin) * (ideal_at w hwhm k i j / ideal_at w hwhm k p q)); [|lra]. apply Rmult_lt_0_compat; [lra|]. apply Rdiv_lt_0_compat; [unfold ideal_at; nra|exact P].
    + intros B. f_equal. unfold ideal_at at 1, rho_at. rewrite B. unfold Rdiv. rewrite !Rmult_0_l, ideal_0. ring.
  - clear - EV Hi Hj S. destruct S as (_ & _ & _ & Q). apply Nat.even_spec in EV. destruct EV as [h EV]. rewrite EV. rewrite (Nat.mul_comm 2 h), Nat.div_mul by lia.
    assert (X : forall i, INR i - INR (h * 2) / 2 = 0 <-> i = h). { intros t. rewrite mult_INR. simpl (INR 2). split; [intros Z; apply INR_eq; lra|intros ->; field]. }
    unfold away. cbv zeta. pose proof (X i) as XI. pose proof (X j) as XJ. set (x := INR j - _ / 2) in *. set (y := INR i - _ / 2) in *. clear X.
    assert (SQ : forall a b, sqrt (a * a + b * b) = 0 <-> b = 0 /\ a = 0).
    { intros a b. split; [|intros [-> ->]; rewrite !Rmult_0_l, Rplus_0_r; apply sqrt_0]. intros Z. apply sqrt_eq_0 in Z; [|pose proof (Rle_0_sqr a); pose proof (Rle_0_sqr b); unfold Rsqr in *; lra]. split; nra. }
    destruct (k_circ k); [rewrite SQ; tauto|]. destruct (k_ell k) as [e|].
    + rewrite SQ. assert (NE : e <> 0) by (intros ->; now apply Q). assert (YE : y / e = 0 <-> y = 0). { split; [|intros ->; unfold Rdiv; ring]. intros A. apply Rmult_eq_reg_r with (/ e); [unfold Rdiv in A; lra|now apply Rinv_neq_0_compat]. } tauto.
    + assert (AB : forall a, Rabs a = 0 <-> a = 0) by (intros a; unfold Rabs; destruct (Rcase_abs a); lra). destruct (k_yaxis k); rewrite AB; assumption.
Qed.
Print Assumptions C105_centre.
(* eighth order: on even grids that reach one half width, the intensity grows from min by at most 1000 times the eighth power of the distance in half widths *)
Theorem C105_eighth_order w hwhm tmin tmax k i1 j1 m i j : sound w hwhm k -> (2 <= w_n w)%nat -> Nat.even (w_n w) = true -> 0 <= tmin <= tmax -> (i1 < w_n w)%nat -> (j1 < w_n w)%nat -> 1 <= rho_at w hwhm k i1 j1 ->
  eighth w hwhm tmin tmax k = Ok m -> tmin <= fpx m i j ^ 2 <= tmin + (tmax - tmin) * (1000 * rho_at w hwhm k i j ^ 8).
Proof.
  intros S N EV T I1 J1 R1 E. destruct (C105_even w hwhm tmin tmax k S N EV) as (m' & p & q & E' & _ & _ & (_ & _ & G) & P & V). rewrite E in E'. injection E' as <-. rewrite V.
  assert (I0 : 0 <= ideal_at w hwhm k i j) by (unfold ideal_at; pose proof (ideal_nn (rho_at w hwhm k i j)); nra).
  assert (Q0 : 0 <= ideal_at w hwhm k i j / ideal_at w hwhm k p q) by (apply Rmult_le_pos; [lra|]; left; now apply Rinv_0_lt_compat).
  assert (Q1 : 0 <= (tmax - tmin) * (ideal_at w hwhm k i j / ideal_at w hwhm k p q)) by (apply Rmult_le_pos; lra).
  rewrite <- Rsqr_pow2, Rsqr_sqrt by lra. split; [lra|]. apply Rplus_le_compat_l. apply Rmult_le_compat_l; [lra|].
  pose proof (G i1 j1 I1 J1) as B. pose proof (ideal_far _ R1) as F. unfold ideal_at in B at 1. assert (B2 : 16 / 625 <= ideal_at w hwhm k p q) by nra.
  apply div_le; [exact P|]. pose proof (ideal_up (rho_at w hwhm k i j)) as U. fold (ideal_at w hwhm k i j) in U. set (x := rho_at w hwhm k i j ^ 8) in *. assert (X : 0 <= x) by lra.
  assert (1000 * x * (16 / 625) <= 1000 * x * ideal_at w hwhm k p q) by (apply Rmult_le_compat_l; lra). lra.
Qed.
Print Assumptions C105_eighth_order.
(* between the roots of the two transmissions, both of which are reached *)
Theorem C105_range w hwhm tmin tmax k i0 j0 i1 j1 : sound w hwhm k -> (i0 < w_n w)%nat -> (j0 < w_n w)%nat -> (i1 < w_n w)%nat -> (j1 < w_n w)%nat -> ideal_at w hwhm k i0 j0 <> ideal_at w hwhm k i1 j1 -> 0 <= tmin <= tmax ->
  exists m p q r s, eighth w hwhm tmin tmax k = Ok m /\ (p < w_n w)%nat /\ (q < w_n w)%nat /\ (r < w_n w)%nat /\ (s < w_n w)%nat /\ fpx m p q = sqrt tmax /\ fpx m r s = sqrt tmin /\
    forall i j, (i < w_n w)%nat -> (j < w_n w)%nat -> sqrt tmin <= fpx m i j <= sqrt tmax.
Proof.
  intros S I0 J0 I1 J1 NE T. destruct (C105_value w hwhm tmin tmax k i0 j0 i1 j1 S I0 J0 I1 J1 NE) as (m & p & q & r & s & E & _ & _ & (P1 & Q1 & G) & (R1 & S1 & L) & LT & V).
  exists m, p, q, r, s. do 5 (split; [assumption|]). set (lo := ideal_at w hwhm k r s) in *. set (hi := ideal_at w hwhm k p q) in *. rewrite !V. fold lo hi. split; [|split].
  - f_equal. field. lra.
  - f_equal. replace (lo - lo) with 0 by ring. unfold Rdiv. rewrite Rmult_0_l. ring.
  - intros i j Hi Hj. rewrite V. fold lo hi. pose proof (G i j Hi Hj) as A. pose proof (L i j Hi Hj) as B. set (v := ideal_at w hwhm k i j) in *.
    assert (X0 : 0 <= (v - lo) / (hi - lo)) by (apply le_div; lra). assert (X1 : (v - lo) / (hi - lo) <= 1) by (apply div_le; lra). split; apply sqrt_le_1_alt; nra.
Qed.
Print Assumptions C105_range.
(* the mask returned is the one the wavefront is multiplied by *)
Theorem C105_applied w hwhm tmin tmax k : sound w hwhm k -> square_w w -> (2 <= w_n w)%nat -> Nat.even (w_n w) = true ->
  exists m w', prop_8th_order_mask w hwhm tmin tmax k = Ok (m, w') /\ eighth w hwhm tmin tmax k = Ok m /\ square_w w' /\ w' = set_arr w (w_arr w') /\
    forall i j, (i < w_n w)%nat -> (j < w_n w)%nat -> centred w' i j = Cmult (centred w i j) (RtoC (fpx m i j)).
Proof.
  intros S SQ N EV. destruct (C105_even w hwhm tmin tmax k S N EV) as (m & p & q & E & M1 & M2 & _). destruct (times_ok w m SQ M1 M2) as (F & T & T1 & T2 & TV).
  exists m, (set_arr w F). unfold prop_8th_order_mask. rewrite E. cbn [rbind]. rewrite T. cbn [rbind]. split; [reflexivity|]. split; [reflexivity|]. split; [split; auto|]. split; [reflexivity|]. destruct SQ as [S1 S2].
  intros i j Hi Hj. unfold centred. cbn [shift_center roll2 set_arr w_arr frows fcols fpx]. rewrite T1, T2, S1, S2. rewrite TV by (apply roll_lt; lia). rewrite !roll_twice_even by auto. reflexivity.
Qed.
Print Assumptions C105_applied.
(* METERS: the same mask for the same half width *)
Theorem C105_meters w h tmin tmax circ ell y : w_fratio w * w_lam w <> 0 ->
  prop_8th_order_mask w (h * (w_fratio w * w_lam w)) tmin tmax (mkok true circ ell y) = prop_8th_order_mask w h tmin tmax (mkok false circ ell y).
Proof.
  intros N. unfold prop_8th_order_mask, eighth, width_e. cbn [k_meters k_circ k_ell k_yaxis]. destruct (Req_EM_T (w_fratio w * w_lam w) 0) as [Z|_]; [contradiction|]. cbv zeta.
  replace (h * (w_fratio w * w_lam w) / (w_fratio w * w_lam w)) with h by (field; split; intros Z; apply N; rewrite Z; ring). reflexivity.
Qed.
Print Assumptions C105_meters.
(* Y_AXIS: the transpose; circular masks are their own transposes and mirror images about the middle, whatever the other keywords *)
Theorem C105_yaxis w hwhm tmin tmax mt m : eighth w hwhm tmin tmax (mkok mt false None false) = Ok m -> exists m', eighth w hwhm tmin tmax (mkok mt false None true) = Ok m' /\ forall i j, fpx m' i j = fpx m j i.
Proof.
  unfold eighth. cbn [k_meters k_circ k_ell k_yaxis]. destruct (width_e w hwhm mt) as [e|]; cbn [rbind]; [|discriminate]. cbv zeta. destruct (Req_EM_T _ 0); [discriminate|]. destruct (w_n w =? 0)%nat; [discriminate|].
  intros E. injection E as <-. eexists. split; [reflexivity|]. intros i j. reflexivity.
Qed.
Print Assumptions C105_yaxis.
Theorem C105_round w hwhm tmin tmax mt ell y m : sound w hwhm (mkok mt true ell y) -> (1 <= w_n w)%nat -> eighth w hwhm tmin tmax (mkok mt true ell y) = Ok m ->
  (forall i j, fpx m i j = fpx m j i) /\ forall i j, (1 <= i <= w_n w)%nat -> fpx m i j = fpx m (w_n w - i)%nat j.
Proof.
  intros S N E. destruct (eighth_ok w hwhm tmin tmax _ N S) as (m' & p & q & r & s & E' & _ & _ & _ & _ & V). rewrite E in E'. injection E' as <-.
  assert (X : forall i j i' j', away (w_n w) (mkok mt true ell y) i j = away (w_n w) (mkok mt true ell y) i' j' -> fpx m i j = fpx m i' j').
  { intros i j i' j' A. rewrite !V. f_equal. unfold ideal_at, rho_at. now rewrite A. }
  split; intros i j; [|intros Hi]; apply X; unfold away; cbn [k_circ]; cbv zeta; f_equal; [ring|]. rewrite minus_INR by lia. field.
Qed.
Print Assumptions C105_round.
(* refuted: hwhm is where the transmission is one half.  It is where the grid ends that matters: on two pixels it is max *)
Theorem C105_half_width_refuted w hwhm tmin tmax : let k := mkok true false None false in sound w hwhm k -> w_n w = 2%nat -> w_dx w = hwhm -> 0 <= tmin < tmax ->
  exists m, eighth w hwhm tmin tmax k = Ok m /\ rho_at w hwhm k 0 0 = 1 /\ fpx m 0 0 ^ 2 = tmax /\ (tmin = 0 -> tmax = 1 -> fpx m 0 0 ^ 2 <> 1 / 2).
Proof.
  intros k S N D T. destruct (C105_even w hwhm tmin tmax k S) as (m & p & q & E & _ & _ & (P & Q & G) & POS & V); [lia|now rewrite N|]. exists m. split; [exact E|].
  assert (HW : half_width w hwhm k = hwhm) by reflexivity. assert (H0 : 0 < hwhm) by apply S.
  assert (A : forall i, away (w_n w) k i 0 = 1). { intros i. unfold away. cbn. rewrite N. simpl (INR 2). replace (0 - (1 + 1) / 2) with (- 1) by field. unfold Rabs. destruct (Rcase_abs (-1)); lra. }
  assert (A1 : forall i, away (w_n w) k i 1 = 0). { intros i. unfold away. cbn. rewrite N. simpl (INR 2). replace (1 - (1 + 1) / 2) with 0 by field. apply Rabs_R0. }
  assert (R0 : forall i, rho_at w hwhm k i 0 = 1). { intros i. unfold rho_at. rewrite A, HW, D. field. lra. }
  split; [apply R0|]. assert (q = 0)%nat as ->. { destruct q as [|[|]]; [reflexivity| |lia]. exfalso. unfold ideal_at, rho_at in POS. rewrite A1 in POS. unfold Rdiv in POS. rewrite !Rmult_0_l, ideal_0 in POS. lra. }
  assert (EQ : ideal_at w hwhm k 0 0 = ideal_at w hwhm k p 0) by (unfold ideal_at; now rewrite !R0).
  assert (F : fpx m 0 0 ^ 2 = tmax). { rewrite V, EQ. replace (ideal_at w hwhm k p 0 / ideal_at w hwhm k p 0) with 1 by (field; lra). replace (tmin + (tmax - tmin) * 1) with tmax by ring. rewrite <- Rsqr_pow2. apply Rsqr_sqrt. lra. }
  split; [exact F|]. intros. lra.
Qed.
Print Assumptions C105_half_width_refuted.
(* refuted: centred on pixel n // 2.  On grids of odd size no pixel is at the centre of the mask: it is mirrored about the line between the pixels n // 2 and n // 2 + 1 *)
Theorem C105_odd_refuted w hwhm tmin tmax mt : let k := mkok mt false None false in sound w hwhm k -> Nat.odd (w_n w) = true ->
  exists m, eighth w hwhm tmin tmax k = Ok m /\ (forall i j, (1 <= j <= w_n w)%nat -> fpx m i (w_n w - j) = fpx m i j) /\ (w_n w - w_n w / 2 = w_n w / 2 + 1)%nat /\
    forall i j, w_dx w / 2 / half_width w hwhm k <= rho_at w hwhm k i j.
Proof.
  intros k S O. assert (N : (1 <= w_n w)%nat) by (destruct (w_n w); [discriminate|lia]). destruct (eighth_ok w hwhm tmin tmax k N S) as (m & p & q & r & s & E & _ & _ & _ & _ & V). exists m. split; [exact E|].
  destruct (width_ok w hwhm k S) as (_ & _ & W & _). apply Nat.odd_spec in O. destruct O as [h O]. assert (D : (w_n w / 2 = h)%nat) by (rewrite O, Nat.mul_comm, Nat.div_add_l by lia; simpl; lia). split; [|split; [lia|]].
  - intros i j Hj. rewrite !V. f_equal. unfold ideal_at, rho_at. replace (away (w_n w) k i (w_n w - j)) with (away (w_n w) k i j); [reflexivity|]. unfold away. cbn [k k_circ k_ell k_yaxis]. cbv zeta. rewrite minus_INR by lia. rewrite <- Rabs_Ropp. f_equal. field.
  - intros i j. unfold rho_at. apply Rmult_le_compat_r; [left; now apply Rinv_0_lt_compat|]. assert (DX : 0 < w_dx w) by apply S. assert (1 / 2 <= away (w_n w) k i j); [|nra].
    unfold away. cbn [k k_circ k_ell k_yaxis]. cbv zeta. rewrite O, plus_INR, mult_INR. simpl (INR 2). simpl (INR 1). destruct (Nat.le_gt_cases j h) as [L|L].
    + apply le_INR in L. rewrite <- Rabs_Ropp. eapply Rle_trans; [|apply Rle_abs]. lra.
    + assert (L' : (h + 1 <= j)%nat) by lia. apply le_INR in L'. rewrite plus_INR in L'. simpl (INR 1) in L'. eapply Rle_trans; [|apply Rle_abs]. lra.
Qed.
Print Assumptions C105_odd_refuted.
(* the errors: no width, no focal ratio, an ellipse of no height, an empty grid *)
Theorem C105_errors w hwhm tmin tmax k :
  (hwhm = 0 -> eighth w hwhm tmin tmax k = Raise ZeroDivisionError) /\ (w_fratio w * w_lam w = 0 -> eighth w hwhm tmin tmax k = Raise ZeroDivisionError) /\
  (sound w hwhm (mkok (k_meters k) true None false) -> k_circ k = false -> k_ell k = Some 0 -> (1 <= w_n w)%nat -> eighth w hwhm tmin tmax k = Raise ZeroDivisionError) /\
  (sound w hwhm k -> w_n w = 0%nat -> eighth w hwhm tmin tmax k = Raise ValueError).
Proof.
  split; [|split; [|split]].
  - intros ->. unfold eighth, width_e. destruct (Req_EM_T 0 0); [|lra]. destruct (k_meters k); [|reflexivity]. destruct (Req_EM_T (w_fratio w * w_lam w) 0); [reflexivity|]. cbv zeta. unfold Rdiv. rewrite Rmult_0_l. destruct (Req_EM_T 0 0); [reflexivity|lra].
  - intros Z. unfold eighth, width_e. rewrite Z. destruct (Req_EM_T 0 0); [|lra]. destruct (k_meters k); [reflexivity|]. destruct (Req_EM_T hwhm 0); reflexivity.
  - intros S C L N. destruct (width_ok w hwhm _ S) as (e & E & _). cbn [k_meters] in E. unfold eighth. rewrite E. cbn [rbind]. cbv zeta. destruct S as (_ & FL & _). destruct (Req_EM_T _ 0); [reflexivity|]. destruct (Nat.eqb_spec (w_n w) 0); [lia|]. rewrite C, L. destruct (Req_EM_T 0 0); [reflexivity|lra].
  - intros S N. destruct (width_ok w hwhm k S) as (e & E & _). unfold eighth. rewrite E. cbn [rbind]. cbv zeta. destruct S as (_ & FL & _). destruct (Req_EM_T _ 0); [lra|]. rewrite N. reflexivity.
Qed.
Print Assumptions C105_errors.
(* a case: 8 x 8 pixels of half a half width, transmissions from 1/4 to 1: 1/2 in the middle, and the bound applies *)
Theorem C105_example : exists w m, let k := mkok true true None false in w_n w = 8%nat /\ square_w w /\ sound w 2 k /\ 1 <= rho_at w 2 k 0 0 /\ eighth w 2 (1 / 4) 1 k = Ok m /\ fpx m 4 4 = 1 / 2 /\ rho_at w 2 k 4 5 = 1 / 2 /\ 1 / 2 < fpx m 4 5.
Proof.
  set (w := mkw (mkf 8 8 (fun _ _ => RtoC 1)) 1 1 true true 0 0 0 0 1 8). set (k := mkok true true None false).
  assert (S : sound w 2 k) by (unfold sound; cbn; repeat split; try lra; discriminate). destruct (C105_even w 2 (1 / 4) 1 k S ltac:(cbn; lia) eq_refl) as (m & p & q & E & _).
  exists w, m. cbv zeta. fold k. split; [reflexivity|]. split; [split; reflexivity|]. split; [exact S|].
  assert (N8 : INR 8 / 2 = 4) by (simpl; field). assert (R : forall i j, rho_at w 2 k i j = sqrt ((INR j - 4) * (INR j - 4) + (INR i - 4) * (INR i - 4)) / 2) by (intros i j; unfold rho_at, away, half_width; cbn [k_meters k_circ k w w_n w_dx]; rewrite N8; field).
  split; [|split; [exact E|]].
  - rewrite R. simpl (INR 0). assert (4 <= sqrt ((0 - 4) * (0 - 4) + (0 - 4) * (0 - 4))); [|lra]. rewrite <- (sqrt_square 4) at 1 by lra. apply sqrt_le_1_alt. lra.
  - pose proof (C105_centre w 2 (1 / 4) 1 k m 4 4 S ltac:(cbn; lia) eq_refl ltac:(lra) E ltac:(cbn; lia) ltac:(cbn; lia)) as [_ C4]. pose proof (C105_centre w 2 (1 / 4) 1 k m 4 5 S ltac:(cbn; lia) eq_refl ltac:(lra) E ltac:(cbn; lia) ltac:(cbn; lia)) as [C5 _].
    assert (S4 : sqrt (1 / 4) = 1 / 2) by (replace (1 / 4) with (1 / 2 * (1 / 2)) by field; apply sqrt_square; lra). rewrite S4 in *. split; [apply C4; cbn; auto|]. split.
    + rewrite R. simpl (INR 5). simpl (INR 4). replace ((1 + 1 + 1 + 1 + 1 - 4) * (1 + 1 + 1 + 1 + 1 - 4) + (1 + 1 + 1 + 1 - 4) * (1 + 1 + 1 + 1 - 4)) with (1 * 1) by ring. rewrite sqrt_square by lra. reflexivity.
    + destruct (eighth_ok w 2 (1 / 4) 1 k ltac:(cbn; lia) S) as (m' & p' & q' & r & s & E' & _). assert (NZ : fpx m 4 5 <> 1 / 2) by (intros Z; apply C5 in Z; cbn in Z; lia).
      destruct (even_facts w 2 k S ltac:(cbn; lia) eq_refl) as [Z0 P0].
      destruct (C105_range w 2 (1 / 4) 1 k 4 4 0 0 S ltac:(cbn; lia) ltac:(cbn; lia) ltac:(cbn; lia) ltac:(cbn; lia) ltac:(cbn [w w_n] in Z0; change (8 / 2)%nat with 4%nat in Z0; lra) ltac:(lra)) as (m2 & _ & _ & _ & _ & E2 & _ & _ & _ & _ & _ & _ & B). rewrite E in E2. injection E2 as <-. pose proof (B 4%nat 5%nat ltac:(cbn; lia) ltac:(cbn; lia)) as B'. rewrite S4 in B'. lra.
Qed.
Print Assumptions C105_example.
