(* C79, C80, C81: wavefronts of the bundled PROPER library (falco/proper) *)
From Coquelicot Require Import Coquelicot.
From Verif Require Import Base RBase CBase PropModel PropSpec PropProofs OptModel PrpModel PrpSpec PrpProofs PrpProofs2 PrpProofs3 PrpProofs4 PrpProofs5 PrpProofs6 PrpProofs7 PrpProofs8.
Open Scope R_scope.
(* every wavefront a program can get satisfies the hypothesis coherent of the other theorems *)
Theorem C79_states po w : built po w -> coherent w.
Proof. apply built_coherent. Qed.
(* the wavefront that prop_begin makes: a plane wave of unit amplitude on n by n samples, the beam filling the fraction
   beam_diam_fraction of the grid; the pilot beam has its waist there, with the radius of the beam *)
Theorem C79_begin diam lam n frac : 0 < diam -> 0 < lam -> (1 <= n)%nat -> 0 < frac ->
  exists w, prop_begin diam lam n frac = Ok w /\ w_n w = n /\ w_lam w = lam /\ w_z w = 0 /\ w_planar w = true /\
  get_sampling w * (INR n * frac) = diam /\ get_beamradius w = diam / 2 /\ beam_q w = (0, PI * (diam / 2) ^ 2 / lam) /\
  frows (get_wavefront w) = n /\ fcols (get_wavefront w) = n /\
  forall i j, (i < n)%nat -> (j < n)%nat -> physical w i j = RtoC 1.
Proof.
  intros Hd Hl Hn Hf. assert (0 < INR n) by (apply lt_0_INR; lia). assert (0 < INR n * frac) by now apply Rmult_lt_0_compat.
  unfold prop_begin. destruct (Req_EM_T lam 0); [lra|]. destruct (Req_EM_T (INR n * frac) 0); [lra|]. eexists. split; [reflexivity|].
  cbn [w_n w_lam w_z w_planar]. do 4 (split; [reflexivity|]). split; [unfold get_sampling; cbn [w_dx]; field; lra|].
  split. { unfold get_beamradius; cbn [w_w0 w_lam w_z w_zw0]. replace (lam * (0 - 0) / (PI * (diam / 2) ^ 2)) with 0 by (unfold Rdiv; ring). replace (1 + 0 ^ 2) with 1 by ring. rewrite sqrt_1. ring. }
  split. { unfold beam_q; cbn [w_z w_zw0 w_w0 w_lam]. f_equal. ring. }
  split; [reflexivity|]. split; [reflexivity|]. intros i j Hi Hj. unfold physical. cbn [w_planar]. unfold get_wavefront, shift_center, roll2. cbn [fpx w_arr]. unfold Cmult, RtoC; cbn [fst snd]. f_equal; ring.
Qed.
(* ---- C79: the pilot beam is a Gaussian beam and a lens is a thin lens ---- *)
Lemma Cinv_invol (x y : R) : 0 < y -> Cinv (Cinv (x, y)) = (x, y).
Proof. intros H. rewrite !Cinv_pair. assert (0 < x ^ 2 + y ^ 2) by (pose proof (pow2_ge_0 x); pose proof (pow_lt y 2 H); lra).
  replace ((x / (x ^ 2 + y ^ 2)) ^ 2 + (- y / (x ^ 2 + y ^ 2)) ^ 2) with (/ (x ^ 2 + y ^ 2)) by (field; lra). f_equal; field; lra. Qed.
Lemma lens_new w f : coherent w -> f <> 0 -> (w_z w - lens_zw0 w f, lens_zr' w f) = Cinv (Cminus (Cinv (beam_q w)) (RtoC (/ f))).
Proof. intros C H. rewrite <- (lens_q_law w f C H). rewrite Cinv_invol; auto. now apply lens_zr'_pos. Qed.
Lemma lens_beam w f w' : coherent w -> prop_lens w f = Ok w' -> f <> 0 /\ coherent w' /\ beam_q w' = (w_z w - lens_zw0 w f, lens_zr' w f) /\ w_z w' = w_z w /\ w_lam w' = w_lam w.
Proof.
  intros C E. destruct (lens_ok_safe _ _ _ E) as [Hf Sf]. pose proof (lens_coherent w f w' C Hf Sf E) as C'. destruct (lens_ok w f C Hf Sf) as (F & H1 & _). rewrite H1 in E. injection E as <-. repeat (split; auto).
Qed.
Theorem C79_lens_law w f w' : coherent w -> prop_lens w f = Ok w' -> Cinv (beam_q w') = Cminus (Cinv (beam_q w)) (RtoC (/ f)) /\ w_z w' = w_z w.
Proof. intros C E. destruct (lens_beam w f w' C E) as (Hf & _ & -> & Hz & _). split; auto. now apply lens_q_law. Qed.
Theorem C79_propagation_law po w d tp w' : coherent w -> clear w d -> prop_propagate po w d tp = Ok w' -> beam_q w' = Cplus (beam_q w) (RtoC d) /\ w_z w' = w_z w + d.
Proof.
  intros C K E. destruct (propagate_ok po w d tp C K) as (v & Ev & S). rewrite Ev in E. injection E as <-. unfold beam_q. rewrite (sm_z _ _ S), (sm_zw0 _ _ S), (sm_w0 _ _ S), (sm_lam _ _ S). cbn. split; auto. unfold Cplus, RtoC; cbn. f_equal; ring.
Qed.
Lemma radius_ws w : coherent w -> get_beamradius w = lens_ws w.
Proof.
  intros C. pose proof (co_w0 w C). pose proof (co_lam w C). pose proof PI_RGT_0. unfold get_beamradius, lens_ws, lens_zr. do 3 f_equal. f_equal. field. repeat split; try lra.
Qed.
(* the beam has the same radius on both sides of the lens *)
Theorem C79_radius_continuous w f w' : coherent w -> prop_lens w f = Ok w' -> get_beamradius w' = get_beamradius w.
Proof.
  intros C E. destruct (lens_beam w f w' C E) as (Hf & C' & Q & Hz & Hl). rewrite !radius_ws by auto. destruct (ws_sq w C) as [P1 E1]. destruct (ws_sq w' C') as [P2 E2].
  pose proof (lens_q_law w f C Hf) as LW. rewrite <- Q in LW. unfold beam_q in LW. change (PI * w_w0 w' ^ 2 / w_lam w') with (lens_zr w') in LW. change (PI * w_w0 w ^ 2 / w_lam w) with (lens_zr w) in LW.
  pose proof (wave_pos w C) as Z1. pose proof (wave_pos w' C') as Z2. rewrite !Cinv_pair in LW. unfold Cminus, Copp, Cplus, RtoC in LW. cbn [fst snd] in LW. injection LW as _ LI.
  set (d := w_z w - w_zw0 w) in *. set (d' := w_z w' - w_zw0 w') in *. set (z := lens_zr w) in *. set (z' := lens_zr w') in *.
  change (d' * (d' * 1) + z' * (z' * 1)) with (d' ^ 2 + z' ^ 2) in LI. change (d * (d * 1) + z * (z * 1)) with (d ^ 2 + z ^ 2) in LI.
  assert (0 < d ^ 2 + z ^ 2) by (pose proof (pow2_ge_0 d); pose proof (pow_lt z 2 Z1); lra). assert (0 < d' ^ 2 + z' ^ 2) by (pose proof (pow2_ge_0 d'); pose proof (pow_lt z' 2 Z2); lra).
  assert (EQ : (d ^ 2 + z ^ 2) / z = (d' ^ 2 + z' ^ 2) / z').
  { assert (LI' : z' / (d' ^ 2 + z' ^ 2) = z / (d ^ 2 + z ^ 2)) by (unfold Rdiv in *; lra). rewrite <- (Rinv_div z), <- (Rinv_div z'). now rewrite LI'. }
  rewrite <- E1, <- E2, Hl in EQ. pose proof (co_lam w C). pose proof PI_RGT_0. assert (SQ : lens_ws w ^ 2 = lens_ws w' ^ 2).
  { apply (Rmult_eq_reg_l (PI / w_lam w)); [|apply Rgt_not_eq, Rdiv_lt_0_compat; auto]. unfold Rdiv in *. lra. }
  rewrite <- (sqrt_pow2 (lens_ws w')), <- (sqrt_pow2 (lens_ws w)) by lra. now rewrite SQ.
Qed.
(* whatever the two reference surfaces, the electric field is multiplied by the phase of a thin lens *)
Theorem C79_thin_lens w f w' i j : coherent w -> Nat.even (w_n w) = true -> prop_lens w f = Ok w' -> (i < w_n w)%nat -> (j < w_n w)%nat ->
  get_sampling w' = get_sampling w /\ physical w' i j = Cmult (physical w i j) (cis (- (PI * (pix w i ^ 2 + pix w j ^ 2) / (w_lam w * f)))).
Proof.
  intros C Ev E Hi Hj. destruct (lens_ok_safe _ _ _ E) as [Hf Sf]. split; [|now apply lens_physical]. destruct (lens_ok w f C Hf Sf) as (F & H1 & _). rewrite H1 in E. now injection E as <-.
Qed.
(* a lens fails exactly for a focal length 0, and when a wavefront brought to a plane outside the Rayleigh range of its waist
   (TO_PLANE) meets a lens that puts it within the Rayleigh range of the new waist; it never fails otherwise *)
Theorem C79_lens_fails w f : coherent w ->
  (prop_lens w f = Raise ZeroDivisionError <-> f = 0 \/ (f <> 0 /\ w_inside w = false /\ w_planar w = true /\ let q := Cinv (Cminus (Cinv (beam_q w)) (RtoC (/ f))) in Rabs (fst q) < snd q)) /\
  (prop_lens w f <> Raise ZeroDivisionError -> exists w', prop_lens w f = Ok w').
Proof.
  intros C. assert (KEY : f <> 0 -> (lens_inside w f = true <-> let q := Cinv (Cminus (Cinv (beam_q w)) (RtoC (/ f))) in Rabs (fst q) < snd q)).
  { intros Hf. rewrite <- (lens_new w f C Hf). cbn [fst snd]. rewrite lens_inside_true, <- Rabs_Ropp. replace (- (lens_zw0 w f - w_z w)) with (w_z w - lens_zw0 w f) by ring. tauto. }
  destruct (Req_EM_T f 0) as [E|Hf].
  - assert (X : prop_lens w f = Raise ZeroDivisionError) by (unfold prop_lens; destruct (Req_EM_T f 0); [reflexivity|lra]). split; [split; auto|]. intros N. now elim N.
  - specialize (KEY Hf). destruct (safe_dec w f) as [S|S].
    + destruct (lens_ok w f C Hf S) as (F & H1 & _). split; [|intros _; eauto]. rewrite H1. split; [discriminate|]. intros [|(_ & I & P & K)]; [tauto|]. exfalso. apply KEY in K. specialize (S I P). congruence.
    + rewrite (lens_unsafe w f Hf S). split; [|now intros N; elim N]. split; auto. intros _. right. unfold lens_safe in S. split; auto.
      destruct (w_inside w); [exfalso; apply S; discriminate|]. destruct (w_planar w); [|exfalso; apply S; discriminate]. split; [reflexivity|]. split; [reflexivity|]. apply KEY. destruct (lens_inside w f); [reflexivity|exfalso; now apply S].
Qed.
(* such a wavefront is within reach of a program: begin, lens, propagate TO_PLANE, lens *)
Theorem C79_to_plane_then_lens_fails : exists w0 w1 w2, prop_begin 2 PI 2 (1/2) = Ok w0 /\ prop_lens w0 (1/10) = Ok w1 /\ prop_propagate false w1 (5/101) true = Ok w2 /\ built false w2 /\ prop_lens w2 (- (26/505)) = Raise ZeroDivisionError.
Proof.
  pose proof PI_RGT_0 as HP. assert (B0 : exists w0, prop_begin 2 PI 2 (1/2) = Ok w0).
  { unfold prop_begin. destruct (Req_EM_T PI 0); [lra|]. destruct (Req_EM_T (INR 2 * (1/2)) 0) as [E|]; [cbn in E; lra|]. eauto. }
  destruct B0 as (w0 & E0). assert (C0 : coherent w0) by (apply (begin_coherent 2 PI 2 (1/2)); auto; lra || lia).
  assert (Q0 : beam_q w0 = (0, 1) /\ w_z w0 = 0 /\ w_inside w0 = true /\ w_planar w0 = true).
  { unfold prop_begin in E0. destruct (Req_EM_T PI 0); [lra|]. destruct (Req_EM_T (INR 2 * (1/2)) 0) as [E|]; [discriminate|]. injection E0 as <-. unfold beam_q. cbn. repeat split. f_equal; [ring|field; lra]. }
  destruct Q0 as (Q0 & Z0 & I0 & P0).
  assert (S0 : lens_safe w0 (1/10)) by (intros I; congruence). destruct (lens_ok w0 (1/10) C0) as (F & E1 & _); [lra|auto|]. 
  match type of E1 with _ = Ok ?x => set (w1 := x) in * end. destruct (lens_beam w0 (1/10) w1 C0 E1) as (_ & C1 & Q1 & Z1 & _).
  rewrite (lens_new w0 (1/10) C0) in Q1 by lra. assert (Q1' : beam_q w1 = (- (10/101), 1/101)).
  { rewrite Q1, Q0. rewrite Cinv_pair. unfold Cminus, Copp, Cplus, RtoC; cbn [fst snd]. rewrite Cinv_pair. f_equal; field. }
  assert (A1 : w_z w1 - w_zw0 w1 = - (10/101) /\ w_zray w1 = 1/101). { rewrite (co_zr w1 C1). unfold beam_q in Q1'. injection Q1' as X Y. cbn [w_w0 w1] in Y. split; [exact X|exact Y]. }
  destruct A1 as [D1 R1]. assert (I1 : w_inside w1 = false).
  { destruct (w_inside w1) eqn:I; auto. apply (co_in w1 C1) in I. rewrite R1 in I. replace (w_zw0 w1 - w_z w1) with (10/101) in I by lra. rewrite Rabs_right in I by lra. lra. }
  assert (B1 : built false w1). { apply (b_lens false w0 (1/10)); auto. apply (b_begin false 2 PI 2 (1/2)); auto; lra || lia. }
  assert (T : / 1000000000000 <= 5/101) by lra.
  assert (K : clear w1 (5/101)).
  { split; [right; rewrite Rabs_right; lra|]. split; right; [replace (w_zw0 w1 - w_z w1) with (10/101) by lra; rewrite Rabs_right; lra|]. replace (w_z w1 + 5/101 - w_zw0 w1) with (- (5/101)) by lra. rewrite Rabs_Ropp, Rabs_right; lra. }
  destruct (propagate_ok false w1 (5/101) true C1 K) as (w2 & E2 & S2). exists w0, w1, w2. do 3 (split; [assumption|]). split; [apply (b_move false w1 (5/101) true); auto|].
  assert (C2 : coherent w2) by exact (propagate_coherent false w1 (5/101) true w2 C1 K E2). destruct (C79_propagation_law false w1 (5/101) true w2 C1 K E2) as [Q2 _].
  assert (J : inside_at w1 (w_z w1 + 5/101) = false).
  { destruct (inside_at w1 (w_z w1 + 5/101)) eqn:J; auto. apply inside_true in J. rewrite R1 in J. replace (w_zw0 w1 - (w_z w1 + 5/101)) with (5/101) in J by lra. rewrite Rabs_right in J by lra. lra. }
  apply (proj1 (C79_lens_fails w2 (- (26/505)) C2)). right. split; [lra|]. rewrite (sm_in _ _ S2), (sm_pl _ _ S2). cbn [w_inside w_planar from_waist]. rewrite J. split; auto. split; auto.
  cbv zeta. rewrite Q2, Q1'. unfold Cplus, RtoC; cbn [fst snd]. rewrite Cinv_pair. unfold Cminus, Copp, Cplus; cbn [fst snd]. rewrite Cinv_pair. cbn [fst snd].
  match goal with |- Rabs ?a < ?b => replace a with 0 by field; replace b with (26/101) by field end. rewrite Rabs_R0. lra.
Qed.
(* ---- C80: propagation ---- *)
(* two propagations are one, through whatever planes and reference surfaces: all attributes and the array are the same *)
Theorem C80_compose po w d1 d2 t1 t2 : coherent w -> clear w d1 -> not_tiny d2 -> clear w (d1 + d2) ->
  exists w1 w2 w3, prop_propagate po w d1 t1 = Ok w1 /\ prop_propagate po w1 d2 t2 = Ok w2 /\ prop_propagate po w (d1 + d2) t2 = Ok w3 /\ same w2 w3.
Proof. exact (propagate_compose po w d1 d2 t1 t2). Qed.
(* going back restores the wavefront *)
Theorem C80_reverse po w d tp : coherent w -> clear w d -> w_inside w = w_planar w ->
  exists w1 w2, prop_propagate po w d tp = Ok w1 /\ prop_propagate po w1 (- d) false = Ok w2 /\ same w2 w.
Proof.
  intros C K P. destruct K as (K1 & K2 & K3). destruct (propagate_zero po w C K2 P) as (v & Ev & Sv).
  assert (N : not_tiny (- d)) by (destruct K1 as [K1|K1]; [left; lra|right; now rewrite Rabs_Ropp]).
  assert (KZ : clear w (d + - d)). { rewrite Rplus_opp_r. split; [now left|]. split; auto. destruct K2 as [K2|K2]; [left; lra|right]. rewrite <- Rabs_Ropp. replace (- (w_z w + 0 - w_zw0 w)) with (w_zw0 w - w_z w) by ring. auto. }
  destruct (propagate_compose po w d (- d) tp false C) as (w1 & w2 & w3 & E1 & E2 & E3 & S); auto; [split; auto|]. rewrite Rplus_opp_r, Ev in E3. injection E3 as <-.
  exists w1, w2. split; [exact E1|]. split; [exact E2|]. exact (same_trans _ _ _ S Sv).
Qed.
(* from the waist out of the Rayleigh range, forwards or backwards: Fresnel's diffraction sum, and the sampling is lambda |d| / (n dx) *)
Theorem C80_fresnel_from_waist po w d : coherent w -> Nat.even (w_n w) = true -> w_z w = w_zw0 w -> w_zray w <= Rabs d -> exists w', prop_propagate po w d false = Ok w' /\ w_planar w' = false /\ w_z w' = w_z w + d /\ w_n w' = w_n w /\
  get_sampling w' = w_lam w * Rabs d / (INR (w_n w) * get_sampling w) /\
  forall k l, (k < w_n w)%nat -> (l < w_n w)%nat -> amplitude w' k l = Cmult (offset po (w_lam w) d) (fresnel w d (pix w' k) (pix w' l)).
Proof. exact (fresnel_from_waist po w d). Qed.
(* and from outside to the waist *)
Theorem C80_fresnel_to_waist po w d tp : coherent w -> Nat.even (w_n w) = true -> w_planar w = false -> w_z w + d = w_zw0 w -> exists w', prop_propagate po w d tp = Ok w' /\ w_planar w' = true /\ w_z w' = w_zw0 w /\ w_n w' = w_n w /\
  get_sampling w' = w_lam w * Rabs d / (INR (w_n w) * get_sampling w) /\
  forall k l, (k < w_n w)%nat -> (l < w_n w)%nat -> amplitude w' k l = Cmult (offset po (w_lam w) d) (fresnel w d (pix w' k) (pix w' l)).
Proof. exact (fresnel_to_waist po w d tp). Qed.
(* within the Rayleigh range every plane wave exp(2 pi i (fy y + fx x)) is multiplied by exp(-i pi lambda d (fx^2 + fy^2)) *)
Theorem C80_plane_waves po w d tp a : coherent w -> Nat.even (w_n w) = true -> w_inside w = true -> Rabs (w_zw0 w - (w_z w + d)) < w_zray w -> / 1000000000000 <= Rabs d ->
  (forall i j, (i < w_n w)%nat -> (j < w_n w)%nat -> physical w i j = plane_waves w a i j) ->
  exists w', prop_propagate po w d tp = Ok w' /\ w_planar w' = true /\ w_z w' = w_z w + d /\ w_n w' = w_n w /\ get_sampling w' = get_sampling w /\
  forall i j, (i < w_n w)%nat -> (j < w_n w)%nat ->
    physical w' i j = Cmult (offset po (w_lam w) d) (plane_waves w (fun u v => Cmult (a u v) (cis (- (PI * w_lam w * d) * (freq w u ^ 2 + freq w v ^ 2)))) i j).
Proof. exact (plane_waves_ok po w d tp a). Qed.
(* steps under 1e-12 m within the Rayleigh range are lost: however many there are, neither the field nor the position changes *)
Theorem C80_tiny_steps_lost po w d k : coherent w -> w_inside w = true -> Rabs d < / 1000000000000 -> Rabs (w_zw0 w - (w_z w + d)) < w_zray w ->
  exists w', run po w (repeat (Move d false) k) = Ok w' /\ same w' w.
Proof.
  intros C I T J. exists w. split; [|apply same_refl]. induction k as [|k IH]; [reflexivity|]. cbn [repeat run do_call].
  assert (X : prop_propagate po w d false = Ok w).
  { unfold prop_propagate. apply inside_true in J. rewrite I, J. cbn [orb]. unfold prop_ptp. destruct (Rlt_dec (Rabs d) (/ 1000000000000)) as [_|N]; [|lra]. unfold set_type. rewrite <- I. now destruct w. }
  rewrite X. exact IH.
Qed.
(* ---- C81: light is neither lost nor created ---- *)
(* normalise at the entrance: the final image adds up to one if nothing absorbs, and to at most one if nothing amplifies *)
Theorem C81_intensity po w l w' : coherent w -> 0 < total_intensity (w_arr w) -> run po (prop_define_entrance w) l = Ok w' ->
  exists I, prop_end w' false = Ok (I, get_sampling w') /\ (Forall lossless l -> total I = 1) /\ (Forall passive l -> 0 <= total I <= 1).
Proof.
  intros C P E. apply coherent_sized in C. destruct (entrance_energy w C P) as [S1 E1]. destruct (run_energy po l _ _ S1 E) as (S2 & A & B). destruct (end_total w' S2) as (I & EI & TI). exists I. split; [exact EI|]. rewrite TI. split; intros H.
  - rewrite A by auto. exact E1.
  - split; [|rewrite <- E1; auto]. unfold fenergy, energy. apply rsum_nonneg. intros i _. apply rsum_nonneg. intros j _. unfold abs2. nra.
Qed.
(* propagation itself keeps the total intensity, short steps included *)
Theorem C81_propagate_conserves po w d tp w' : coherent w -> prop_propagate po w d tp = Ok w' -> total_intensity (w_arr w') = total_intensity (w_arr w).
Proof. intros C E. exact (proj1 (propagate_energy po w d tp w' (coherent_sized w C) E)). Qed.
(* non-vacuity *)
Example C80_example : exists w0 w1, prop_begin 2 PI 2 (1/2) = Ok w0 /\ built false w0 /\ w_inside w0 = w_planar w0 /\ clear w0 3 /\ prop_propagate false w0 3 false = Ok w1 /\ w_planar w1 = false /\ 0 < total_intensity (w_arr w0).
Proof.
  pose proof PI_RGT_0 as HP. assert (B0 : exists w0, prop_begin 2 PI 2 (1/2) = Ok w0).
  { unfold prop_begin. destruct (Req_EM_T PI 0); [lra|]. destruct (Req_EM_T (INR 2 * (1/2)) 0) as [E|]; [cbn in E; lra|]. eauto. }
  destruct B0 as (w0 & E0). assert (C0 : coherent w0) by (apply (begin_coherent 2 PI 2 (1/2)); auto; lra || lia).
  assert (B : built false w0) by (apply (b_begin false 2 PI 2 (1/2)); auto; lra || lia).
  unfold prop_begin in E0. destruct (Req_EM_T PI 0) as [|NP]; [lra|]. destruct (Req_EM_T (INR 2 * (1/2)) 0) as [E|NQ]; [discriminate|]. injection E0 as <-.
  match type of B with built _ ?x => set (w0 := x) in * end.
  assert (K : clear w0 3). { unfold clear. cbn [w0 w_z w_zw0]. split; [right; rewrite Rabs_right; lra|]. split; [left; ring|right]. rewrite Rabs_right; lra. }
  destruct (propagate_ok false w0 3 false C0 K) as (w1 & E1 & S1). exists w0, w1. split; [unfold prop_begin; destruct (Req_EM_T PI 0); [lra|]; destruct (Req_EM_T (INR 2 * (1/2)) 0); [contradiction|reflexivity]|].
  split; [exact B|]. split; [reflexivity|]. split; [exact K|]. split; [exact E1|]. split.
  - rewrite (sm_pl _ _ S1). cbn [w_planar from_waist]. rewrite orb_false_r. destruct (inside_at w0 (w_z w0 + 3)) eqn:J; auto. apply inside_true in J. cbn [w0 w_zw0 w_z w_zray] in J.
    replace (PI * (2 / 2 * (2 / 2 * 1)) / PI) with 1 in J by (field; lra). rewrite Rabs_left in J by lra. lra.
  - unfold total_intensity. cbn. unfold abs2, RtoC. cbn. lra.
Qed.
