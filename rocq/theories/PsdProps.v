(* C100: error maps from power spectral densities *)
From Verif Require Import Base StrBase RBase CtrlModel UtilModel DmSurfModel CubModel DmcModel CBase PropModel PropProofs OptModel PrpModel PrpSpec PrpProofs PrpProofs5 ThpProofs ErrModel ErrSpec ErrProofs ErrProofs2 ErrProps PsdModel PsdSpec PsdProofs PsdProofs2 PsdProofs3 PsdProofs4.
Open Scope R_scope.

(* a new map has the RMS about its mean that the documented density gives, whatever the random numbers, MAX_FREQUENCY or not; amp with RMS or AMPLITUDE *)
Theorem C100_rms ip w amp b c k u file : square_wf w -> (1 <= w_n w)%nat -> 0 < w_dx w -> 0 <= amp -> 0 < b -> upright k -> fresh file ->
  exists m w' o, prop_psd_errormap ip w amp b c k u file = Ok (m, w', o) /\ frows m = w_n w /\ fcols m = w_n w /\
    (~ uniform (w_n w) (fpx m) -> rms_about_mean (w_n w) (fpx m)
       (match p_rms k, p_amp k with false, None => sqrt (sum2 (w_n w) (density_at (w_n w) (1 / (INR (w_n w) * w_dx w)) (p_tpf k) amp b c)) / (INR (w_n w) * w_dx w) | _, _ => amp end)).
Proof.
  intros S N D A B U F. destruct (finish ip w amp b c k u file _ S N (fresh_source ip w amp b c k u file F) eq_refl eq_refl) as (m & w' & o & a & E & M1 & M2 & _ & _ & V & _).
  exists m, w', o. split; [exact E|]. split; [exact M1|]. split; [exact M2|]. intros NU.
  destruct (rms_new (w_n w) (w_dx w) amp b c k u a (half (w_n w)) (fpx m) N (target_pos _ _ _ b c k D N A) V NU) as [R _].
  unfold target in R. destruct (p_rms k), (p_amp k); try exact R.
  rewrite (sum2_ext (w_n w) _ (density_at (w_n w) (1 / (INR (w_n w) * w_dx w)) (p_tpf k) amp b c)) in R.
  - replace (sqrt _ * (1 / (INR (w_n w) * w_dx w))) with (sqrt (sum2 (w_n w) (density_at (w_n w) (1 / (INR (w_n w) * w_dx w)) (p_tpf k) amp b c)) / (INR (w_n w) * w_dx w)) in R by (unfold Rdiv; ring). exact R.
  - intros i j _ _. apply psd_upright; [|exact B|exact U]. apply Rdiv_lt_0_compat; [lra|]. apply Rmult_lt_0_compat; [apply lt_0_INR; lia|exact D].
Qed.
(* grids of even size: the components of a new map are those of the density, the random phases and the opposite frequency; the same factor everywhere *)
Theorem C100_spectrum ip w amp b c k u file : square_wf w -> (1 <= w_n w)%nat -> Nat.even (w_n w) = true -> 0 < w_dx w -> 0 <= amp -> 0 < b -> upright k -> fresh file -> p_amp k = None -> p_maxf k = None ->
  exists m w' o, prop_psd_errormap ip w amp b c k u file = Ok (m, w', o) /\
    (~ uniform (w_n w) (fpx m) -> exists g, 0 <= g /\ forall p q, (p < w_n w)%nat -> (q < w_n w)%nat ->
      let S p q := Cmult (RtoC (sqrt (density_at (w_n w) (1 / (INR (w_n w) * w_dx w)) (p_tpf k) amp b c p q))) (cis (2 * PI * u p q - PI)) in
      component (w_n w) (fpx m) p q = Cmult (RtoC g) (Cplus (S p q) (Cconj (S (opposite (w_n w) p) (opposite (w_n w) q))))).
Proof.
  intros S N EV D A B U F PA PM. destruct (finish ip w amp b c k u file _ S N (fresh_source ip w amp b c k u file F) eq_refl eq_refl) as (m & w' & o & a & E & _ & _ & _ & _ & V & HA & _).
  exists m, w', o. split; [exact E|]. intros NU. rewrite PA in HA. subst a.
  pose proof (target_pos (w_n w) (w_dx w) amp b c k D N A) as T. destruct (rms_new (w_n w) (w_dx w) amp b c k u 0 (half (w_n w)) (fpx m) N T V NU) as [_ SD].
  set (n := w_n w) in *. set (s := w_dx w) in *. assert (NS : 0 < INR n * s) by (apply Rmult_lt_0_compat; [apply lt_0_INR; lia|exact D]).
  exists (target n s amp b c k / np_std n (raw_map n s amp b c k u) / (2 * (INR n * s) ^ 2) * (INR n * s)).
  assert (SP : 0 < np_std n (raw_map n s amp b c k u)) by (destruct (std_rms n (raw_map n s amp b c k u) N) as [P _]; lra). split.
  - apply Rmult_le_pos; [|lra]. apply Rmult_le_pos; [apply Rmult_le_pos; [exact T|left; now apply Rinv_0_lt_compat]|]. left. apply Rinv_0_lt_compat. nra.
  - intros p q P Q. cbv zeta. rewrite (component_map n s amp b c k u (fpx m) p q EV N) by (try assumption; try lra; intros i j Hi Hj; rewrite V by assumption; ring).
    assert (X : forall p q, fpx (spectrum n (1 / (INR n * s)) amp b c k u) p q = Cmult (RtoC (INR n * s)) (Cmult (RtoC (sqrt (density_at n (1 / (INR n * s)) (p_tpf k) amp b c p q))) (cis (2 * PI * u p q - PI)))).
    { intros p' q'. unfold spectrum. cbn [fpx]. unfold cutoff. rewrite PM, Rmult_1_r. rewrite (psd_upright n _ amp b c k p' q') by (try assumption; apply Rdiv_lt_0_compat; lra).
      replace (sqrt _ / (1 / (INR n * s))) with (INR n * s * sqrt (density_at n (1 / (INR n * s)) (p_tpf k) amp b c p' q')) by (field; split; [lra|apply not_0_INR; lia]). rewrite RtoC_mult. ring. }
    assert (CR : forall x, Cconj (RtoC x) = RtoC x) by (intros; unfold Cconj, RtoC; cbn; f_equal; ring).
    rewrite !X, (Cconj_mult (RtoC (INR n * s))), (CR (INR n * s)). rewrite (RtoC_mult _ (INR n * s)). ring.
Qed.

Lemma kpsd_turned n dk rot inc i j : kpsd n dk (rot * PI / 180) (inc * PI / 180) i j = turned_frequency n dk rot inc i j.
Proof. unfold kpsd, turned_frequency, yk, xk. cbv zeta. rewrite !off_R, !cos_neg, !sin_neg. f_equal. f_equal. ring. Qed.
Lemma turned_pos n dk rot inc i j : 0 < dk -> cos (rot * PI / 180) <> 0 -> cos (inc * PI / 180) <> 0 -> ~ (i = n / 2 /\ j = n / 2)%nat -> 0 < turned_frequency n dk rot inc i j.
Proof.
  intros D CR CI N. unfold turned_frequency. cbv zeta. apply Rmult_lt_0_compat; [|exact D]. apply sqrt_lt_R0.
  set (X := IZR (off n j)). set (Y := IZR (off n i)). set (a := X * cos _ + Y * sin _). set (q := (Y * cos _ - _) * _).
  pose proof (Rle_0_sqr a) as A. pose proof (Rle_0_sqr q) as Q. unfold Rsqr in A, Q.
  destruct (Req_dec a 0) as [E|E]; [|pose proof (Rsqr_pos_lt a E) as H; unfold Rsqr in H; lra].
  assert (Q0 : q <> 0).
  { unfold q. rewrite E. apply Rmult_integral_contrapositive_currified; [|exact CI]. rewrite Rmult_0_l, Rminus_0_r. apply Rmult_integral_contrapositive_currified; [|exact CR].
    intros Y0. unfold a in E. rewrite Y0 in E. assert (X0 : X = 0) by (apply Rmult_eq_reg_r with (cos (rot * PI / 180)); lra). unfold X in X0. unfold Y in Y0. apply eq_IZR in X0. apply eq_IZR in Y0. unfold off in *. lia. }
  pose proof (Rsqr_pos_lt q Q0) as H. unfold Rsqr in H. lra.
Qed.
Lemma psd_turned n dk amp b c k i j : 0 < dk -> 0 < b -> cos (degrees (p_rot k) * PI / 180) <> 0 -> cos (degrees (p_inc k) * PI / 180) <> 0 ->
  psd2d n dk amp b c k i j = turned_density_at n dk (degrees (p_rot k)) (degrees (p_inc k)) (p_tpf k) amp b c i j.
Proof.
  intros D B C1 C2. unfold psd2d, turned_density_at. assert (AN : forall o, angle o = degrees o * PI / 180) by (intros [?|]; cbn; [reflexivity|field]). rewrite !AN. cbv zeta. rewrite kpsd_turned.
  destruct (Nat.eqb_spec i (n / 2)) as [E|E]; [destruct (Nat.eqb_spec j (n / 2)) as [F|F]; [reflexivity|]|]; cbn [andb].
  all: pose proof (turned_pos n dk (degrees (p_rot k)) (degrees (p_inc k)) i j D C1 C2 ltac:(intuition)) as P; pose proof (Rdiv_lt_0_compat _ _ P B) as Q; unfold density; rewrite (npow_pos (_ / b)) by exact Q; rewrite npow_pos by nra; simpl (_ ^ 2); rewrite Rmult_1_r; reflexivity.
Qed.
(* ROTATION and INCLINATION: the same with the frequency the code turns *)
Theorem C100_spectrum_turned ip w amp b c k u file : square_wf w -> (1 <= w_n w)%nat -> Nat.even (w_n w) = true -> 0 < w_dx w -> 0 <= amp -> 0 < b -> cos (degrees (p_rot k) * PI / 180) <> 0 -> cos (degrees (p_inc k) * PI / 180) <> 0 -> fresh file -> p_amp k = None -> p_maxf k = None ->
  exists m w' o, prop_psd_errormap ip w amp b c k u file = Ok (m, w', o) /\
    (~ uniform (w_n w) (fpx m) -> exists g, 0 <= g /\ forall p q, (p < w_n w)%nat -> (q < w_n w)%nat ->
      let S p q := Cmult (RtoC (sqrt (turned_density_at (w_n w) (1 / (INR (w_n w) * w_dx w)) (degrees (p_rot k)) (degrees (p_inc k)) (p_tpf k) amp b c p q))) (cis (2 * PI * u p q - PI)) in
      component (w_n w) (fpx m) p q = Cmult (RtoC g) (Cplus (S p q) (Cconj (S (opposite (w_n w) p) (opposite (w_n w) q))))).
Proof.
  intros S N EV D A B C1 C2 F PA PM. destruct (finish ip w amp b c k u file _ S N (fresh_source ip w amp b c k u file F) eq_refl eq_refl) as (m & w' & o & a & E & _ & _ & _ & _ & V & HA & _).
  exists m, w', o. split; [exact E|]. intros NU. rewrite PA in HA. subst a.
  pose proof (target_pos (w_n w) (w_dx w) amp b c k D N A) as T. destruct (rms_new (w_n w) (w_dx w) amp b c k u 0 (half (w_n w)) (fpx m) N T V NU) as [_ SD].
  set (n := w_n w) in *. set (s := w_dx w) in *. assert (NS : 0 < INR n * s) by (apply Rmult_lt_0_compat; [apply lt_0_INR; lia|exact D]).
  exists (target n s amp b c k / np_std n (raw_map n s amp b c k u) / (2 * (INR n * s) ^ 2) * (INR n * s)).
  assert (SP : 0 < np_std n (raw_map n s amp b c k u)) by (destruct (std_rms n (raw_map n s amp b c k u) N) as [P _]; lra). split.
  - apply Rmult_le_pos; [|lra]. apply Rmult_le_pos; [apply Rmult_le_pos; [exact T|left; now apply Rinv_0_lt_compat]|]. left. apply Rinv_0_lt_compat. nra.
  - intros p q P Q. cbv zeta. rewrite (component_map n s amp b c k u (fpx m) p q EV N) by (try assumption; try lra; intros i j Hi Hj; rewrite V by assumption; ring).
    assert (X : forall p q, fpx (spectrum n (1 / (INR n * s)) amp b c k u) p q = Cmult (RtoC (INR n * s)) (Cmult (RtoC (sqrt (turned_density_at n (1 / (INR n * s)) (degrees (p_rot k)) (degrees (p_inc k)) (p_tpf k) amp b c p q))) (cis (2 * PI * u p q - PI)))).
    { intros p' q'. unfold spectrum. cbn [fpx]. unfold cutoff. rewrite PM, Rmult_1_r. rewrite (psd_turned n _ amp b c k p' q') by (try assumption; apply Rdiv_lt_0_compat; lra).
      replace (sqrt _ / (1 / (INR n * s))) with (INR n * s * sqrt (turned_density_at n (1 / (INR n * s)) (degrees (p_rot k)) (degrees (p_inc k)) (p_tpf k) amp b c p' q')) by (field; split; [lra|apply not_0_INR; lia]). rewrite RtoC_mult. ring. }
    assert (CR : forall x, Cconj (RtoC x) = RtoC x) by (intros; unfold Cconj, RtoC; cbn; f_equal; ring).
    rewrite !X, (Cconj_mult (RtoC (INR n * s))), (CR (INR n * s)). rewrite (RtoC_mult _ (INR n * s)). ring.
Qed.
(* ... the angles of the turned frequency are reached: 60 degrees; the direction of the turn shows *)
Theorem C100_turned_example : cos (60 * PI / 180) <> 0 /\ turned_frequency 4 1 60 0 1 1 <> turned_frequency 4 1 (-60) 0 1 1.
Proof.
  assert (A : 60 * PI / 180 = PI / 3) by field. assert (B : -60 * PI / 180 = - (PI / 3)) by field. assert (Z : 0 * PI / 180 = 0) by field.
  unfold turned_frequency. change (off 4 2) with 0%Z. change (off 4 1) with (-1)%Z. cbv zeta. rewrite A, B, Z, cos_neg, sin_neg, cos_PI3, sin_PI3, cos_0.
  assert (S3 : sqrt 3 * sqrt 3 = 3) by (apply sqrt_sqrt; lra). assert (P3 : 0 < sqrt 3) by (apply sqrt_lt_R0; lra).
  assert (INJ : forall x y, 0 <= x -> 0 <= y -> x <> y -> sqrt x * 1 <> sqrt y * 1) by (intros x y Hx Hy N E; apply N; apply sqrt_inj; lra).
  split; [lra|]. apply INJ; nra.
Qed.
(* ... and its mean is 0 *)
Theorem C100_zero_mean ip w amp b c k u file : square_wf w -> (1 <= w_n w)%nat -> Nat.even (w_n w) = true -> 0 < w_dx w -> fresh file -> p_amp k = None ->
  exists m w' o, prop_psd_errormap ip w amp b c k u file = Ok (m, w', o) /\ mean2 (w_n w) (fpx m) = 0.
Proof.
  intros S N EV D F PA. destruct (finish ip w amp b c k u file _ S N (fresh_source ip w amp b c k u file F) eq_refl eq_refl) as (m & w' & o & a & E & _ & _ & _ & _ & V & HA & _).
  exists m, w', o. split; [exact E|]. rewrite PA in HA. subst a. set (n := w_n w) in *.
  assert (H2 : (n / 2 < n)%nat) by (apply Nat.div_lt; lia).
  pose proof (component_map n (w_dx w) amp b c k u (fpx m) (n / 2) (n / 2) EV N ltac:(lra) H2 H2 ltac:(intros i j Hi Hj; rewrite V by assumption; ring)) as CM. cbv zeta in CM.
  assert (OP : opposite n (n / 2) = (n / 2)%nat). { unfold opposite. apply Nat.even_spec in EV. destruct EV as [h EV]. rewrite EV, Nat.mul_comm, Nat.div_mul by lia. destruct (Nat.eqb_spec h 0); lia. }
  assert (Z : fpx (spectrum n (1 / (INR n * w_dx w)) amp b c k u) (n / 2) (n / 2) = RtoC 0).
  { unfold spectrum. cbn [fpx]. unfold psd2d. rewrite !Nat.eqb_refl. cbn [andb]. rewrite Rmult_0_l, sqrt_0. unfold Rdiv. rewrite Rmult_0_l. ring. }
  rewrite OP, Z in CM. unfold mean2.
  assert (SM : component n (fpx m) (n / 2) (n / 2) = RtoC (sum2 n (fpx m))).
  { unfold component, sum2. rewrite RtoC_rsum. apply csum_ext. intros i _. rewrite RtoC_rsum. apply csum_ext. intros j _. assert (O : off n (n / 2) = 0%Z) by (unfold off; lia). rewrite O.
    replace (2 * PI * (0 * IZR (off n i) + 0 * IZR (off n j)) / INR n) with 0 by (unfold Rdiv; ring). rewrite cis_0. ring. }
  rewrite SM in CM. assert (R0 : Cmult (RtoC (target n (w_dx w) amp b c k / np_std n (raw_map n (w_dx w) amp b c k u) / (2 * (INR n * w_dx w) ^ 2))) (Cplus (RtoC 0) (Cconj (RtoC 0))) = RtoC 0).
  { unfold RtoC, Cmult, Cplus, Cconj. cbn. f_equal; ring. }
  rewrite R0 in CM. unfold RtoC in CM. injection CM as CM. rewrite CM. unfold Rdiv. ring.
Qed.
(* MAX_FREQUENCY: no component above it *)
Theorem C100_band ip w amp b c k u file mx : square_wf w -> (1 <= w_n w)%nat -> Nat.even (w_n w) = true -> 0 < w_dx w -> fresh file -> p_amp k = None -> upright k -> p_maxf k = Some mx ->
  exists m w' o, prop_psd_errormap ip w amp b c k u file = Ok (m, w', o) /\
    forall p q, (p < w_n w)%nat -> (q < w_n w)%nat -> mx < frequency (w_n w) (1 / (INR (w_n w) * w_dx w)) p q -> component (w_n w) (fpx m) p q = RtoC 0.
Proof.
  intros S N EV D F PA [U1 U2] PM. destruct (finish ip w amp b c k u file _ S N (fresh_source ip w amp b c k u file F) eq_refl eq_refl) as (m & w' & o & a & E & _ & _ & _ & _ & V & HA & _).
  exists m, w', o. split; [exact E|]. rewrite PA in HA. subst a. set (n := w_n w) in *. intros p q P Q X.
  rewrite (component_map n (w_dx w) amp b c k u (fpx m) p q EV N) by (try assumption; try lra; intros i j Hi Hj; rewrite V by assumption; ring). cbv zeta.
  assert (Z : forall p q, mx < frequency n (1 / (INR n * w_dx w)) p q -> fpx (spectrum n (1 / (INR n * w_dx w)) amp b c k u) p q = RtoC 0).
  { intros p' q' X'. unfold spectrum, cutoff. cbn [fpx]. rewrite PM, U1, U2. cbn [angle]. cbv zeta. rewrite kpsd_upright. destruct (Rlt_dec mx _); [|contradiction]. rewrite Rmult_0_r, sqrt_0. unfold Rdiv. rewrite Rmult_0_l. ring. }
  assert (O : forall p, (p < n)%nat -> (off n (opposite n p) * off n (opposite n p) = off n p * off n p)%Z).
  { intros p' P'. unfold opposite, off. apply Nat.even_spec in EV. destruct EV as [h EV]. rewrite EV, (Nat.mul_comm 2 h), Nat.div_mul by lia. destruct (Nat.eqb_spec p' 0); [subst p'; ring|]. rewrite Nat2Z.inj_sub by lia. nia. }
  rewrite (Z p q X). rewrite (Z (opposite n p) (opposite n q)).
  - unfold RtoC, Cmult, Cplus, Cconj. cbn. f_equal; ring.
  - unfold frequency in *. rewrite <- !mult_IZR, !O, !mult_IZR by assumption. exact X.
Qed.
(* AMPLITUDE: the map's largest value is the one given, its RMS is amp (C100_rms); for maps read from a file as well *)
Theorem C100_amplitude ip w amp b c k u file a : square_wf w -> (1 <= w_n w)%nat -> p_amp k = Some a -> fresh file \/ (exists f, file = Some (Some f) /\ exists d, readmap ip w f 0 0 None None None = Ok d /\ frows d = w_n w /\ fcols d = w_n w) ->
  exists m w' o, prop_psd_errormap ip w amp b c k u file = Ok (m, w', o) /\
    (forall i j, (i < w_n w)%nat -> (j < w_n w)%nat -> fpx m i j <= a) /\ exists i j, (i < w_n w)%nat /\ (j < w_n w)%nat /\ fpx m i j = a.
Proof.
  intros S N PA [F|(f & -> & d & RD & D1 & D2)].
  - destruct (finish ip w amp b c k u file _ S N (fresh_source ip w amp b c k u file F) eq_refl eq_refl) as (m & w' & o & x & E & _ & _ & _ & _ & _ & HA & _). exists m, w', o. rewrite PA in HA. split; [exact E|exact HA].
  - destruct (finish ip w amp b c k u (Some (Some f)) d S N RD D1 D2) as (m & w' & o & x & E & _ & _ & _ & _ & _ & HA & _). exists m, w', o. rewrite PA in HA. split; [exact E|exact HA].
Qed.
(* the field is multiplied pixel by pixel by the phase of the returned map, doubled for MIRROR, or by the map itself for AMPLITUDE; NO_APPLY leaves it *)
Theorem C100_applied ip w amp b c k u file : square_wf w -> (1 <= w_n w)%nat -> fresh file ->
  exists m w' o, prop_psd_errormap ip w amp b c k u file = Ok (m, w', o) /\ square_wf w' /\ w_n w' = w_n w /\
    (p_noapply k = true -> w' = set_arr w (w_arr w)) /\
    (p_noapply k = false -> forall i j, (i < w_n w)%nat -> (j < w_n w)%nat -> fpx (get_wavefront w') i j = Cmult (fpx (get_wavefront w) i j)
      (match p_amp k with Some _ => RtoC (fpx m i j) | None => cis (2 * PI / w_lam w * ((if p_mirror k then 2 else 1) * fpx m i j)) end)).
Proof.
  intros S N F. destruct (finish ip w amp b c k u file _ S N (fresh_source ip w amp b c k u file F) eq_refl eq_refl) as (m & w' & o & x & E & _ & _ & S' & N' & _ & _ & G & NA & _).
  exists m, w', o. split; [exact E|]. split; [exact S'|]. split; [exact N'|]. split; [exact NA|]. intros NP i j Hi Hj. rewrite G, NP by assumption. f_equal. unfold factor. destruct (p_amp k); [reflexivity|]. f_equal. destruct (p_mirror k); unfold Rdiv; ring.
Qed.
(* a file written by one call and read by the next: the same map, two pixels from the first border and more; the rest of it is not *)
Lemma reread ip w f m n : grid_exact ip -> square_wf w -> (1 <= w_n w)%nat -> 0 < w_dx w -> n = w_n w -> m_radpix f = None -> m_pixsize f = Some (w_dx w) -> m_data f = to_arr m -> frows m = n -> fcols m = n ->
  exists d, readmap ip w f 0 0 None None None = Ok (shift_center d) /\ frows d = n /\ fcols d = n /\
    forall j i, (j < n)%nat -> (i < n)%nat -> (2 <= i <= n - 2)%nat -> (2 <= j <= n - 2)%nat -> fpx d j i = fpx m j i.
Proof.
  intros GE S N D -> R P DT M1 M2.
  pose (k := mkek false false false false true None None None None None None).
  destruct (read_ok ip w f 0 0 k (w_dx w) (IZR (Z.of_nat (w_n w / 2))) (IZR (Z.of_nat (w_n w / 2)))) as (d & ER & D1 & D2 & V).
  - unfold pixel_width. rewrite R. cbn [k e_sam]. exact P.
  - unfold centre_is. cbn [k e_xc e_yc]. rewrite DT. unfold to_arr. cbn [nr nc]. rewrite M1, M2, Nat2Z.inj_div. split; reflexivity.
  - lra.
  - cbn [k e_xc e_yc e_sam] in ER. exists d. split; [exact ER|]. split; [exact D1|]. split; [exact D2|]. intros j i Hj Hi Bi Bj. rewrite V, DT.
    rewrite (GE (to_arr m) (w_n w) _ _ j i (Z.of_nat i) (Z.of_nat j)); try assumption.
    + unfold to_arr. cbn [px]. now rewrite !Nat2Z.id.
    + unfold axis. rewrite <- !INR_IZR_INZ. field. lra.
    + unfold axis. rewrite <- !INR_IZR_INZ. field. lra.
    + unfold to_arr. cbn [nc]. rewrite M2. lia.
    + unfold to_arr. cbn [nr]. rewrite M1. lia.
Qed.
Theorem C100_file ip w w2 amp b c k u amp2 b2 c2 k2 u2 : grid_exact ip -> square_wf w -> square_wf w2 -> w_n w2 = w_n w -> w_dx w2 = w_dx w -> (1 <= w_n w)%nat -> Nat.even (w_n w) = true -> 0 < w_dx w -> p_amp k2 = None ->
  exists m w1 f m2 w3, prop_psd_errormap ip w amp b c k u (Some None) = Ok (m, w1, Some f) /\ prop_psd_errormap ip w2 amp2 b2 c2 k2 u2 (Some (Some f)) = Ok (m2, w3, None) /\
    forall j i, (2 <= i <= w_n w - 2)%nat -> (2 <= j <= w_n w - 2)%nat -> fpx m2 j i = fpx m j i /\
      (p_noapply k2 = false -> fpx (get_wavefront w3) j i = Cmult (fpx (get_wavefront w2) j i) (cis (2 * PI / w_lam w2 * ((if p_mirror k2 then 2 else 1) * fpx m j i)))).
Proof.
  intros GE S S2 N2 X2 N EV D PA. destruct (finish ip w amp b c k u (Some None) _ S N (fresh_source ip w amp b c k u (Some None) I) eq_refl eq_refl) as (m & w1 & o & a & E & M1 & M2 & _ & _ & _ & _ & _ & _ & _ & HO). subst o.
  eexists m, w1, _.
  match type of E with _ = Ok (_, _, Some ?ff) => set (f := ff) in * end.
  destruct (reread ip w2 f m (w_n w) GE S2) as (d & RD & D1 & D2 & V); try (rewrite ?N2, ?X2; auto; fail).
  destruct (finish ip w2 amp2 b2 c2 k2 u2 (Some (Some f)) (shift_center d) S2) as (m2 & w3 & o2 & a2 & E2 & _ & _ & _ & _ & V2 & HA & G & _ & _ & HO2); [lia|exact RD|cbn; lia|cbn; lia|].
  rewrite PA in HA. subst a2 o2. exists m2, w3. split; [exact E|]. split; [exact E2|]. intros j i Bi Bj. rewrite N2 in *.
  assert (EQ : fpx m2 j i = fpx m j i).
  { rewrite V2 by lia. unfold shift_center, roll2. cbn [fpx]. rewrite D1, D2, !half_even2 by (try exact EV; lia). rewrite V by lia. ring. }
  split; [exact EQ|]. intros NP. rewrite G, NP by lia. unfold factor. rewrite PA, EQ. f_equal. f_equal. destruct (p_mirror k2); unfold Rdiv; ring.
Qed.
(* a file of a mirror surface applied by prop_errormap with MIRROR instead has the opposite sign *)
Theorem C100_mirror_sign_refuted ip mg w amp b c k u : grid_exact ip -> square_wf w -> (1 <= w_n w)%nat -> Nat.even (w_n w) = true -> 0 < w_dx w -> p_amp k = None -> p_mirror k = true -> p_noapply k = false ->
  exists m w1 f d w2, prop_psd_errormap ip w amp b c k u (Some None) = Ok (m, w1, Some f) /\ prop_errormap ip mg w f 0 0 (mkek false false false true false None None None None None None) = Ok (d, w2) /\
    forall j i, (2 <= i <= w_n w - 2)%nat -> (2 <= j <= w_n w - 2)%nat ->
      fpx (get_wavefront w1) j i = Cmult (fpx (get_wavefront w) j i) (cis (4 * PI / w_lam w * fpx m j i)) /\
      fpx (get_wavefront w2) j i = Cmult (fpx (get_wavefront w) j i) (Cconj (cis (4 * PI / w_lam w * fpx m j i))).
Proof.
  intros GE S N EV D PA PM NP. destruct (finish ip w amp b c k u (Some None) _ S N (fresh_source ip w amp b c k u (Some None) I) eq_refl eq_refl) as (m & w1 & o & a & E & M1 & M2 & _ & _ & _ & _ & G & _ & _ & HO). subst o.
  eexists m, w1, _. match type of E with _ = Ok (_, _, Some ?ff) => set (f := ff) in * end.
  set (ek := mkek false false false true false None None None None None None).
  destruct (ErrProps.C98_placed ip mg w f 0 0 ek (Z.of_nat (w_n w / 2)) (Z.of_nat (w_n w / 2)) 0) as (d & w2 & E2 & _ & _ & _ & _ & V); try assumption.
  - repeat split; reflexivity.
  - reflexivity.
  - unfold centre_is. cbn [ek e_xc e_yc]. unfold f. cbn [m_data]. unfold to_arr. cbn [nr nc]. rewrite M1, M2, Nat2Z.inj_div. split; reflexivity.
  - simpl. ring.
  - exists d, w2. split; [exact E|]. split; [exact E2|]. intros j i Bi Bj. split.
    + rewrite G, NP by lia. unfold factor. now rewrite PA, PM.
    + destruct (V j i (Z.of_nat i) (Z.of_nat j)) as [_ W]; try lia; try (unfold off; lia).
      * unfold f. cbn [m_data]. unfold to_arr. cbn [nc]. lia.
      * unfold f. cbn [m_data]. unfold to_arr. cbn [nr]. lia.
      * rewrite W, <- cis_neg. f_equal. f_equal. unfold path_factor. cbn [ek e_mirror e_um e_nm e_mul]. unfold f. cbn [m_data]. unfold to_arr. cbn [px]. rewrite !Nat2Z.id. unfold Rdiv. ring.
Qed.
(* grids of odd size: the zero frequency does not reach the corner of the array, and the mean of a map is not 0 but what the random phase next to the centre makes it *)
Theorem C100_odd_mean ip w amp b c k u file : square_wf w -> (3 <= w_n w)%nat -> Nat.even (w_n w) = false -> 0 < w_dx w -> 0 < amp -> 0 < b -> upright k -> fresh file -> p_amp k = None -> p_maxf k = None ->
  exists m w' o, prop_psd_errormap ip w amp b c k u file = Ok (m, w', o) /\
    (~ uniform (w_n w) (fpx m) -> exists g, 0 < g /\ mean2 (w_n w) (fpx m) = g * cos (2 * PI * u (w_n w / 2 + 1)%nat (w_n w / 2 + 1)%nat - PI)).
Proof.
  intros S N EV D A B U F PA PM. destruct (finish ip w amp b c k u file _ S ltac:(lia) (fresh_source ip w amp b c k u file F) eq_refl eq_refl) as (m & w' & o & a & E & _ & _ & _ & _ & V & HA & _).
  exists m, w', o. split; [exact E|]. rewrite PA in HA. subst a. set (n := w_n w) in *. set (s := w_dx w) in *. intros NU.
  assert (NP : 0 < INR n) by (apply lt_0_INR; lia). assert (DK : 0 < 1 / (INR n * s)) by (apply Rdiv_lt_0_compat; nra).
  destruct (rms_new n s amp b c k u 0 (half n) (fpx m) ltac:(lia) (target_pos n s amp b c k D ltac:(lia) ltac:(lra)) V NU) as [_ SD].
  assert (SP : 0 < np_std n (raw_map n s amp b c k u)) by (destruct (std_rms n (raw_map n s amp b c k u) ltac:(lia)) as [P _]; lra).
  set (h := (n / 2 + 1)%nat). assert (Hh : roll_ix n (half n) 0 = h).
  { unfold h, roll_ix, half. assert (O : Nat.odd n = true) by (unfold Nat.odd; now rewrite EV). apply Nat.odd_spec in O. destruct O as [q O]. rewrite O. replace ((2 * q + 1) / 2)%nat with q by (rewrite Nat.add_comm, Nat.mul_comm, Nat.div_add by lia; reflexivity).
    replace (Z.of_nat 0 - Z.of_nat q)%Z with (Z.of_nat (q + 1) + (-1) * Z.of_nat (2 * q + 1))%Z by lia. rewrite Z.mod_add, Z.mod_small by lia. lia. }
  assert (DA : 0 < density_at n (1 / (INR n * s)) (p_tpf k) amp b c h h).
  { unfold density_at. destruct (Nat.eqb_spec h (n / 2)); [unfold h in *; lia|]. cbn [andb]. now apply density_pos. }
  assert (TP : 0 < target n s amp b c k).
  { unfold target. destruct (p_rms k); [exact A|]. rewrite PA. apply Rmult_lt_0_compat; [|exact DK]. apply sqrt_lt_R0.
    assert (GE : forall i j, 0 <= psd2d n (1 / (INR n * s)) amp b c k i j).
    { intros i j. rewrite (psd_upright n _ amp b c k i j DK B U). unfold density_at. destruct (_ && _)%bool; [lra|]. left. now apply density_pos. }
    destruct (Rle_lt_or_eq_dec _ _ (sum2_ge0 n _ (fun i j _ _ => GE i j))) as [L|L]; [exact L|]. exfalso. symmetry in L.
    assert (HN : (h < n)%nat) by (rewrite <- Hh; apply roll_lt; lia).
    pose proof (sum2_zero n _ (fun i j _ _ => GE i j) L h h HN HN) as Q. rewrite (psd_upright n _ amp b c k h h DK B U) in Q. lra. }
  exists (target n s amp b c k / np_std n (raw_map n s amp b c k u) * / (INR n ^ 2 * s ^ 2) * / INR (n * n) * (sqrt (density_at n (1 / (INR n * s)) (p_tpf k) amp b c h h) * (INR n * s))).
  pose proof (nn_pos n ltac:(lia)) as NN. split.
  - assert (NS : 0 < INR n * s) by (apply Rmult_lt_0_compat; assumption). assert (N2 : 0 < INR n ^ 2 * s ^ 2) by (replace (INR n ^ 2 * s ^ 2) with ((INR n * s) * (INR n * s)) by ring; apply Rmult_lt_0_compat; exact NS).
    apply Rmult_lt_0_compat; [apply Rmult_lt_0_compat; [apply Rmult_lt_0_compat; [now apply Rdiv_lt_0_compat|now apply Rinv_0_lt_compat]|now apply Rinv_0_lt_compat]|]. apply Rmult_lt_0_compat; [now apply sqrt_lt_R0|exact NS].
  - unfold mean2. rewrite (sum2_ext n (fpx m) (fun i j => fpx (new_map n s amp b c k u) (roll_ix n (half n) i) (roll_ix n (half n) j))) by (intros i j Hi Hj; rewrite V by assumption; ring).
    rewrite (sum2_roll n (half n) (fpx (new_map n s amp b c k u))), new_map_eq. cbn [fpx].
    rewrite (sum2_ext n _ (fun i j => target n s amp b c k / np_std n (raw_map n s amp b c k u) * raw_map n s amp b c k u i j)) by (intros; ring). rewrite sum2_scal, raw_sum by (try lia; lra). rewrite Hh.
    unfold spectrum, cutoff. cbn [fpx]. rewrite PM, Rmult_1_r, (psd_upright n _ amp b c k h h DK B U). unfold Cmult, RtoC, cis. cbn [fst snd]. field. repeat split; lra.
Qed.
(* ROTATION by a quarter turn, without INCLINATION, should exchange rows and columns of a density that depends on the distance only; instead the density then depends on the row only *)
Theorem C100_quarter_turn_refuted ip w amp b c k u file : square_wf w -> (1 <= w_n w)%nat -> 0 < w_dx w -> 0 <= amp -> 0 < b -> c <> 0 -> p_rot k = Some 90 -> p_inc k = None -> fresh file -> p_amp k = None -> p_rms k = false ->
  exists m w' o, prop_psd_errormap ip w amp b c k u file = Ok (m, w', o) /\
    (~ uniform (w_n w) (fpx m) -> rms_about_mean (w_n w) (fpx m) (sqrt (sum2 (w_n w) (fun i j =>
       if (Nat.eqb i (w_n w / 2) && Nat.eqb j (w_n w / 2))%bool then 0
       else if Nat.eqb i (w_n w / 2) then amp
       else density (p_tpf k) amp b c (sqrt 2 * Rabs (IZR (off (w_n w) i)) / (INR (w_n w) * w_dx w)))) / (INR (w_n w) * w_dx w))).
Proof.
  intros S N D A B C0 R0 I0 F PA PR. destruct (finish ip w amp b c k u file _ S N (fresh_source ip w amp b c k u file F) eq_refl eq_refl) as (m & w' & o & a & E & _ & _ & _ & _ & V & _).
  exists m, w', o. split; [exact E|]. set (n := w_n w) in *. set (s := w_dx w) in *. intros NU.
  destruct (rms_new n s amp b c k u a (half n) (fpx m) N (target_pos _ _ _ b c k D N A) V NU) as [R _]. unfold target in R. rewrite PA, PR in R.
  assert (NP : 0 < INR n) by (apply lt_0_INR; lia). assert (DK : 0 < 1 / (INR n * s)) by (apply Rdiv_lt_0_compat; nra).
  match goal with |- rms_about_mean _ _ (sqrt (sum2 n ?f) / _) => rewrite (sum2_ext n _ f) in R end.
  - match type of R with rms_about_mean _ _ (?x * (1 / ?y)) => replace (x * (1 / y)) with (x / y) in R by (unfold Rdiv; ring) end. exact R.
  - intros i j Hi Hj. unfold psd2d. rewrite R0, I0. destruct (Nat.eqb_spec i (n / 2)) as [Ei|Ei].
    + destruct (Nat.eqb j (n / 2)); cbn [andb]; [reflexivity|]. change (angle None) with 0. cbv zeta. rewrite kpsd_quarter. replace (off n i) with 0%Z by (unfold off; lia).
      replace (sqrt (2 * (0 * 0)) * (1 / (INR n * s))) with 0 by (rewrite !Rmult_0_r, sqrt_0; ring). destruct (p_tpf k).
      * unfold npow. destruct (Req_EM_T (0 / b) 0) as [_|Q]; [|exfalso; apply Q; unfold Rdiv; ring]. destruct (Req_EM_T c 0); [contradiction|]. field.
      * replace (1 + (0 / b) ^ 2) with 1 by (field; lra). unfold npow. destruct (Req_EM_T 1 0); [lra|]. unfold Rpower. rewrite ln_1, Rmult_0_r, exp_0. field.
    + cbn [andb]. change (angle None) with 0. cbv zeta. rewrite kpsd_quarter.
      assert (KP : sqrt (2 * (IZR (off n i) * IZR (off n i))) * (1 / (INR n * s)) = sqrt 2 * Rabs (IZR (off n i)) / (INR n * s)).
      { rewrite sqrt_mult by nra. change (IZR (off n i) * IZR (off n i)) with (Rsqr (IZR (off n i))). rewrite sqrt_Rsqr_abs. field. lra. }
      rewrite KP. assert (KPP : 0 < sqrt 2 * Rabs (IZR (off n i)) / (INR n * s) / b).
      { apply Rdiv_lt_0_compat; [|exact B]. apply Rdiv_lt_0_compat; [|nra]. apply Rmult_lt_0_compat; [apply sqrt_lt_R0; lra|]. apply Rabs_pos_lt. apply not_0_IZR. unfold off. lia. }
      unfold density. destruct (p_tpf k); [rewrite npow_pos by exact KPP; reflexivity|]. rewrite npow_pos by nra. simpl (_ ^ 2). rewrite Rmult_1_r. reflexivity.
Qed.
(* concrete calls on two by two pixels, all random phases 0 *)
Definition wf2 : wavefront := mkw (mkf 2 2 (fun _ _ => RtoC 1)) 1 (1 / 2) true true 0 0 1 1 1 2.
Lemma rp2 x : 0 < x -> Rpower x 2 = x * x. Proof. intros H. replace 2 with (INR 2) by (simpl; ring). rewrite Rpower_pow by exact H. simpl. ring. Qed.
Lemma psd_at2 k i j f : p_tpf k = true -> (i <> 1 \/ j <> 1)%nat -> kpsd 2 (1 / (INR 2 * (1 / 2))) (angle (p_rot k)) (angle (p_inc k)) i j = f -> 0 <= f -> psd2d 2 (1 / (INR 2 * (1 / 2))) 1 1 2 k i j = 1 / (1 + f * f).
Proof.
  intros T N E P. unfold psd2d. change (2 / 2)%nat with 1%nat. rewrite T, E. destruct (Nat.eqb_spec i 1), (Nat.eqb_spec j 1); cbn [andb]; try lia; cbv zeta; f_equal; f_equal.
  all: replace (f / 1) with f by field; unfold npow; destruct (Req_EM_T f 0) as [Z|Z]; [rewrite Z; destruct (Req_EM_T 2 0); [lra|lra]|apply rp2; lra].
Qed.
Theorem C100_rotation_refuted ip : let k r := mkpk None false true false false None None r in
  exists m1 w1 o1 r1 m2 w2 o2 r2, prop_psd_errormap ip wf2 1 1 2 (k None) (fun _ _ => 1 / 2) None = Ok (m1, w1, o1) /\ prop_psd_errormap ip wf2 1 1 2 (k (Some 90)) (fun _ _ => 1 / 2) None = Ok (m2, w2, o2) /\
    ~ uniform 2 (fpx m1) /\ rms_about_mean 2 (fpx m1) r1 /\ r1 * r1 = 4 / 3 /\ ~ uniform 2 (fpx m2) /\ rms_about_mean 2 (fpx m2) r2 /\ r2 * r2 = 5 / 3.
Proof.
  intros k. assert (SW : square_wf wf2) by (split; reflexivity).
  assert (K1 : forall i j f, frequency 2 (1 / (INR 2 * (1 / 2))) i j = f -> kpsd 2 (1 / (INR 2 * (1 / 2))) (angle (p_rot (k None))) (angle (p_inc (k None))) i j = f) by (intros i j f H; cbn [k p_rot p_inc angle]; now rewrite kpsd_upright).
  assert (DK1 : 1 / (INR 2 * (1 / 2)) = 1) by (simpl; field).
  assert (P00 : psd2d 2 (1 / (INR 2 * (1 / 2))) 1 1 2 (k None) 0 0 = 1 / 3).
  { rewrite (psd_at2 (k None) 0 0 (sqrt 2)); [rewrite sqrt_sqrt by lra; field|reflexivity|lia| |apply sqrt_pos]. apply K1. unfold frequency. rewrite DK1. replace (off 2 0) with (-1)%Z by reflexivity. rewrite Rmult_1_r. f_equal. ring. }
  assert (P01 : psd2d 2 (1 / (INR 2 * (1 / 2))) 1 1 2 (k None) 0 1 = 1 / 2).
  { rewrite (psd_at2 (k None) 0 1 1); [field|reflexivity|lia| |lra]. apply K1. unfold frequency. rewrite DK1. replace (off 2 0) with (-1)%Z by reflexivity. replace (off 2 1) with 0%Z by reflexivity. replace (-1 * -1 + 0 * 0) with 1 by ring. rewrite sqrt_1. ring. }
  assert (P10 : psd2d 2 (1 / (INR 2 * (1 / 2))) 1 1 2 (k None) 1 0 = 1 / 2).
  { rewrite (psd_at2 (k None) 1 0 1); [field|reflexivity|lia| |lra]. apply K1. unfold frequency. rewrite DK1. replace (off 2 0) with (-1)%Z by reflexivity. replace (off 2 1) with 0%Z by reflexivity. replace (0 * 0 + -1 * -1) with 1 by ring. rewrite sqrt_1. ring. }
  assert (P11 : forall r, psd2d 2 (1 / (INR 2 * (1 / 2))) 1 1 2 (k r) 1 1 = 0) by reflexivity.
  assert (K2 : forall i j, kpsd 2 (1 / (INR 2 * (1 / 2))) (angle (p_rot (k (Some 90)))) (angle (p_inc (k (Some 90)))) i j = sqrt (2 * (IZR (off 2 i) * IZR (off 2 i)))) by (intros i j; rewrite DK1; cbn [k p_rot p_inc]; change (angle None) with 0; rewrite kpsd_quarter; ring).
  assert (Q0 : forall j, psd2d 2 (1 / (INR 2 * (1 / 2))) 1 1 2 (k (Some 90)) 0 j = 1 / 3).
  { intros j. rewrite (psd_at2 (k (Some 90)) 0 j (sqrt 2)); [rewrite sqrt_sqrt by lra; field|reflexivity|lia| |apply sqrt_pos]. rewrite K2. replace (off 2 0) with (-1)%Z by reflexivity. f_equal. ring. }
  assert (Q10 : psd2d 2 (1 / (INR 2 * (1 / 2))) 1 1 2 (k (Some 90)) 1 0 = 1).
  { rewrite (psd_at2 (k (Some 90)) 1 0 0); [field|reflexivity|lia| |lra]. rewrite K2. replace (off 2 1) with 0%Z by reflexivity. rewrite !Rmult_0_r. apply sqrt_0. }
  assert (CUT : forall r i j, cutoff 2 (1 / (INR 2 * (1 / 2))) (k r) i j = 1) by reflexivity.
  destruct (finish ip wf2 1 1 2 (k None) (fun _ _ => 1 / 2) None _ SW ltac:(cbn; lia) eq_refl eq_refl eq_refl) as (m1 & w1 & o1 & a1 & E1 & _ & _ & _ & _ & V1 & A1 & _).
  destruct (finish ip wf2 1 1 2 (k (Some 90)) (fun _ _ => 1 / 2) None _ SW ltac:(cbn; lia) eq_refl eq_refl eq_refl) as (m2 & w2 & o2 & a2 & E2 & _ & _ & _ & _ & V2 & A2 & _).
  cbn [k p_amp] in A1, A2. subst a1 a2. cbn [wf2 w_n get_sampling w_dx] in V1, V2. unfold get_sampling in V1, V2. cbn [wf2 w_n w_dx] in V1, V2.
  assert (V1' : forall i j, (i < 2)%nat -> (j < 2)%nat -> fpx m1 i j = fpx (new_map 2 (1 / 2) 1 1 2 (k None) (fun _ _ => 1 / 2)) (roll_ix 2 (half 2) i) (roll_ix 2 (half 2) j)) by (intros; rewrite V1 by assumption; ring).
  assert (V2' : forall i j, (i < 2)%nat -> (j < 2)%nat -> fpx m2 i j = fpx (new_map 2 (1 / 2) 1 1 2 (k (Some 90)) (fun _ _ => 1 / 2)) (roll_ix 2 (half 2) i) (roll_ix 2 (half 2) j)) by (intros; rewrite V2 by assumption; ring).
  assert (T1 : target 2 (1 / 2) 1 1 2 (k None) = sqrt (4 / 3)).
  { unfold target. cbn [k p_rms p_amp]. fold (k None). unfold sum2. cbn [rsum]. rewrite P00, P01, P10, (P11 None), DK1, Rmult_1_r. f_equal. field. }
  assert (T2 : target 2 (1 / 2) 1 1 2 (k (Some 90)) = sqrt (5 / 3)).
  { unfold target. cbn [k p_rms p_amp]. fold (k (Some 90)). unfold sum2. cbn [rsum]. rewrite !Q0, Q10, (P11 (Some 90)), DK1, Rmult_1_r. f_equal. field. }
  assert (S1 : 0 < sqrt (4 / 3)) by (apply sqrt_lt_R0; lra). assert (S2 : 0 < sqrt (5 / 3)) by (apply sqrt_lt_R0; lra). assert (S3 : 0 < sqrt (1 / 3)) by (apply sqrt_lt_R0; lra).
  assert (N1 : ~ uniform 2 (fpx m1)).
  { apply (not_uniform2 (1 / 2) 1 1 2 (k None)); [lra| | |rewrite T1; exact S1|exact V1'].
    - rewrite P00, CUT, DK1, Rmult_1_r. lra.
    - rewrite P10, CUT, DK1, Rmult_1_r. pose proof (sqrt_pos (1 / 2)). lra. }
  assert (N2 : ~ uniform 2 (fpx m2)).
  { apply (not_uniform2 (1 / 2) 1 1 2 (k (Some 90))); [lra| | |rewrite T2; exact S2|exact V2'].
    - rewrite Q0, CUT, DK1, Rmult_1_r. lra.
    - rewrite Q10, CUT, DK1, Rmult_1_r. pose proof (sqrt_pos 1). lra. }
  destruct (rms_new 2 (1 / 2) 1 1 2 (k None) (fun _ _ => 1 / 2) 0 (half 2) (fpx m1) ltac:(lia) ltac:(rewrite T1; lra) V1 N1) as [R1 _].
  destruct (rms_new 2 (1 / 2) 1 1 2 (k (Some 90)) (fun _ _ => 1 / 2) 0 (half 2) (fpx m2) ltac:(lia) ltac:(rewrite T2; lra) V2 N2) as [R2 _].
  rewrite T1 in R1. rewrite T2 in R2. exists m1, w1, o1, (sqrt (4 / 3)), m2, w2, o2, (sqrt (5 / 3)). repeat (split; [assumption|]). split; [apply sqrt_sqrt; lra|]. repeat (split; [assumption|]). apply sqrt_sqrt. lra.
Qed.
(* MAX_FREQUENCY above every frequency of the grid should change nothing; it multiplies the density by the frequency *)
Theorem C100_max_frequency_refuted ip : let k mx := mkpk None false true false false mx None None in
  (forall i j, (i < 2)%nat -> (j < 2)%nat -> frequency 2 1 i j < 10) /\
  exists m1 w1 o1 m2 w2 o2, prop_psd_errormap ip wf2 1 1 2 (k None) (fun _ _ => 1 / 2) None = Ok (m1, w1, o1) /\ prop_psd_errormap ip wf2 1 1 2 (k (Some 10)) (fun _ _ => 1 / 2) None = Ok (m2, w2, o2) /\
    fpx m1 1 0 * fpx m1 1 0 = 1 / 3 /\ fpx m2 1 0 * fpx m2 1 0 = 4 * sqrt 2 / (9 + 3 * sqrt 2).
Proof.
  intros k. assert (SW : square_wf wf2) by (split; reflexivity). assert (DK1 : 1 / (INR 2 * (1 / 2)) = 1) by (simpl; field).
  assert (L2 : sqrt 2 < 2) by (rewrite <- (sqrt_square 2) at 2 by lra; apply sqrt_lt_1_alt; lra). assert (L0 : 0 < sqrt 2) by (apply sqrt_lt_R0; lra). assert (LL : sqrt 2 * sqrt 2 = 2) by (apply sqrt_sqrt; lra).
  assert (F00 : frequency 2 1 0 0 = sqrt 2) by (unfold frequency; replace (off 2 0) with (-1)%Z by reflexivity; rewrite Rmult_1_r; f_equal; ring).
  assert (F01 : frequency 2 1 0 1 = 1) by (unfold frequency; replace (off 2 0) with (-1)%Z by reflexivity; replace (off 2 1) with 0%Z by reflexivity; replace (-1 * -1 + 0 * 0) with 1 by ring; rewrite sqrt_1; ring).
  assert (F10 : frequency 2 1 1 0 = 1) by (unfold frequency; replace (off 2 0) with (-1)%Z by reflexivity; replace (off 2 1) with 0%Z by reflexivity; replace (0 * 0 + -1 * -1) with 1 by ring; rewrite sqrt_1; ring).
  assert (F11 : frequency 2 1 1 1 = 0) by (unfold frequency; replace (off 2 1) with 0%Z by reflexivity; rewrite !Rmult_0_r, Rplus_0_r, sqrt_0; ring).
  split.
  { intros [|[|i]] [|[|j]] Hi Hj; try lia; rewrite ?F00, ?F01, ?F10, ?F11; lra. }
  assert (K : forall mx i j, kpsd 2 (1 / (INR 2 * (1 / 2))) (angle (p_rot (k mx))) (angle (p_inc (k mx))) i j = frequency 2 1 i j) by (intros mx i j; cbn [k p_rot p_inc angle]; now rewrite kpsd_upright, DK1).
  assert (P00 : forall mx, psd2d 2 (1 / (INR 2 * (1 / 2))) 1 1 2 (k mx) 0 0 = 1 / 3) by (intros mx; rewrite (psd_at2 (k mx) 0 0 (sqrt 2)); [rewrite LL; field|reflexivity|lia|now rewrite K|lra]).
  assert (P01 : forall mx, psd2d 2 (1 / (INR 2 * (1 / 2))) 1 1 2 (k mx) 0 1 = 1 / 2) by (intros mx; rewrite (psd_at2 (k mx) 0 1 1); [field|reflexivity|lia|now rewrite K|lra]).
  assert (P10 : forall mx, psd2d 2 (1 / (INR 2 * (1 / 2))) 1 1 2 (k mx) 1 0 = 1 / 2) by (intros mx; rewrite (psd_at2 (k mx) 1 0 1); [field|reflexivity|lia|now rewrite K|lra]).
  assert (P11 : forall mx, psd2d 2 (1 / (INR 2 * (1 / 2))) 1 1 2 (k mx) 1 1 = 0) by reflexivity.
  assert (C0 : forall i j, cutoff 2 (1 / (INR 2 * (1 / 2))) (k None) i j = 1) by reflexivity.
  assert (C1 : forall i j, frequency 2 1 i j < 10 -> cutoff 2 (1 / (INR 2 * (1 / 2))) (k (Some 10)) i j = frequency 2 1 i j).
  { intros i j H. unfold cutoff. cbn [k p_maxf]. fold (k (Some 10)). cbv zeta. rewrite K. destruct (Rlt_dec 10 _); [lra|reflexivity]. }
  assert (T : forall mx, target 2 (1 / 2) 1 1 2 (k mx) = sqrt (4 / 3)).
  { intros mx. unfold target. cbn [k p_rms p_amp]. fold (k mx). unfold sum2. cbn [rsum]. rewrite P00, P01, P10, P11, DK1, Rmult_1_r. f_equal. field. }
  destruct (finish ip wf2 1 1 2 (k None) (fun _ _ => 1 / 2) None _ SW ltac:(cbn; lia) eq_refl eq_refl eq_refl) as (m1 & w1 & o1 & a1 & E1 & _ & _ & _ & _ & V1 & A1 & _).
  destruct (finish ip wf2 1 1 2 (k (Some 10)) (fun _ _ => 1 / 2) None _ SW ltac:(cbn; lia) eq_refl eq_refl eq_refl) as (m2 & w2 & o2 & a2 & E2 & _ & _ & _ & _ & V2 & A2 & _).
  cbn [k p_amp] in A1, A2. subst a1 a2. unfold get_sampling in V1, V2. cbn [wf2 w_n w_dx] in V1, V2.
  exists m1, w1, o1, m2, w2, o2. split; [exact E1|]. split; [exact E2|]. rewrite V1, V2 by lia. change (roll_ix 2 (half 2) 0) with 1%nat. change (roll_ix 2 (half 2) 1) with 0%nat. rewrite !Rplus_0_r.
  assert (S1 : 0 < sqrt (1 / 3)) by (apply sqrt_lt_R0; lra). assert (Q1 : sqrt (1 / 3) * sqrt (1 / 3) = 1 / 3) by (apply sqrt_sqrt; lra). assert (Q2 : sqrt (4 / 3) * sqrt (4 / 3) = 4 / 3) by (apply sqrt_sqrt; lra).
  assert (Q3 : sqrt (1 / 2) * sqrt (1 / 2) = 1 / 2) by (apply sqrt_sqrt; lra). assert (Q4 : sqrt (1 / 3 * sqrt 2) * sqrt (1 / 3 * sqrt 2) = 1 / 3 * sqrt 2) by (apply sqrt_sqrt; nra). assert (S4 : 0 < sqrt (1 / 3 * sqrt 2)) by (apply sqrt_lt_R0; nra).
  split.
  - rewrite map2 by (try lia; try lra; rewrite P00, C0, DK1, Rmult_1_r; lra). cbn [Nat.eqb]. rewrite P00, P01, P10, !C0, T, DK1, !Rmult_1_r.
    replace (sqrt (1 / 2) / 1) with (sqrt (1 / 2)) by field. replace (sqrt (1 / 3) / 1) with (sqrt (1 / 3)) by field. simpl (_ ^ 2). rewrite !Rmult_1_r, Q1, Q3. replace (1 / 2 + 1 / 2 + 1 / 3) with (4 / 3) by field.
    assert (0 < sqrt (4 / 3)) by (apply sqrt_lt_R0; lra). replace (sqrt (4 / 3) / sqrt (4 / 3)) with 1 by (field; lra). transitivity (sqrt (1 / 3) * sqrt (1 / 3)); [ring|exact Q1].
  - rewrite map2 by (try lia; try lra; rewrite P00, C1, F00, DK1 by (rewrite F00; lra); lra). cbn [Nat.eqb]. rewrite P00, P01, P10, !C1, F00, F01, F10, T, DK1, !Rmult_1_r by (rewrite ?F00, ?F01, ?F10; lra).
    replace (sqrt (1 / 2) / 1) with (sqrt (1 / 2)) by field. replace (sqrt (1 / 3 * sqrt 2) / 1) with (sqrt (1 / 3 * sqrt 2)) by field. simpl (_ ^ 2). rewrite !Rmult_1_r, Q3, Q4.
    set (r := sqrt (1 / 2 + 1 / 2 + 1 / 3 * sqrt 2)). assert (RR : r * r = 1 / 2 + 1 / 2 + 1 / 3 * sqrt 2) by (unfold r; apply sqrt_sqrt; nra). assert (R0 : 0 < r) by (unfold r; apply sqrt_lt_R0; nra).
    match goal with |- ?x * (?t / r) * (?x * (?t / r)) = _ => replace (x * (t / r) * (x * (t / r))) with ((sqrt (1 / 3 * sqrt 2) * sqrt (1 / 3 * sqrt 2)) * (t * t) / (r * r)) by (field; lra) end.
    rewrite Q4, Q2, RR. field. lra.
Qed.
