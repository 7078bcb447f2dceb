(* C99: magnifying an image *)
From Verif Require Import Base StrBase RBase CtrlModel UtilModel DmSurfModel CubModel CubProofs DmcModel CBase PropModel PropProofs OptModel ErrModel ErrSpec MagModel MagSpec MagProofs MagProofs2 MagProofs3.
Open Scope R_scope.

(* an output pixel whose place is inside: the image read there with Lanczos' kernel, every pixel of the image counted, over the divisor; with and without the C library *)
Theorem C99_value ip lib im n mag m k : square im n -> (0 < m)%nat -> mag <> 0 -> m_quick k = false ->
  exists o, prop_magnify ip lib im mag m k = Ok o /\ square o m /\
    forall j i, inner n (place n m mag j) -> inner n (place n m mag i) -> fpx o j i = read_at im (place n m mag j) (place n m mag i) / divisor k false mag.
Proof.
  intros S M Z Q. unfold prop_magnify. rewrite magnify_sinc by assumption. eexists. split; [reflexivity|]. split; [split; reflexivity|]. intros j i J I'. cbn [fpx].
  rewrite (zoom_value _ _ im n) by (try assumption; try apply rounding_close; apply inner_fits; try apply rounding_close; assumption). reflexivity.
Qed.
(* the same for the real and imaginary part of a complex image; CONSERVE divides by mag only *)
Theorem C99_value_complex ip lib mem im n mag m k : frows im = n -> fcols im = n -> (0 < m)%nat -> mag <> 0 -> m_quick k = false ->
  exists o, prop_magnify_c ip lib mem im mag m k = Ok o /\ frows o = m /\ fcols o = m /\
    forall j i, inner n (place n m mag j) -> inner n (place n m mag i) ->
      fpx o j i = (read_at (mkf n n (fun a b => fst (fpx im a b))) (place n m mag j) (place n m mag i) / divisor k true mag,
                   read_at (mkf n n (fun a b => snd (fpx im a b))) (place n m mag j) (place n m mag i) / divisor k true mag).
Proof.
  intros S1 S2 M Z Q. unfold prop_magnify_c. rewrite S1, S2, !magnify_sinc by assumption. cbn [rbind]. eexists. split; [reflexivity|]. split; [reflexivity|]. split; [reflexivity|]. intros j i J I'. cbn [fpx].
  rewrite !(zoom_value _ _ _ n) by (try (split; reflexivity); try apply rounding_close; apply inner_fits; try apply rounding_close; assumption). reflexivity.
Qed.
(* a place that is a pixel with 6 pixels of the image on every side: that pixel's value exactly *)
Theorem C99_same_sample ip lib im n mag m k p q : square im n -> (0 < m)%nat -> mag <> 0 -> m_quick k = false -> (6 <= p)%nat -> (p + 7 <= n)%nat -> (6 <= q)%nat -> (q + 7 <= n)%nat ->
  exists o, prop_magnify ip lib im mag m k = Ok o /\
    forall j i, place n m mag j = INR p -> place n m mag i = INR q -> fpx o j i = fpx im p q / divisor k false mag.
Proof.
  intros S M Z Q P1 P2 Q1 Q2. unfold prop_magnify. rewrite magnify_sinc by assumption. eexists. split; [reflexivity|]. intros j i J I'. cbn [fpx].
  rewrite (zoom_value _ _ im n); try assumption; try apply rounding_close; try (eapply int_fits; [apply rounding_close|eassumption|assumption|assumption]).
  rewrite J, I'. rewrite (read_pixel im n) by (try assumption; lia). reflexivity.
Qed.
(* a place fewer than 5 pixels from the first border or fewer than 6 from the last, on either axis: zero *)
Theorem C99_border ip lib im n mag m k : square im n -> (0 < m)%nat -> mag <> 0 -> m_quick k = false ->
  exists o, prop_magnify ip lib im mag m k = Ok o /\ forall j i, outer n (place n m mag j) \/ outer n (place n m mag i) -> fpx o j i = 0.
Proof.
  intros S M Z Q. unfold prop_magnify. rewrite magnify_sinc by assumption. eexists. split; [reflexivity|]. intros j i O. cbn [fpx].
  rewrite (zoom_border _ _ im n); try assumption; try apply rounding_close.
  - destruct lib; simpl; unfold Rdiv; ring.
  - destruct O as [O|O]; rewrite (outer_fits _ _ _ _ _ (rounding_close lib) O); [reflexivity|apply Bool.andb_false_r].
Qed.
(* the C library and Python agree at places inside and at places in the border *)
Theorem C99_library_agrees ip im n mag m k j i : square im n -> (0 < m)%nat -> mag <> 0 -> m_quick k = false ->
  (inner n (place n m mag j) /\ inner n (place n m mag i)) \/ outer n (place n m mag j) \/ outer n (place n m mag i) ->
  exists a b, prop_magnify ip true im mag m k = Ok a /\ prop_magnify ip false im mag m k = Ok b /\ fpx a j i = fpx b j i.
Proof.
  intros S M Z Q [[J I']|O].
  - destruct (C99_value ip true im n mag m k S M Z Q) as (a & A & _ & VA). destruct (C99_value ip false im n mag m k S M Z Q) as (b & B & _ & VB). exists a, b. split; [exact A|]. split; [exact B|]. now rewrite VA, VB.
  - destruct (C99_border ip true im n mag m k S M Z Q) as (a & A & VA). destruct (C99_border ip false im n mag m k S M Z Q) as (b & B & VB). exists a, b. split; [exact A|]. split; [exact B|]. now rewrite VA, VB.
Qed.
(* in between they need not: the C routine reads one more output pixel *)
Theorem C99_library_refuted : exists im mag m j i, square im 13 /\ forall ip, exists a b,
  prop_magnify ip true im mag m (mkmk false false false) = Ok a /\ prop_magnify ip false im mag m (mkmk false false false) = Ok b /\ 0 < fpx a j i /\ fpx b j i = 0.
Proof.
  exists (mkf 13 13 (fun a b => if (Nat.eqb a 6 && Nat.eqb b 6)%bool then 1 else 0)), 3, 3%nat, 1%nat, 2%nat. split; [split; reflexivity|]. intros ip.
  unfold prop_magnify. rewrite !magnify_sinc by (try lia; try lra; reflexivity). eexists. eexists. split; [reflexivity|]. split; [reflexivity|]. cbn [fpx rounding memory].
  assert (X1 : x_in 3 3 1 = IZR 0) by (unfold x_in; simpl; field). assert (X2 : x_in 3 3 2 = 1 / 3) by (unfold x_in; simpl; field).
  assert (R : roundval (1 / 3) = 0%Z). { unfold roundval. destruct (Rlt_dec 0 (1/3)); [|lra]. apply Flocq.Core.Raux.Zfloor_imp. simpl. lra. }
  assert (A : away (1 / 3) = 1%Z). { unfold away. destruct (Rlt_dec (1/3) 0); [lra|]. apply Flocq.Core.Raux.Zceil_imp. simpl. lra. }
  split.
  - rewrite (zoom_value roundval _ _ 13).
    + unfold read_at. cbn [frows fcols fpx]. replace (place 13 3 3 1) with (INR 6) by (unfold place; simpl; field).
      rewrite (rsum_ext' 13 _ (fun a => (if Nat.eqb a 6 then 1 else 0) * lanczos6 (INR 6 - place 13 3 3 2))).
      * rewrite (rsum_pick 13 6 (fun _ => lanczos6 (INR 6 - place 13 3 3 2))) by lia. replace (INR 6 - place 13 3 3 2) with (- (1 / 3)) by (unfold place; simpl; field). rewrite lanczos_neg.
        rewrite (lanczos_val (1/3) (sin (PI / 3)) (sin (PI / 18))); [|lra|f_equal; field|f_equal; field].
        unfold divisor. cbn [m_cons m_amp]. pose proof PI_RGT_0. assert (0 < sin (PI / 3)) by (apply sin_gt_0; lra). assert (0 < sin (PI / 18)) by (apply sin_gt_0; lra).
        replace (_ / 1) with (54 * (sin (PI / 3) * sin (PI / 18)) * / (PI * PI)) by (field; lra). apply Rmult_lt_0_compat; [nra|]. apply Rinv_0_lt_compat. nra.
      * intros a _. rewrite lanczos_nat. destruct (Nat.eqb a 6); cbn [andb].
        -- rewrite (rsum_ext' 13 _ (fun b => (if Nat.eqb b 6 then 1 else 0) * lanczos6 (INR b - place 13 3 3 2))) by (intros b _; destruct (Nat.eqb b 6); ring).
           rewrite (rsum_pick 13 6 (fun b => lanczos6 (INR b - place 13 3 3 2))) by lia. ring.
        -- rewrite rsum_zero by (intros; ring). ring.
    + apply round_close.
    + split; reflexivity.
    + apply fits_iff. unfold first_px. rewrite X1, (close_int roundval 0 round_close). simpl. lia.
    + apply fits_iff. unfold first_px. rewrite X2, R. simpl. lia.
  - rewrite (zoom_border away _ _ 13); [unfold Rdiv; ring|apply away_close|split; reflexivity|].
    apply Bool.andb_false_iff. right. destruct (fits away 13 3 3 2) eqn:E; [|reflexivity]. apply fits_iff in E. unfold first_px in E. rewrite X2, A in E. simpl in E. lia.
Qed.
(* a complex image: with the C library the border holds whatever memory held, without it zero *)
Theorem C99_complex_border ip lib mem im n mag m k j i : frows im = n -> fcols im = n -> (0 < m)%nat -> mag <> 0 -> m_quick k = false ->
  outer n (place n m mag j) \/ outer n (place n m mag i) ->
  exists o, prop_magnify_c ip lib mem im mag m k = Ok o /\
    fpx o j i = if lib then (mem j i / divisor k true mag, mem j i / divisor k true mag) else RtoC 0.
Proof.
  intros S1 S2 M Z Q O. unfold prop_magnify_c. rewrite S1, S2, !magnify_sinc by assumption. cbn [rbind]. eexists. split; [reflexivity|]. cbn [fpx].
  rewrite !(zoom_border _ _ _ n); try (split; reflexivity); try apply rounding_close.
  - destruct lib; [reflexivity|]. cbn [memory]. unfold RtoC. f_equal; unfold Rdiv; ring.
  - destruct O as [O|O]; rewrite (outer_fits _ _ _ _ _ (rounding_close lib) O); [reflexivity|apply Bool.andb_false_r].
  - destruct O as [O|O]; rewrite (outer_fits _ _ _ _ _ (rounding_close lib) O); [reflexivity|apply Bool.andb_false_r].
Qed.
Theorem C99_complex_border_refuted : exists im mem1 mem2 n mag m k j i, frows im = n /\ fcols im = n /\ forall ip, exists a b,
  prop_magnify_c ip true mem1 im mag m k = Ok a /\ prop_magnify_c ip true mem2 im mag m k = Ok b /\ fpx a j i <> fpx b j i.
Proof.
  exists (mkf 20 20 (fun _ _ => RtoC 1)), (fun _ _ => 0), (fun _ _ => 1), 20%nat, 1, 20%nat, (mkmk false false false), 0%nat, 0%nat. split; [reflexivity|]. split; [reflexivity|]. intros ip.
  assert (O : outer 20 (place 20 20 1 0) \/ outer 20 (place 20 20 1 0)) by (left; left; unfold place; change (20 / 2)%nat with 10%nat; simpl (INR 0); rewrite INR_IZR_INZ; simpl; lra).
  destruct (C99_complex_border ip true (fun _ _ => 0) (mkf 20 20 (fun _ _ => RtoC 1)) 20 1 20 (mkmk false false false) 0 0) as (a & A & VA); try reflexivity; try lia; try lra; [exact O|].
  destruct (C99_complex_border ip true (fun _ _ => 1) (mkf 20 20 (fun _ _ => RtoC 1)) 20 1 20 (mkmk false false false) 0 0) as (b & B & VB); try reflexivity; try lia; try lra; [exact O|].
  exists a, b. split; [exact A|]. split; [exact B|]. rewrite VA, VB. unfold divisor. cbn. intros E. injection E. lra.
Qed.
(* magnification 1: the image inside, zero in a border of 6 pixels: never the image itself *)
Theorem C99_unit ip lib im n k : square im n -> (0 < n)%nat -> m_quick k = false ->
  exists o, prop_magnify ip lib im 1 n k = Ok o /\ square o n /\
    forall j i, (j < n)%nat -> (i < n)%nat -> fpx o j i = if (Nat.leb 6 j && Nat.leb (j + 7) n && Nat.leb 6 i && Nat.leb (i + 7) n)%bool then fpx im j i else 0.
Proof.
  intros S N Q. unfold prop_magnify. rewrite magnify_sinc by (try assumption; lra). eexists. split; [reflexivity|]. split; [split; reflexivity|]. intros j i J I'. cbn [fpx].
  assert (D : divisor k false 1 = 1) by (unfold divisor; destruct (m_cons k), (m_amp k); ring). rewrite D.
  assert (P : forall x, place n n 1 x = INR x) by (intros; unfold place; field).
  assert (F : forall x, fits (rounding lib) n n 1 x = (Nat.leb 6 x && Nat.leb (x + 7) n)%bool).
  { intros x. unfold fits, first_px. assert (X : x_in n 1 x = IZR (Z.of_nat x - Z.of_nat (n / 2))) by (unfold x_in; rewrite minus_IZR, <- !INR_IZR_INZ; field).
    rewrite X, (close_int _ _ (rounding_close lib)). cbv zeta. apply Bool.eq_iff_eq_true. rewrite !Bool.andb_true_iff, !Z.leb_le, !Nat.leb_le. lia. }
  destruct (fits (rounding lib) n n 1 j) eqn:FJ; destruct (fits (rounding lib) n n 1 i) eqn:FI.
  - rewrite (zoom_value _ _ im n) by (try assumption; apply rounding_close). rewrite !P, (read_pixel im n) by assumption.
    rewrite F in FJ, FI. apply Bool.andb_true_iff in FI. destruct FI as [F1 F2]. rewrite FJ, F1, F2. cbn [andb]. field.
  - rewrite (zoom_border _ _ im n); [|apply rounding_close|assumption|rewrite FJ, FI; reflexivity]. rewrite F in FJ, FI. rewrite FJ, Bool.andb_true_l, FI. destruct lib; simpl; field.
  - rewrite (zoom_border _ _ im n); [|apply rounding_close|assumption|rewrite FJ; reflexivity]. rewrite F in FJ. rewrite FJ. cbn [andb]. destruct lib; simpl; field.
  - rewrite (zoom_border _ _ im n); [|apply rounding_close|assumption|rewrite FJ; reflexivity]. rewrite F in FJ. rewrite FJ. cbn [andb]. destruct lib; simpl; field.
Qed.
(* CONSERVE does not keep the total, even at magnification 1 *)
Theorem C99_conserve_refuted : exists im, square im 13 /\ forall ip lib, exists o, prop_magnify ip lib im 1 13 (mkmk false true false) = Ok o /\
  rsum 13 (fun j => rsum 13 (fun i => fpx im j i)) = 1 /\ rsum 13 (fun j => rsum 13 (fun i => fpx o j i)) = 0.
Proof.
  exists (mkf 13 13 (fun a b => if (Nat.eqb a 0 && Nat.eqb b 0)%bool then 1 else 0)). split; [split; reflexivity|]. intros ip lib.
  destruct (C99_unit ip lib (mkf 13 13 (fun a b => if (Nat.eqb a 0 && Nat.eqb b 0)%bool then 1 else 0)) 13 (mkmk false true false)) as (o & O & _ & V); [split; reflexivity|lia|reflexivity|].
  exists o. split; [exact O|]. split; [cbn; ring|]. apply rsum_zero. intros j J. apply rsum_zero. intros i I'. rewrite V by assumption. cbn [fpx].
  destruct (Nat.leb_spec 6 j); cbn [andb]; [|reflexivity]. destruct (Nat.eqb_spec j 0); [lia|]. cbn [andb]. destruct (_ && _)%bool; reflexivity.
Qed.
(* a uniform image does not come out uniform, even away from the border *)
Theorem C99_uniform_refuted : forall ip lib, exists o, prop_magnify ip lib (mkf 17 17 (fun _ _ => 1)) 2 6 (mkmk false false false) = Ok o /\
  inner 17 (place 17 6 2 3) /\ inner 17 (place 17 6 2 4) /\ fpx o 3 3 = 1 /\ 1 < fpx o 3 4.
Proof.
  intros ip lib. destruct (C99_value ip lib (mkf 17 17 (fun _ _ => 1)) 17 2 6 (mkmk false false false)) as (o & O & _ & V); [split; reflexivity|lia|lra|reflexivity|].
  exists o. split; [exact O|]. assert (P3 : place 17 6 2 3 = INR 8) by (unfold place; simpl; field). assert (P4 : place 17 6 2 4 = 17 / 2) by (unfold place; simpl; field).
  assert (I3 : inner 17 (place 17 6 2 3)) by (rewrite P3; unfold inner; rewrite !INR_IZR_INZ; simpl; lra). assert (I4 : inner 17 (place 17 6 2 4)) by (rewrite P4; unfold inner; rewrite !INR_IZR_INZ; simpl; lra).
  split; [exact I3|]. split; [exact I4|]. rewrite !V by assumption. rewrite P3, P4, !read_const, sum_at_pixel by lia. unfold divisor. cbn [m_cons m_amp]. split; [field|]. rewrite sum_half. pose proof halves_large. lra.
Qed.
(* linear in the image *)
Theorem C99_linear ip lib im1 im2 a b n mag m k : square im1 n -> square im2 n -> (0 < m)%nat -> mag <> 0 -> m_quick k = false ->
  exists o1 o2 o, prop_magnify ip lib im1 mag m k = Ok o1 /\ prop_magnify ip lib im2 mag m k = Ok o2 /\
    prop_magnify ip lib (mkf n n (fun y x => a * fpx im1 y x + b * fpx im2 y x)) mag m k = Ok o /\ forall j i, fpx o j i = a * fpx o1 j i + b * fpx o2 j i.
Proof.
  intros S1 S2 M Z Q. unfold prop_magnify. rewrite !magnify_sinc by assumption. eexists. eexists. eexists. split; [reflexivity|]. split; [reflexivity|]. split; [reflexivity|]. intros j i. cbn [fpx].
  assert (E : memory lib (fun _ _ => 0) = (fun _ _ => 0)) by (destruct lib; reflexivity). rewrite E, (zoom_linear _ im1 im2 a b m mag n) by assumption. unfold Rdiv. ring.
Qed.
(* the size without one given is the whole part of n mag; at less than one pixel the C library gives an empty image, Python fails *)
Theorem C99_size ip lib im n mag k : square im n -> 1 <= INR n * mag -> exists o, prop_magnify ip lib im mag 0 k = Ok o /\ square o (Z.to_nat (Flocq.Core.Raux.Zfloor (INR n * mag))).
Proof.
  intros [S1 S2] P. unfold prop_magnify, magnify_with. rewrite S1. unfold magnify_size, out_size. cbn [Nat.eqb]. cbv zeta. rewrite (Flocq.Core.Raux.Ztrunc_floor (INR n * mag)) by lra.
  assert (F : (1 <= Flocq.Core.Raux.Zfloor (INR n * mag))%Z) by (apply Flocq.Core.Raux.Zfloor_lub; exact P). set (s := Flocq.Core.Raux.Zfloor (INR n * mag)) in *.
  destruct (Z.eqb_spec s 0); [lia|]. rewrite Bool.andb_false_r. destruct (Z.ltb_spec s 0); [lia|]. destruct (Req_EM_T mag 0) as [E|E]; [subst mag; lra|]. cbn [rbind]. eexists. split; [reflexivity|]. split; reflexivity.
Qed.
Theorem C99_empty_refuted ip im n mag k : square im n -> 0 < mag -> INR n * mag < 1 -> m_quick k = false ->
  (exists o, prop_magnify ip true im mag 0 k = Ok o /\ square o 0) /\ prop_magnify ip false im mag 0 k = Raise ValueError.
Proof.
  intros [S1 S2] P P1 Q. unfold prop_magnify, magnify_with. rewrite S1, Q. unfold magnify_size, out_size. cbn [Nat.eqb]. cbv zeta.
  assert (F : Flocq.Core.Raux.Ztrunc (INR n * mag) = 0%Z). { pose proof (pos_INR n). rewrite Flocq.Core.Raux.Ztrunc_floor by nra. apply Flocq.Core.Raux.Zfloor_imp. simpl. nra. }
  rewrite F. cbn [Z.eqb negb andb Z.ltb Z.compare]. split; [|reflexivity]. destruct (Req_EM_T mag 0); [lra|]. cbn [rbind]. eexists. split; [reflexivity|]. split; reflexivity.
Qed.
(* QUICK with an interpolation exact at pixels: a place that is a pixel gives that pixel's value *)
Theorem C99_quick ip lib im n mag m k p q : grid_exact ip -> square im n -> (0 < m)%nat -> mag <> 0 -> m_quick k = true -> (2 <= p <= n - 2)%nat -> (2 <= q <= n - 2)%nat ->
  exists o, prop_magnify ip lib im mag m k = Ok o /\ forall j i, (j < m)%nat -> (i < m)%nat -> place n m mag j = INR p -> place n m mag i = INR q -> fpx o j i = fpx im p q / divisor k false mag.
Proof.
  intros G [S1 S2] M Z Q P P'. unfold prop_magnify, magnify_with. rewrite S1, Q, size_given by assumption. cbn [rbind]. cbv zeta. eexists. split; [reflexivity|]. intros j i J I' PJ PI'. cbn [fpx]. rewrite divisor_eq. f_equal.
  rewrite (G (to_arr im) m _ _ j i (Z.of_nat q) (Z.of_nat p)); try assumption.
  - unfold to_arr. cbn [px]. now rewrite !Nat2Z.id.
  - rewrite <- INR_IZR_INZ, <- PI'. unfold x_in, place. ring.
  - rewrite <- INR_IZR_INZ, <- PJ. unfold x_in, place. ring.
  - unfold to_arr. cbn [nc]. rewrite S2. lia.
  - unfold to_arr. cbn [nr]. rewrite S1. lia.
Qed.
(* prop_pixellate: the output size asked for is never used *)
Theorem C99_pixellate_size ip lib im sin_ sout m1 m2 : prop_pixellate ip lib im sin_ sout m1 = prop_pixellate ip lib im sin_ sout m2.
Proof.
  assert (H : forall m, prop_pixellate ip lib im sin_ sout m = prop_pixellate ip lib im sin_ sout 0); [|rewrite (H m1), (H m2); reflexivity].
  intros m. unfold prop_pixellate. cbv zeta. destruct (Nat.eqb_spec m 0) as [E|E]; [subst m; reflexivity|]. cbn [Nat.eqb]. set (mag := sin_ / sout).
  destruct (Nat.eqb_spec (Z.to_nat (Flocq.Core.Raux.Ztrunc (INR (frows im) * mag))) 0) as [F|F]; [rewrite F; reflexivity|].
  unfold prop_magnify, magnify_with. replace (frows (pixel_conv im sin_ sout)) with (frows im) by reflexivity.
  assert (X : magnify_size lib false (frows im) mag (Z.to_nat (Flocq.Core.Raux.Ztrunc (INR (frows im) * mag))) = magnify_size lib false (frows im) mag 0); [|cbn [m_quick]; rewrite X; reflexivity].
  unfold magnify_size, out_size. cbn [Nat.eqb]. cbv zeta. destruct (Nat.eqb_spec (Z.to_nat (Flocq.Core.Raux.Ztrunc (INR (frows im) * mag))) 0); [contradiction|]. rewrite Z2Nat.id by lia. reflexivity.
Qed.
(* its pixel transfer function, at index i of an n-point transform: for even n the sinc of pixel width (in input pixels) times frequency; for odd n the frequency is too high by n / (n - 1) *)
Theorem C99_pixel_mtf n a b i : a <> 0 -> b <> 0 -> (2 <= n)%nat -> (i < n)%nat ->
  pixel_mtf n a b i = sinc (b / a * ((if Nat.ltb i (n - n / 2) then INR i else INR i - INR n) / (INR n - (if Nat.even n then 0 else 1)))).
Proof.
  intros A B N H. rewrite mtf_value by assumption. f_equal. f_equal. f_equal.
  destruct (Nat.even n) eqn:E.
  - apply Nat.even_spec in E. destruct E as [h E]. subst n. rewrite Nat.mul_comm, Nat.div_mul by lia. rewrite mult_INR. simpl (INR 2). ring.
  - assert (O : Nat.odd n = true) by (unfold Nat.odd; now rewrite E). apply Nat.odd_spec in O. destruct O as [h O]. subst n.
    replace ((2 * h + 1) / 2)%nat with h by (rewrite Nat.add_comm, Nat.mul_comm, Nat.div_add by lia; reflexivity). rewrite plus_INR, mult_INR. simpl (INR 2). simpl (INR 1). ring.
Qed.
(* a uniform image: every place that is a pixel inside gives its level times the area of the detector pixel *)
Theorem C99_pixellate_uniform ip lib n v a b m0 : 0 <= v -> 0 < a -> 0 < b -> 1 <= INR n * (a / b) ->
  exists o, prop_pixellate ip lib (mkf n n (fun _ _ => v)) a b m0 = Ok o /\ square o (Z.to_nat (Flocq.Core.Raux.Zfloor (INR n * (a / b)))) /\
    forall j i p q, (6 <= p)%nat -> (p + 7 <= n)%nat -> (6 <= q)%nat -> (q + 7 <= n)%nat -> place n (frows o) (a / b) j = INR p -> place n (frows o) (a / b) i = INR q -> fpx o j i = v * (b / a) ^ 2.
Proof.
  intros V A B P. rewrite (C99_pixellate_size ip lib _ a b m0 0). unfold prop_pixellate. cbn [Nat.eqb]. cbv zeta.
  set (im := pixel_conv (mkf n n (fun _ _ => v)) a b). assert (S : square im n) by (split; reflexivity). set (mag := a / b) in *. set (k := mkmk false false false).
  assert (Z : mag <> 0) by (intros E; rewrite E in P; lra). set (s := Z.to_nat (Flocq.Core.Raux.Zfloor (INR n * mag))).
  assert (F : (1 <= Flocq.Core.Raux.Zfloor (INR n * mag))%Z) by (apply Flocq.Core.Raux.Zfloor_lub; exact P).
  assert (E : prop_magnify ip lib im mag 0 k = prop_magnify ip lib im mag s k).
  { unfold prop_magnify, magnify_with. replace (frows im) with n by reflexivity. assert (X : magnify_size lib (m_quick k) n mag 0 = Ok s).
    - unfold magnify_size, out_size. cbn [Nat.eqb]. cbv zeta. rewrite (Flocq.Core.Raux.Ztrunc_floor (INR n * mag)) by lra. destruct (Z.eqb_spec (Flocq.Core.Raux.Zfloor (INR n * mag)) 0); [lia|]. rewrite Bool.andb_false_r.
      destruct (Z.ltb_spec (Flocq.Core.Raux.Zfloor (INR n * mag)) 0); [lia|]. destruct (Req_EM_T mag 0); [contradiction|]. reflexivity.
    - rewrite X, size_given by (try exact Z; unfold s; lia). reflexivity. }
  rewrite E. destruct (C99_value ip lib im n mag s k S) as (o & O & SO & _); try exact Z; try reflexivity; [unfold s; lia|]. exists o. split; [exact O|]. split; [exact SO|].
  intros j i p q P1 P2 Q1 Q2 J I'. destruct (C99_same_sample ip lib im n mag s k p q S) as (o' & O' & W); try assumption; try reflexivity; [unfold s; lia|].
  rewrite O in O'. injection O' as <-. destruct SO as [SO _]. rewrite SO in J, I'. rewrite (W j i J I'). unfold im. rewrite conv_const by (try lra; lia). unfold divisor. cbn [m_cons m_amp k]. rewrite Rabs_right by lra. field. lra.
Qed.
(* a concrete call: a peak at the centre of 13 pixels, magnified twice into 3: the peak, zeros at the corner *)
Theorem C99_example ip lib : exists o, prop_magnify ip lib (mkf 13 13 (fun a b => if (Nat.eqb a 6 && Nat.eqb b 6)%bool then 8 else 0)) 2 3 (mkmk false true false) = Ok o /\ square o 3 /\ fpx o 1 1 = 2.
Proof.
  destruct (C99_same_sample ip lib (mkf 13 13 (fun a b => if (Nat.eqb a 6 && Nat.eqb b 6)%bool then 8 else 0)) 13 2 3 (mkmk false true false) 6 6) as (o & O & V); try (split; reflexivity); try lia; try lra; try reflexivity.
  exists o. split; [exact O|]. split.
  - destruct (C99_value ip lib (mkf 13 13 (fun a b => if (Nat.eqb a 6 && Nat.eqb b 6)%bool then 8 else 0)) 13 2 3 (mkmk false true false)) as (o' & O' & SO & _); try (split; reflexivity); try lia; try lra; try reflexivity. rewrite O in O'. injection O' as <-. exact SO.
  - rewrite V by (unfold place; simpl; field). cbn [fpx Nat.eqb andb]. unfold divisor. cbn [m_cons m_amp]. field.
Qed.
