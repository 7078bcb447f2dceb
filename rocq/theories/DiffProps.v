(* C68, C69: the differentiable DM. *)
From Verif Require Import Base RBase StrBase UtilModel UtilSpec UtilProofs CBase PropModel PropSpec PropProofs OptModel OptSpec LinBase OptProofs OptProofs3 OptProofs4 OptProofs7 GradAdj2 DiffModel DiffSpec DiffProofs DiffProofs2 DiffProofs3 DiffProofs4.
Open Scope R_scope.

(* C68.  After any history of commands, the reverse pass returns the transpose of rendering applied to g: the sum of the products of g with the
   rendered map is the sum of the products of the returned array with the command.  Even arrays, no resampling, any shift. *)
Theorem C68_reverse_is_transpose ifn nact sep shx shy hist a wfe r c g :
  act_fit (frows ifn) nact sep -> act_fit (fcols ifn) nact sep -> Nat.even (frows ifn) = true -> Nat.even (fcols ifn) = true ->
  Forall (dims nact nact) hist -> dims nact nact a -> (1 <= r)%nat -> (1 <= c)%nat -> dims r c g ->
  exists d S inter b, commanded ifn nact sep shx shy 1 hist a = Ok d /\ render d r c wfe = Ok (S, inter) /\ dims r c S /\
    render_backprop d (Some inter) g wfe = Ok b /\ dims nact nact b /\ rdot r c g S = rdot nact nact b a.
Proof.
  intros FA FB EA EB FH Da Hr Hc Dg. destruct (commanded_holds ifn nact sep shx shy 1 hist a FA FB FH Da) as (d & E & H). exists d.
  destruct (adjoint_11 ifn nact sep shx shy a d wfe r c g FA FB EA EB H Hr Hc Dg) as (S & i & b & X). exists S, i, b. destruct X as (X1 & X2 & X3 & X4 & X5). auto 8.
Qed.
(* the rendered map depends on the last command only *)
Theorem C68_history_free ifn nact sep shx shy hist hist' a wfe r c :
  act_fit (frows ifn) nact sep -> act_fit (fcols ifn) nact sep -> Forall (dims nact nact) hist -> Forall (dims nact nact) hist' -> dims nact nact a -> (1 <= r)%nat -> (1 <= c)%nat ->
  exists d d' S S' i, commanded ifn nact sep shx shy 1 hist a = Ok d /\ commanded ifn nact sep shx shy 1 hist' a = Ok d' /\
    render d r c wfe = Ok (S, i) /\ render d' r c wfe = Ok (S', i) /\ dims r c S /\ dims r c S' /\ forall y x, (y < r)%nat -> (x < c)%nat -> fpx S y x = fpx S' y x.
Proof.
  intros FA FB FH FH' Da Hr Hc. destruct (commanded_holds ifn nact sep shx shy 1 hist a FA FB FH Da) as (d & E & H). destruct (commanded_holds ifn nact sep shx shy 1 hist' a FA FB FH' Da) as (d' & E' & H').
  destruct (render_same _ _ _ _ _ _ d d' wfe r c FA FB H H' Hr Hc) as (S & S' & i & X). exists d, d', S, S', i. auto 9.
Qed.
(* without an earlier render there is no reverse pass *)
Theorem C68_needs_render d g wfe : render_backprop d None g wfe = Raise AttributeError.
Proof. reflexivity. Qed.

Definition delta (n p q : nat) : field R := mkf n n (fun i j => if Nat.eqb i p && Nat.eqb j q then 1 else 0).
Definition unit11 : field R := mkf 1 1 (fun _ _ => 1).
Lemma fit_313 : act_fit 3 1 1. Proof. unfold act_fit. repeat split; try lia; vm_compute; congruence. Qed.
Lemma fit_222 : act_fit 2 2 1. Proof. unfold act_fit. repeat split; try lia; vm_compute; congruence. Qed.

(* odd arrays: not the transpose.  3 x 3 influence function that is 1 at its centre, one actuator. *)
Theorem C68_odd_size_refuted : exists d S inter b,
  commanded (delta 3 1 1) 1 1 0 0 1 [] unit11 = Ok d /\ render d 3 3 false = Ok (S, inter) /\ render_backprop d (Some inter) (delta 3 0 0) false = Ok b /\
  rdot 3 3 (delta 3 0 0) S = 0 /\ rdot 1 1 b unit11 = 1.
Proof.
  assert (FA := fit_313). destruct (commanded_holds (delta 3 1 1) 1 1 (IZR 0) (IZR 0) 1 [] unit11 FA FA) as (d & E & H); [constructor|split; reflexivity|].
  destruct (render_superposed (delta 3 1 1) 1 1 0 0 unit11 d false 3 3 FA FA H) as (S & inter & ER & DS & VS); [lia|lia|].
  destruct (render_11 (delta 3 1 1) 1 1 (IZR 0) (IZR 0) unit11 d false 3 3 FA FA H) as (s & S' & _ & _ & ER' & _); [lia|lia|]. rewrite ER in ER'. injection ER' as _ EI. cbn [delta frows fcols] in EI.
  pose proof H as (HI & HT & HU & HL & _). destruct (pad_cropr_px (delta 3 0 0) 3 3) as (p & Ep & [P1 P2] & Vp); [lia|lia|]. pose proof (make_tf_dims (delta 3 1 1) (IZR 0) (IZR 0)) as [T1 T2].
  destruct (apply_tf_px p (fmap Cconj (make_tf (delta 3 1 1) (IZR 0) (IZR 0))) 3 3) as (O & EO & DO & VO); [lia|lia|split; auto|split; auto|].
  exists d, S, inter, (gather (d_lat d) O). split; [exact E|]. split; [exact ER|]. split; [|split].
  - unfold render_backprop. rewrite EI, Ep. cbn [rbind]. rewrite HU, HT. destruct (Req_EM_T 1 1) as [_|]; [|congruence]. cbv zeta. rewrite EO. reflexivity.
  - unfold rdot. cbn [rsum delta fpx Nat.eqb andb]. rewrite (VS 0%nat 0%nat) by lia. cbv zeta. cbn [delta frows fcols].
    change ((0 <=? Z.of_nat 3 / 2 + (Z.of_nat 0 - Z.of_nat 3 / 2)) && (Z.of_nat 3 / 2 + (Z.of_nat 0 - Z.of_nat 3 / 2) <? Z.of_nat 3) && (0 <=? Z.of_nat 3 / 2 + (Z.of_nat 0 - Z.of_nat 3 / 2)) && (Z.of_nat 3 / 2 + (Z.of_nat 0 - Z.of_nat 3 / 2) <? Z.of_nat 3))%Z with true. cbv iota.
    unfold superposed. cbn [rsum unit11 fpx]. match goal with |- context [periodic (delta 3 1 1) ?y ?x] => change (periodic (delta 3 1 1) y x) with 0 end. ring.
  - unfold rdot. rewrite HL. cbn [gather lt_ny lt_nx lt_y0 lt_x0 lt_sy lt_sx fpx rsum delta frows fcols unit11]. change (Z.to_nat (act_pos 3 1 1 0 + Z.of_nat 0 * Z.of_nat 1)) with 0%nat. rewrite VO by lia.
    rewrite (rsum_ext 3 _ (fun i => rsum 3 (fun j => (if Nat.eqb i 0 && Nat.eqb j 0 then 1 else 0) * periodic (delta 3 1 1) (Z.of_nat i - Z.of_nat (roll_ix 3 (half 3) 0)) (Z.of_nat j - Z.of_nat (roll_ix 3 (half 3) 0))))).
    2:{ intros i Hi. apply rsum_ext. intros j Hj. rewrite Vp by auto. f_equal.
        - unfold crop_src. cbn [delta frows fcols fpx]. destruct i as [|[|[|i]]], j as [|[|[|j]]]; try lia; reflexivity.
        - etransitivity; [apply (kr_conj 3 3 (fpx (make_tf (delta 3 1 1) (IZR 0) (IZR 0))))|]. rewrite (kr_tf (delta 3 1 1) 0 0 3 3) by (try lia; split; reflexivity). f_equal; lia. }
    cbn [rsum Nat.eqb andb]. change (periodic (delta 3 1 1) (Z.of_nat 0 - Z.of_nat (roll_ix 3 (half 3) 0)) (Z.of_nat 0 - Z.of_nat (roll_ix 3 (half 3) 0))) with 1. ring.
Qed.
(* resampling: not the transpose either.  2 x 2 influence function that is 1 at its centre, 2 x 2 actuators, half the sampling. *)
Lemma nround_int k : nround (IZR k) = k.
Proof. unfold nround. rewrite Int_part_IZR. cbv zeta. destruct (Rlt_dec (IZR k - IZR k) (1 / 2)); [reflexivity|lra]. Qed.
Lemma sqrt_hh : sqrt (1 / 2) * sqrt (1 / 2) = 1 / 2. Proof. apply sqrt_sqrt. lra. Qed.
Lemma resample_half s : dims 2 2 s -> dims 1 1 (resample s (1 / 2)) /\ fpx (resample s (1 / 2)) 0 0 = fpx s 1 1.
Proof.
  intros [S1 S2]. unfold resample. destruct (Req_EM_T (1 / 2) 1); [lra|]. cbv zeta. rewrite S1, S2. replace (INR 2 * (1 / 2)) with (IZR 1) by (cbn [INR]; lra). rewrite nround_int. change (Z.to_nat 1) with 1%nat.
  split; [split; reflexivity|]. cbn [fpx].
  assert (A : forall x, axis 1 x 0 = 0) by (intros; unfold axis; cbn; ring).
  rewrite (csum_ext 2 _ (fun u => csum 2 (fun v => fpx (fftshift (fft2_ortho (ifftshift (cfield s)))) u v))).
  2:{ intros u _. apply csum_ext. intros v _. rewrite A, !Rmult_0_l, Rmult_0_r, cis_0. rewrite Cmult_1_l, Cmult_1_r. reflexivity. }
  pose proof (dft2_inverse 1 2 2 (fpx (ifftshift (cfield s))) 0 0 (or_introl eq_refl) ltac:(lia) ltac:(lia)) as X.
  unfold dft2 at 1 in X. rewrite (csum_ext 2 _ (fun u => csum 2 (fun v => dft2 (-1) 2 2 (fpx (ifftshift (cfield s))) u v))) in X.
  2:{ intros u _. apply csum_ext. intros v _. unfold ph. cbn [INR]. replace (1 * (2 * PI) * 0 * INR u / (1 + 1)) with 0 by field. replace (1 * (2 * PI) * 0 * INR v / (1 + 1)) with 0 by field. rewrite cis_0. replace (- (1)) with (-1) by lra. ring. }
  assert (Y : csum 2 (fun u => csum 2 (fun v => fpx (fftshift (fft2_ortho (ifftshift (cfield s)))) u v)) = Cmult (RtoC (/ 2)) (csum 2 (fun u => csum 2 (fun v => dft2 (-1) 2 2 (fpx (ifftshift (cfield s))) u v)))).
  { unfold fftshift, fft2_ortho. cbn [fft_scaled roll2 frows fcols fpx ifftshift cfield fmap]. rewrite !S1, !S2. change (roll2 (- half 2) (- half 2) (fmap RtoC s)) with (roll2 (- half 2) (- half 2) (fmap RtoC s)).
    assert (Q : size (ifftshift (cfield s)) = 2 * 2) by (unfold size, ifftshift, roll2; cbn [frows fcols cfield fmap]; rewrite S1, S2; cbn [INR]; ring).
    rewrite Q, sqrt_square by lra. cbn [csum]. change (roll_ix 2 (half 2) 0) with 1%nat. change (roll_ix 2 (half 2) 1) with 0%nat. ring. }
  rewrite Y, X. rewrite fst_scal, fst_scal. unfold ifftshift. cbn [roll2 cfield fmap frows fcols fpx]. rewrite S1, S2. change (roll_ix 2 (- half 2) 0) with 1%nat. cbn [RtoC fst INR].
  replace (1 / 1) with 1 by field. rewrite sqrt_1. field.
Qed.
Lemma resample_double p : dims 1 1 p -> dims 2 2 (resample p (INR 2 / INR 1)) /\ forall i j, (i < 2)%nat -> (j < 2)%nat -> fpx (resample p (INR 2 / INR 1)) i j = fpx p 0 0.
Proof.
  intros [S1 S2]. replace (INR 2 / INR 1) with 2 by (cbn [INR]; field). unfold resample. destruct (Req_EM_T 2 1); [lra|]. cbv zeta. rewrite S1, S2. replace (INR 1 * 2) with (IZR 2) by (cbn [INR]; lra). rewrite nround_int. change (Z.to_nat 2) with 2%nat.
  split; [split; reflexivity|]. intros i j Hi Hj. cbn [fpx].
  assert (A : forall x, axis 1 x 0 = 0) by (intros; unfold axis; cbn; ring). cbn [csum]. rewrite !A, !Rmult_0_r, cis_0.
  unfold fftshift, fft2_ortho. cbn [fft_scaled roll2 frows fcols fpx ifftshift cfield fmap]. rewrite !S1, !S2. change (roll_ix 1 (half 1) 0) with 0%nat. unfold dft2. cbn [csum].
  change (half 1) with 0%Z. change (roll_ix 1 (- 0) 0) with 0%nat. unfold ph. cbn [INR]. replace (-1 * (2 * PI) * 0 * 0 / 1) with 0 by field. rewrite cis_0.
  assert (Q : size (ifftshift (cfield p)) = 1) by (unfold size, ifftshift, roll2; cbn [frows fcols cfield fmap]; rewrite S1, S2; cbn [INR]; ring). rewrite Q, sqrt_1.
  replace (1 + 1) with 2 by ring. rewrite sqrt_hh. cbn. field.
Qed.
Theorem C68_resampled_refuted : exists d S inter b,
  commanded (delta 2 1 1) 2 1 0 0 (1 / 2) [] (delta 2 1 1) = Ok d /\ render d 1 1 false = Ok (S, inter) /\ render_backprop d (Some inter) unit11 false = Ok b /\
  rdot 1 1 unit11 S = 1 /\ rdot 2 2 b (delta 2 1 1) = 1 / 4.
Proof.
  assert (FA := fit_222). destruct (commanded_holds (delta 2 1 1) 2 1 (IZR 0) (IZR 0) (1 / 2) [] (delta 2 1 1) FA FA) as (d & E & H); [constructor|split; reflexivity|].
  destruct (surface_superposed (delta 2 1 1) 2 1 0 0 (1 / 2) (delta 2 1 1) d false FA FA H) as (s & Es & Ds & Vs). pose proof H as (HI & HT & HU & HL & _).
  destruct (apply_tf (d_poke d) (d_tf d)) as [s0|] eqn:EA; cbn [rbind] in Es; [|discriminate]. injection Es as ->.
  destruct (resample_half s Ds) as [[D1 D2] V1]. destruct (pad_cropr_px (resample s (1 / 2)) 1 1) as (S & ES & DS & VS); [lia|lia|].
  destruct (pad_cropr_px unit11 1 1) as (p & Ep & Dp & Vp); [lia|lia|]. destruct Dp as [P1 P2]. destruct (resample_double p (conj P1 P2)) as [[R1 R2] VR].
  pose proof (make_tf_dims (delta 2 1 1) (IZR 0) (IZR 0)) as [T1 T2]. set (q := rscale (/ ((INR 2 / INR 1) * (INR 2 / INR 1))) (resample p (INR 2 / INR 1))).
  destruct (apply_tf_px q (fmap Cconj (make_tf (delta 2 1 1) (IZR 0) (IZR 0))) 2 2) as (O & EO & DO & VO); [lia|lia|split; auto|split; auto|].
  exists d, S, (1%nat, 1%nat), (gather (d_lat d) O). split; [exact E|]. split; [|split; [|split]].
  - unfold render. rewrite EA. cbn [rbind]. cbv zeta. rewrite HU, ES. cbn [rbind]. now rewrite D1, D2.
  - unfold render_backprop. rewrite Ep. cbn [rbind]. rewrite HU, HT, HI. destruct (Req_EM_T (1 / 2) 1); [lra|]. cbv zeta. rewrite P1. cbn [delta frows]. fold q. rewrite EO. reflexivity.
  - unfold rdot. cbn [rsum unit11 fpx]. rewrite VS by lia. rewrite D1, D2. change (crop_src 1 1 0) with (Some 0%nat). cbv iota. rewrite V1, Vs by (cbn; lia). unfold superposed. cbn [rsum]. cbn [delta fpx Nat.eqb andb].
    match goal with |- context [1 * periodic (delta 2 1 1) ?y ?x] => change (periodic (delta 2 1 1) y x) with 1 end. unfold gain. ring.
  - unfold rdot. rewrite HL. cbn [gather lt_ny lt_nx lt_y0 lt_x0 lt_sy lt_sx fpx rsum delta frows fcols Nat.eqb andb]. change (Z.to_nat (act_pos 2 2 1 0 + Z.of_nat 1 * Z.of_nat 1)) with 1%nat. rewrite (VO 1%nat 1%nat) by lia.
    rewrite (rsum_ext 2 _ (fun i => rsum 2 (fun j => 1 / 4 * periodic (delta 2 1 1) (Z.of_nat i - Z.of_nat (roll_ix 2 (half 2) 1)) (Z.of_nat j - Z.of_nat (roll_ix 2 (half 2) 1))))).
    2:{ intros i Hi. apply rsum_ext. intros j Hj. f_equal.
        - unfold q. cbn [rscale fpx]. rewrite VR, Vp by auto. change (crop_src 1 (frows unit11) 0) with (Some 0%nat). change (crop_src 1 (fcols unit11) 0) with (Some 0%nat). cbn [unit11 fpx INR]. field.
        - etransitivity; [apply (kr_conj 2 2 (fpx (make_tf (delta 2 1 1) (IZR 0) (IZR 0))))|]. rewrite (kr_tf (delta 2 1 1) 0 0 2 2) by (try lia; split; reflexivity). f_equal; lia. }
    cbn [rsum]. change (Z.of_nat (roll_ix 2 (half 2) 1)) with 0%Z. change (periodic (delta 2 1 1) (Z.of_nat 0 - 0) (Z.of_nat 0 - 0)) with 0. change (periodic (delta 2 1 1) (Z.of_nat 0 - 0) (Z.of_nat 1 - 0)) with 0. change (periodic (delta 2 1 1) (Z.of_nat 1 - 0) (Z.of_nat 0 - 0)) with 0. change (periodic (delta 2 1 1) (Z.of_nat 1 - 0) (Z.of_nat 1 - 0)) with 1. ring.
Qed.
(* a case that meets the hypotheses of C68_reverse_is_transpose and _history_free: 4 x 4 influence function, 2 x 2 actuators, two earlier commands *)
Example C68_example : act_fit 4 2 2 /\ Nat.even (frows (delta 4 2 2)) = true /\ Forall (dims 2 2) [delta 2 0 1; delta 2 1 1] /\ dims 2 2 (delta 2 0 0) /\ dims 3 5 (mkf 3 5 (fun i j => INR (i + j))).
Proof.
  split; [unfold act_fit; repeat split; try lia; vm_compute; congruence|]. split; [reflexivity|]. split; [repeat constructor|]. split; split; reflexivity.
Qed.

(* C69.  With whole-pixel shifts and no resampling the rendered map is the sum over the actuators of command times influence function, the influence
   function's central sample on the actuator's position plus shift, periodic over the array of the influence function, cropped or zero padded about the
   centre; times 2 for wavefront error.  On an odd axis everything is one sample too low: hence the "mod 2". *)
Theorem C69_superposition ifn nact sep sx sy hist a wfe r c :
  act_fit (frows ifn) nact sep -> act_fit (fcols ifn) nact sep -> Forall (dims nact nact) hist -> dims nact nact a -> (1 <= r)%nat -> (1 <= c)%nat ->
  exists d S inter, commanded ifn nact sep (IZR sx) (IZR sy) 1 hist a = Ok d /\ render d r c wfe = Ok (S, inter) /\ dims r c S /\
    forall i j, (i < r)%nat -> (j < c)%nat ->
    let y := (Z.of_nat (frows ifn) / 2 + (Z.of_nat i - Z.of_nat r / 2))%Z in let x := (Z.of_nat (fcols ifn) / 2 + (Z.of_nat j - Z.of_nat c / 2))%Z in
    fpx S i j = if ((0 <=? y) && (y <? Z.of_nat (frows ifn)) && (0 <=? x) && (x <? Z.of_nat (fcols ifn)))%Z
      then (if wfe then 2 else 1) * superposed ifn nact sep sx sy a (y + Z.of_nat (frows ifn) mod 2) (x + Z.of_nat (fcols ifn) mod 2) else 0.
Proof.
  intros FA FB FH Da Hr Hc. destruct (commanded_holds ifn nact sep (IZR sx) (IZR sy) 1 hist a FA FB FH Da) as (d & E & H). destruct (render_superposed ifn nact sep sx sy a d wfe r c FA FB H Hr Hc) as (S & inter & X1 & X2 & X3). exists d, S, inter. auto.
Qed.
(* positions that the wrapper gives the actuators of an even DM: column k lies (k - xc) pitches from the centre, up to the truncation of the offset to a whole sample *)
Theorem C69_wrapper_positions nact mag xc k : Nat.even nact = true -> Nat.even mag = true ->
  let n := wrapper_size nact mag in
  Rabs (IZR (act_pos n nact mag k + wrapper_shift xc nact mag) - (INR n / 2 + (INR k - xc) * INR mag)) < 1 /\
  ((exists z, (xc + 1 / 2) * INR mag = IZR z) -> IZR (act_pos n nact mag k + wrapper_shift xc nact mag) = INR n / 2 + (INR k - xc) * INR mag).
Proof.
  intros E1 E2 n. assert (En : Nat.even n = true).
  { unfold n, wrapper_size. apply Nat.even_spec in E2. destruct E2 as [m ->]. apply Nat.even_spec. exists (nact * m + 2 * (9 * m))%nat. ring. }
  destruct (wrapper_pos n nact mag xc k E1 E2) as [A B]. rewrite (half_even n En) in A, B. split; [exact A|]. intros [z Hz]. apply (B (z - Z.of_nat nact / 2 * Z.of_nat mag)%Z). rewrite minus_IZR, mult_IZR, <- INR_IZR_INZ, <- Hz. ring.
Qed.
(* the DM fits on its array *)
Theorem C69_wrapper_fits nact mag : (1 <= nact)%nat -> (1 <= mag)%nat -> act_fit (wrapper_size nact mag) nact mag.
Proof.
  intros Hn Hm. unfold act_fit, wrapper_size. split; [auto|]. split; [auto|]. unfold act_pos.
  assert (X : (Z.of_nat (nact * mag + 2 * (9 * mag)) = Z.of_nat nact * Z.of_nat mag + 18 * Z.of_nat mag)%Z) by lia. rewrite X. set (m := Z.of_nat mag) in *. set (N := Z.of_nat nact) in *. assert (1 <= m)%Z by lia. assert (1 <= N)%Z by lia. pose proof (Z.div_mod (N * m + 18 * m) 2). pose proof (Z.mod_pos_bound (N * m + 18 * m) 2). pose proof (Z.div_mod m 2). pose proof (Z.mod_pos_bound m 2).
  assert (K : Z.of_nat (nact - 1) = (N - 1)%Z) by (unfold N; lia). rewrite K. destruct (Nat.even nact) eqn:E.
  - assert (exists h, N = 2 * h)%Z as [h Hh] by (apply Nat.even_spec in E; destruct E as [h ->]; exists (Z.of_nat h); unfold N; lia). rewrite Hh in *. rewrite (Z.mul_comm 2 h), Z.div_mul by lia. split; nia.
  - assert (exists h, N = 2 * h + 1)%Z as [h Hh] by (assert (O : Nat.odd nact = true) by (unfold Nat.odd; now rewrite E); apply Nat.odd_spec in O; destruct O as [h ->]; exists (Z.of_nat h); unfold N; lia). rewrite Hh in *. replace (2 * h + 1 + 1)%Z with ((h + 1) * 2)%Z by lia. rewrite Z.div_mul by lia. split; nia.
Qed.
(* an odd DM comes out one and a half pitches too low *)
Theorem C69_odd_dm_refuted nact mag xc k : Nat.even nact = false -> Nat.even mag = true -> (exists z, (xc + 1 / 2) * INR mag = IZR z) ->
  let n := wrapper_size nact mag in IZR (act_pos n nact mag k + wrapper_shift xc nact mag) = INR n / 2 + (INR k - xc) * INR mag - 3 / 2 * INR mag.
Proof.
  intros E1 E2 [z Hz] n. assert (En : Nat.even n = true).
  { unfold n, wrapper_size. apply Nat.even_spec in E2. destruct E2 as [m ->]. apply Nat.even_spec. exists (nact * m + 2 * (9 * m))%nat. ring. }
  rewrite (wrapper_pos_odd n nact mag xc k (z - Z.of_nat nact / 2 * Z.of_nat mag)%Z E1) by (rewrite minus_IZR, mult_IZR, <- INR_IZR_INZ, <- Hz; ring). now rewrite (half_even n En).
Qed.
(* a DM with different numbers of actuators along its axes cannot be commanded *)
Theorem C69_nonsquare_rejected ifn nactx nacty sepx sepy shx shy up d a : nactx <> nacty -> act_fit (fcols ifn) nactx sepx -> act_fit (frows ifn) nacty sepy ->
  dm_init ifn nactx nacty sepx sepy shx shy up = Ok d -> dims nactx nacty a -> dm_update d a = Raise ValueError.
Proof.
  intros Hne FX FY Ei Da. unfold dm_init in Ei. destruct (Nat.eqb sepx 0 || Nat.eqb sepy 0); [discriminate|]. injection Ei as <-. unfold dm_update. cbn [d_act zeros frows fcols d_lat d_poke].
  destruct (bcast_same a nactx nacty Da) as (B & -> & [B1 B2] & _). cbn [rbind]. unfold scatter_lat, prepare_lattice. cbv zeta. cbn [lt_ny lt_nx]. rewrite (proj2 (lat_len _ _ _ FX)), (proj2 (lat_len _ _ _ FY)). unfold bcast_to. rewrite B1, B2.
  destruct (act_fit_pos _ _ _ FX) as [_ P1]. destruct (act_fit_pos _ _ _ FY) as [_ P2].
  destruct (Nat.eqb_spec nactx nacty); [congruence|]. destruct (Nat.eqb_spec nacty nactx); [congruence|]. destruct (Nat.eqb_spec nactx 1); destruct (Nat.eqb_spec nacty 1); cbn [orb andb rbind]; try reflexivity. lia.
Qed.
Example C69_example : act_fit 4 2 2 /\ (exists z, (47 / 2 + 1 / 2) * INR 10 = IZR z) /\ superposed (delta 4 2 2) 2 2 0 0 (delta 2 1 0) 3 1 = 1 /\ act_fit 8 3 2 /\ act_fit 8 2 2.
Proof.
  split; [unfold act_fit; repeat split; try lia; vm_compute; congruence|]. split; [exists 240%Z; cbn [INR]; lra|]. split.
  - unfold superposed. cbn [rsum delta fpx Nat.eqb andb]. match goal with |- context [1 * periodic (delta 4 2 2) ?y ?x] => change (periodic (delta 4 2 2) y x) with 1 end. ring.
  - split; unfold act_fit; repeat split; try lia; vm_compute; congruence.
Qed.
