(* Proofs about the differentiable DM: the surface as a sum of influence functions; counterexamples. *)
From Verif Require Import Base RBase StrBase UtilModel UtilSpec UtilProofs CBase PropModel PropSpec PropProofs OptModel OptSpec LinBase OptProofs OptProofs3 OptProofs4 OptProofs7 GradAdj2 DiffModel DiffSpec DiffProofs DiffProofs2 DiffProofs3.
Open Scope R_scope.
Lemma periodic_cong f y x y' x' : (y mod Z.of_nat (frows f) = y' mod Z.of_nat (frows f))%Z -> (x mod Z.of_nat (fcols f) = x' mod Z.of_nat (fcols f))%Z -> periodic f y x = periodic f y' x'.
Proof. intros A B. unfold periodic. now rewrite A, B. Qed.
Lemma roll_centre n i p s : (1 <= n)%nat -> ((Z.of_nat (roll_ix n (half n) i) - p - s) mod Z.of_nat n = (Z.of_nat i + Z.of_nat n mod 2 - (p + s) + Z.of_nat n / 2) mod Z.of_nat n)%Z.
Proof.
  intros Hn. unfold roll_ix, half. rewrite Z2Nat.id by (apply Z.mod_pos_bound; lia). rewrite Nat2Z.inj_div. change (Z.of_nat 2) with 2%Z.
  replace (Z.of_nat i + Z.of_nat n mod 2 - (p + s) + Z.of_nat n / 2)%Z with (Z.of_nat i - Z.of_nat n / 2 - (p + s) + 1 * Z.of_nat n)%Z by (pose proof (Z.div_mod (Z.of_nat n) 2); lia). rewrite Z.mod_add by lia.
  rewrite <- (Zminus_mod_idemp_l (Z.of_nat i - Z.of_nat n / 2) (p + s)). f_equal. lia.
Qed.
Theorem surface_superposed ifn nact sep sx sy up a d wfe : act_fit (frows ifn) nact sep -> act_fit (fcols ifn) nact sep -> holds ifn nact sep (IZR sx) (IZR sy) up a d ->
  exists s : field R, (do t <- apply_tf (d_poke d) (d_tf d); Ok (if wfe : bool then rscale 2 t else t)) = Ok s /\ dims (frows ifn) (fcols ifn) s /\ forall i j, (i < frows ifn)%nat -> (j < fcols ifn)%nat -> fpx s i j =
    gain wfe * superposed ifn nact sep sx sy a (Z.of_nat i + Z.of_nat (frows ifn) mod 2) (Z.of_nat j + Z.of_nat (fcols ifn) mod 2).
Proof.
  intros FA FB H. destruct (act_fit_pos _ _ _ FA) as [HM HA]. destruct (act_fit_pos _ _ _ FB) as [HN _]. destruct (surface_px _ _ _ _ _ _ _ d wfe FA FB H) as (s & E & D & V). exists s. split; [auto|]. split; [auto|]. intros i j Hi Hj. rewrite V by auto. f_equal. unfold superposed.
  apply rsum_ext. intros r _. apply rsum_ext. intros c _. f_equal. rewrite (kr_tf ifn sx sy (frows ifn) (fcols ifn)) by (auto; split; auto). apply periodic_cong; now apply roll_centre.
Qed.
(* rendered pixel: crop or pad around the centre *)
Definition out_pos (n r i : nat) : Z := (Z.of_nat n / 2 + (Z.of_nat i - Z.of_nat r / 2))%Z.
Theorem render_superposed ifn nact sep sx sy a d (wfe : bool) r c : act_fit (frows ifn) nact sep -> act_fit (fcols ifn) nact sep -> holds ifn nact sep (IZR sx) (IZR sy) 1 a d -> (1 <= r)%nat -> (1 <= c)%nat ->
  exists S inter, render d r c wfe = Ok (S, inter) /\ dims r c S /\ forall i j, (i < r)%nat -> (j < c)%nat ->
    let y := (Z.of_nat (frows ifn) / 2 + (Z.of_nat i - Z.of_nat r / 2))%Z in let x := (Z.of_nat (fcols ifn) / 2 + (Z.of_nat j - Z.of_nat c / 2))%Z in
    fpx S i j = if ((0 <=? y) && (y <? Z.of_nat (frows ifn)) && (0 <=? x) && (x <? Z.of_nat (fcols ifn)))%Z
      then gain wfe * superposed ifn nact sep sx sy a (y + Z.of_nat (frows ifn) mod 2) (x + Z.of_nat (fcols ifn) mod 2) else 0.
Proof.
  intros FA FB H Hr Hc. destruct (render_11 ifn nact sep (IZR sx) (IZR sy) a d wfe r c FA FB H Hr Hc) as (s & S & Es & ES & ER & DS). destruct (surface_superposed ifn nact sep sx sy 1 a d wfe FA FB H) as (s' & Es' & Ds & Vs). rewrite Es in Es'. injection Es' as <-.
  destruct (pad_cropr_px s r c Hr Hc) as (S' & ES' & _ & V). rewrite ES in ES'. injection ES' as <-. exists S, (frows ifn, fcols ifn). split; [auto|]. split; [auto|]. intros i j Hi Hj y x. rewrite V by auto. destruct Ds as [-> ->]. unfold crop_src. fold y. fold x.
  destruct (Z.leb_spec 0 y); cbn [andb]; auto. destruct (Z.ltb_spec y (Z.of_nat (frows ifn))); cbn [andb]; auto. destruct (Z.leb_spec 0 x); cbn [andb]; auto. destruct (Z.ltb_spec x (Z.of_nat (fcols ifn))); cbn [andb]; auto.
  rewrite Vs by lia. rewrite !Z2Nat.id by lia. reflexivity.
Qed.
(* lattice positions set by the wrapper *)
Lemma Int_part_IZR k : Int_part (IZR k) = k.
Proof. destruct (base_Int_part (IZR k)) as [A B]. apply le_IZR in A. assert (IZR k < IZR (Int_part (IZR k) + 1)) by (rewrite plus_IZR; lra). apply lt_IZR in H. lia. Qed.
Lemma trunc_int k : trunc (IZR k) = k.
Proof.
  unfold trunc. destruct (Rle_dec 0 (IZR k)); [apply Int_part_IZR|]. rewrite <- opp_IZR, Int_part_IZR. lia.
Qed.
Lemma trunc_close x : Rabs (IZR (trunc x) - x) < 1.
Proof.
  unfold trunc. destruct (Rle_dec 0 x).
  - destruct (base_Int_part x). apply Rabs_def1; lra.
  - rewrite opp_IZR. destruct (base_Int_part (- x)). apply Rabs_def1; lra.
Qed.
Lemma half_even n : Nat.even n = true -> IZR (Z.of_nat n / 2) = INR n / 2.
Proof. intros E. apply Nat.even_spec in E. destruct E as [k ->]. replace (Z.of_nat (2 * k)) with (Z.of_nat k * 2)%Z by lia. rewrite Z.div_mul by lia. rewrite mult_INR, <- INR_IZR_INZ. cbn [INR]. lra. Qed.
Lemma half_odd n : Nat.even n = false -> IZR (Z.of_nat n / 2) = (INR n - 1) / 2.
Proof.
  intros E. assert (O : Nat.odd n = true) by (unfold Nat.odd; now rewrite E). apply Nat.odd_spec in O. destruct O as [k ->]. replace (Z.of_nat (2 * k + 1)) with (1 + Z.of_nat k * 2)%Z by lia. rewrite Z.div_add by lia. change (1 / 2)%Z with 0%Z. rewrite Z.add_0_l, plus_INR, mult_INR, <- INR_IZR_INZ. cbn [INR]. lra.
Qed.
Lemma half_odd1 n : Nat.even n = false -> IZR ((Z.of_nat n + 1) / 2) = (INR n + 1) / 2.
Proof.
  intros E. assert (O : Nat.odd n = true) by (unfold Nat.odd; now rewrite E). apply Nat.odd_spec in O. destruct O as [k ->]. replace (Z.of_nat (2 * k + 1) + 1)%Z with ((Z.of_nat k + 1) * 2)%Z by lia. rewrite Z.div_mul by lia. rewrite plus_IZR, plus_INR, mult_INR, <- INR_IZR_INZ. cbn [INR]. lra.
Qed.
Lemma wrapper_pos n nact mag xc k : Nat.even nact = true -> Nat.even mag = true -> 
  Rabs (IZR (act_pos n nact mag k + wrapper_shift xc nact mag) - (IZR (Z.of_nat n / 2) + (INR k - xc) * INR mag)) < 1 /\
  (forall z, (xc - IZR (Z.of_nat nact / 2) + 1 / 2) * INR mag = IZR z -> IZR (act_pos n nact mag k + wrapper_shift xc nact mag) = IZR (Z.of_nat n / 2) + (INR k - xc) * INR mag).
Proof.
  intros E1 E2. unfold wrapper_shift, act_pos. rewrite E1. rewrite !plus_IZR, !mult_IZR, minus_IZR, <- !INR_IZR_INZ. rewrite (half_even mag E2). rewrite !(half_even nact E1). set (x := (xc - INR nact / 2 + 1 / 2) * INR mag).
  assert (X : forall h, h + (INR k - INR nact / 2) * INR mag + INR mag / 2 + -1 * IZR (trunc x) - (h + (INR k - xc) * INR mag) = x - IZR (trunc x)) by (intros h; unfold x; lra). split.
  - rewrite X. rewrite Rabs_minus_sym. apply trunc_close.
  - intros z Hz. rewrite Hz in *. rewrite trunc_int. specialize (X (IZR (Z.of_nat n / 2))). rewrite trunc_int in X. lra.
Qed.
Lemma wrapper_pos_odd n nact mag xc k z : Nat.even nact = false -> (xc - IZR (Z.of_nat nact / 2) + 1 / 2) * INR mag = IZR z ->
  IZR (act_pos n nact mag k + wrapper_shift xc nact mag) = IZR (Z.of_nat n / 2) + (INR k - xc) * INR mag - 3 / 2 * INR mag.
Proof.
  intros E1 Hz. unfold wrapper_shift, act_pos. rewrite E1. rewrite Hz, trunc_int. rewrite (half_odd nact E1) in Hz. rewrite !plus_IZR, !mult_IZR, minus_IZR, <- !INR_IZR_INZ, (half_odd1 nact E1). lra.
Qed.
(* history plays no part *)
Lemma render_same ifn nact sep shx shy a d d' (wfe : bool) r c : act_fit (frows ifn) nact sep -> act_fit (fcols ifn) nact sep -> holds ifn nact sep shx shy 1 a d -> holds ifn nact sep shx shy 1 a d' -> (1 <= r)%nat -> (1 <= c)%nat ->
  exists S S' i, render d r c wfe = Ok (S, i) /\ render d' r c wfe = Ok (S', i) /\ dims r c S /\ dims r c S' /\ forall y x, (y < r)%nat -> (x < c)%nat -> fpx S y x = fpx S' y x.
Proof.
  intros FA FB H H' Hr Hc. destruct (render_11 _ _ _ _ _ _ d wfe r c FA FB H Hr Hc) as (s & S & Es & ES & ER & DS). destruct (render_11 _ _ _ _ _ _ d' wfe r c FA FB H' Hr Hc) as (s' & S' & Es' & ES' & ER' & DS').
  destruct (surface_px _ _ _ _ _ _ _ d wfe FA FB H) as (s0 & E0 & [D0 D0'] & V0). destruct (surface_px _ _ _ _ _ _ _ d' wfe FA FB H') as (s1 & E1 & [D1 D1'] & V1). rewrite Es in E0. rewrite Es' in E1. injection E0 as <-. injection E1 as <-.
  exists S, S', (frows ifn, fcols ifn). repeat (split; [assumption|]). intros y x Hy Hx. destruct (pad_cropr_px s r c Hr Hc) as (T & ET & _ & VT). destruct (pad_cropr_px s' r c Hr Hc) as (T' & ET' & _ & VT'). rewrite ES in ET. rewrite ES' in ET'. injection ET as <-. injection ET' as <-.
  rewrite VT, VT', D0, D0', D1, D1' by auto. destruct (crop_src r (frows ifn) y) eqn:A; auto. destruct (crop_src c (fcols ifn) x) eqn:B; auto. rewrite V0, V1 by (eapply crop_src_lt; eauto). reflexivity.
Qed.
