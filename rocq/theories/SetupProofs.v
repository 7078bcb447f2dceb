From Verif Require Import Base RBase StrBase UtilModel UtilSpec UtilProofs SetupModel SetupSpec.
Open Scope R_scope.

(* ---------------- C28 ---------------- *)
Lemma rsum_window N d n g : (d + n <= N)%nat ->
  rsum N (fun i => if ((d <=? i) && (i <? d + n))%nat then g i else 0) = rsum n (fun p => g (d + p)%nat).
Proof.
  intros H. replace N with (d + (n + (N - d - n)))%nat by lia.
  rewrite rsum_app, rsum_app.
  rewrite (rsum_zero d), (rsum_zero (N - d - n)).
  - rewrite Rplus_0_l, Rplus_0_r. apply rsum_ext. intros k Hk.
    replace ((d <=? d + k) && (d + k <? d + n))%nat with true by lia. reflexivity.
  - intros k Hk. replace ((d <=? d + (n + k)) && (d + (n + k) <? d + n))%nat with false by lia. reflexivity.
  - intros k Hk. replace ((d <=? k) && (k <? d + n))%nat with false by lia. reflexivity.
Qed.

Lemma crop_sum mask n c : square_arr mask -> (0 < n <= nr mask)%Z ->
  is_recentred mask n n 0 c -> arr_sum c = arr_sum mask - lost mask n.
Proof.
  intros [H0 Hs] Hn (E1 & E2 & E3). set (N := nr mask) in *.
  assert (S : arr_sum mask - lost mask n =
    rsum (Z.to_nat N) (fun i => rsum (Z.to_nat N) (fun j =>
      if in_window N n (Z.of_nat i) (Z.of_nat j) then px mask (Z.of_nat i) (Z.of_nat j) else 0))).
  { unfold arr_sum, lost. rewrite Hs. fold N.
    match goal with |- ?a - ?b = ?c => cut (a = c + b); [lra|] end.
    rewrite <- rsum_plus. apply rsum_ext. intros i Hi. rewrite <- rsum_plus. apply rsum_ext. intros j Hj.
    destruct (in_window N n (Z.of_nat i) (Z.of_nat j)); lra. }
  rewrite S. clear S. unfold arr_sum. rewrite E1, E2.
  set (d := Z.to_nat (N / 2 - n / 2)).
  transitivity (rsum (Z.to_nat N) (fun i => if ((d <=? i) && (i <? d + Z.to_nat n))%nat then
     rsum (Z.to_nat N) (fun j => if ((d <=? j) && (j <? d + Z.to_nat n))%nat then px mask (Z.of_nat i) (Z.of_nat j) else 0) else 0)).
  - rewrite rsum_window by (subst d; clear -Hn; lia).
    apply rsum_ext. intros p Hp. rewrite rsum_window by (subst d; clear -Hn; lia).
    apply rsum_ext. intros q Hq. rewrite E3 by lia. unfold at_offset. rewrite Hs. fold N.
    match goal with |- default _ (if ?b then _ else _) = _ => replace b with true by (clear -Hn Hp Hq; lia) end.
    cbn [default]. f_equal; subst d; clear -Hn; lia.
  - apply rsum_ext. intros i Hi.
    destruct ((d <=? i) && (i <? d + Z.to_nat n))%nat eqn:Ei.
    + apply rsum_ext. intros j Hj.
      replace (in_window N n (Z.of_nat i) (Z.of_nat j)) with ((d <=? j) && (j <? d + Z.to_nat n))%nat; [reflexivity|].
      unfold in_window. subst d. clear -Hn Hi Hj Ei. lia.
    + symmetry. apply rsum_zero. intros j Hj.
      replace (in_window N n (Z.of_nat i) (Z.of_nat j)) with false; [reflexivity|].
      unfold in_window. subst d. clear -Hn Hi Hj Ei. lia.
Qed.

Definition fits (mask : arr R) (j : Z) : Prop := Rabs (lost mask (nr mask - 2 * j)) <= lyot_tol.

Lemma pc_int (mask : arr R) n : (0 <= nr mask)%Z -> (0 <= nc mask)%Z ->
  if (0 <? n)%Z then exists c, pad_crop_py (Nd2 mask) (SInt n) (FillReal 0) = Ok c /\ is_recentred mask n n 0 c
  else pad_crop_py (Nd2 mask) (SInt n) (FillReal 0) = Raise TypeError.
Proof.
  intros H1 H2. destruct (Z.ltb_spec 0 n) as [H|H].
  - destruct (pad_crop_recentred mask n n 0) as (c & E & Hc); try lia.
    exists c. split; [|exact Hc]. rewrite (pad_crop_py_valid mask (SInt n) n n); [exact E|].
    split; [lia|]. split; [lia|]. right. split; reflexivity.
  - unfold pad_crop_py. cbn. destruct (Z.leb_spec n 0); [reflexivity|lia].
Qed.

(* one step, in terms of the transmission lost *)
Lemma loop_step f mask j : square_arr mask -> (1 <= j)%Z ->
  lyot_loop (S f) mask (arr_sum mask) (2 * j) =
  if (0 <? nr mask - 2 * (j + 1))%Z then
    if Rle_dec (Rabs (lost mask (nr mask - 2 * (j + 1)))) lyot_tol then lyot_loop f mask (arr_sum mask) (2 * (j + 1))
    else Some (Ok (nr mask - 2 * j)%Z)
  else Some (Raise TypeError).
Proof.
  intros Hs Hj. cbn [lyot_loop]. replace (nr mask - 2 * j - 2)%Z with (nr mask - 2 * (j + 1))%Z by lia.
  destruct Hs as [H0 Hs].
  pose proof (pc_int mask (nr mask - 2 * (j + 1)) H0 ltac:(lia)) as P.
  destruct (Z.ltb_spec 0 (nr mask - 2 * (j + 1))) as [H|H].
  - destruct P as (c & -> & Hc). rewrite (crop_sum mask (nr mask - 2 * (j + 1)) c (conj H0 Hs) ltac:(lia) Hc).
    match goal with |- context [Rabs ?x] => replace x with (lost mask (nr mask - 2 * (j + 1))) by lra end.
    replace (2 * j + 2)%Z with (2 * (j + 1))%Z by lia. reflexivity.
  - rewrite P. reflexivity.
Qed.

(* the loop from counter 2*j *)
Lemma loop_spec mask : square_arr mask -> forall f j, (1 <= j)%Z -> (nr mask < 2 * (j + Z.of_nat f))%Z ->
  (exists k, (j <= k)%Z /\ (0 < nr mask - 2 * (k + 1))%Z /\ lyot_loop f mask (arr_sum mask) (2 * j) = Some (Ok (nr mask - 2 * k)%Z) /\
     ~ fits mask (k + 1) /\ forall m, (j < m <= k)%Z -> fits mask m) \/
  (lyot_loop f mask (arr_sum mask) (2 * j) = Some (Raise TypeError) /\
     forall m, (j < m)%Z -> (0 < nr mask - 2 * m)%Z -> fits mask m) \/
  (f = O).
Proof.
  intros Hs f. induction f as [|f IH]; intros j Hj Hf; [right; right; reflexivity|].
  rewrite loop_step by assumption.
  destruct (Z.ltb_spec 0 (nr mask - 2 * (j + 1))) as [H|H].
  - destruct (Rle_dec (Rabs (lost mask (nr mask - 2 * (j + 1)))) lyot_tol) as [HR|HR].
    + destruct (IH (j + 1)%Z ltac:(lia) ltac:(lia)) as [(k & K1 & K2 & K3 & K4 & K5)|[(K1 & K2)|K]].
      * left. exists k. split; [lia|]. split; [lia|]. split; [exact K3|]. split; [exact K4|].
        intros m Hm. destruct (Z.eq_dec m (j + 1)) as [->|]; [exact HR|apply K5; lia].
      * right. left. split; [exact K1|]. intros m Hm Hp.
        destruct (Z.eq_dec m (j + 1)) as [->|]; [exact HR|apply K2; lia].
      * exfalso. subst f. lia.
    + left. exists j. split; [lia|]. split; [lia|]. split; [reflexivity|]. split; [exact HR|]. intros m Hm; lia.
  - right. left. split; [reflexivity|]. intros m Hm Hp. lia.
Qed.

Definition enough (mask : arr R) (fuel : nat) : Prop := (nr mask < 2 * (1 + Z.of_nat fuel))%Z /\ fuel <> O.

Lemma crop_one_spec mask fuel : square_arr mask -> enough mask fuel ->
  (exists k c, (1 <= k)%Z /\ (0 < nr mask - 2 * (k + 1))%Z /\
     crop_one fuel mask = Some (Ok (nr mask - 2 * k, c)%Z) /\ is_recentred mask (nr mask - 2 * k) (nr mask - 2 * k) 0 c /\
     ~ fits mask (k + 1) /\ forall m, (1 < m <= k)%Z -> fits mask m) \/
  (crop_one fuel mask = Some (Raise TypeError) /\ forall m, (1 < m)%Z -> (0 < nr mask - 2 * m)%Z -> fits mask m).
Proof.
  intros Hs [Hf Hf0]. unfold crop_one. change 2%Z with (2 * 1)%Z.
  destruct (loop_spec mask Hs fuel 1 ltac:(lia) ltac:(lia)) as [(k & K1 & K2 & K3 & K4 & K5)|[(K1 & K2)|K]];
    [| |contradiction].
  - left. rewrite K3. destruct Hs as [H0 Hs].
    pose proof (pc_int mask (nr mask - 2 * k) H0 ltac:(lia)) as P.
    replace (0 <? nr mask - 2 * k)%Z with true in P by lia. destruct P as (c & E & Hc).
    exists k, c. rewrite E. cbn [rbind]. repeat (split; [assumption || reflexivity|]). assumption.
  - right. rewrite K1. split; [reflexivity|exact K2].
Qed.

Lemma lost_nonneg_pixel mask n i j : (forall a b, (0 <= a < nr mask)%Z -> (0 <= b < nc mask)%Z -> 0 <= px mask a b) ->
  (0 <= i < nr mask)%Z -> (0 <= j < nc mask)%Z -> in_window (nr mask) n i j = false ->
  0 <= px mask i j <= lost mask n.
Proof.
  intros Hp Hi Hj Hw. split; [now apply Hp|]. unfold lost.
  assert (T : forall N (f : nat -> R) k, (k < N)%nat -> (forall q, (q < N)%nat -> 0 <= f q) -> f k <= rsum N f).
  { clear. induction N as [|N IH]; intros f k Hk Hf; [lia|]. cbn [rsum].
    destruct (Nat.eq_dec k N) as [->|].
    - assert (0 <= rsum N f) by (apply rsum_nonneg; intros; apply Hf; lia). lra.
    - pose proof (IH f k ltac:(lia) ltac:(intros; apply Hf; lia)). pose proof (Hf N ltac:(lia)). lra. }
  assert (G : forall p q, (p < Z.to_nat (nr mask))%nat -> (q < Z.to_nat (nc mask))%nat ->
    0 <= (if in_window (nr mask) n (Z.of_nat p) (Z.of_nat q) then 0 else px mask (Z.of_nat p) (Z.of_nat q))).
  { intros p q Hp' Hq'. destruct (in_window (nr mask) n (Z.of_nat p) (Z.of_nat q)); [lra|]. apply Hp; lia. }
  eapply Rle_trans; [|apply (T _ _ (Z.to_nat i)); [lia|]].
  - cbn beta. eapply Rle_trans; [|apply (T _ _ (Z.to_nat j)); [lia|]].
    + cbn beta. rewrite !Z2Nat.id by lia. rewrite Hw. lra.
    + intros q Hq. apply G; lia.
  - intros q Hq. cbn beta. apply rsum_nonneg. intros p' Hp'. apply G; lia.
Qed.

(* ---------------- C27 ---------------- *)
Lemma in_annulus_iff rho row : in_annulus rho row = true <-> covers row rho.
Proof.
  destruct row as [[a b] w]. unfold in_annulus, covers. cbn [fst snd].
  destruct (Rle_dec a rho), (Rlt_dec rho b); cbn; split; intros; try lra; try discriminate; auto.
Qed.

Lemma fold_zone rho def : (forall row, In row def -> 0 <= snd row) -> forall w0,
  exists w, zone_weight rho def w /\ 0 <= w /\ fold_left (fun w row => w * Wannulus rho row) def w0 = w0 * sqrt w.
Proof.
  induction def as [|row def IH]; intros Hw w0; cbn [fold_left].
  - exists 1. split; [constructor|]. split; [lra|]. rewrite sqrt_1. ring.
  - destruct (IH ltac:(intros; apply Hw; now right) (w0 * Wannulus rho row)) as (w & Z1 & Z2 & Z3).
    rewrite Z3. unfold Wannulus. destruct (in_annulus rho row) eqn:E.
    + exists (snd row * w). assert (0 <= snd row) by (apply Hw; now left).
      split; [constructor; [now apply in_annulus_iff|exact Z1]|].
      split; [now apply Rmult_le_pos|]. rewrite sqrt_mult by assumption. ring.
    + exists w. split; [apply zw_out; [|exact Z1]|].
      * intros C. apply in_annulus_iff in C. congruence.
      * split; [exact Z2|]. ring.
Qed.

Lemma zone_weight_unique rho def w1 : zone_weight rho def w1 -> forall w2, zone_weight rho def w2 -> w1 = w2.
Proof.
  induction 1; intros w2 H2; inversion H2; subst; auto; try contradiction. f_equal. auto.
Qed.

Lemma masked_dark {A} n m corr (a : Z -> Z -> A) : masked n m corr a = map (fun p => a (fst p) (snd p)) (dark_pixels n m corr).
Proof.
  unfold masked, dark_pixels.
  replace (list_prod (zrange n) (zrange m)) with (flat_map (fun i => map (fun j => (i, j)) (zrange m)) (zrange n)).
  - rewrite (filter_ext _ (fun p => corr (fst p) (snd p))); [|intros [? ?]; reflexivity].
    apply map_ext. intros [? ?]; reflexivity.
  - induction (zrange n) as [|x l IHl]; cbn; [reflexivity|]. now rewrite IHl.
Qed.

(* ---------------- C29 ---------------- *)
Lemma same_text_refl s : same_text s s.
Proof. induction s; constructor; auto. now left. Qed.
Lemma fold_ascii (f : ascii -> ascii) : (forall c, same_letter (f c) c) ->
  forall (g : string -> string), (g EmptyString = EmptyString) -> (forall c s, g (String c s) = String (f c) (g s)) ->
  forall s, same_text (g s) s.
Proof. intros Hf g H0 H1 s. induction s; [rewrite H0|rewrite H1]; constructor; auto. Qed.
Lemma lower_letter c : same_letter (lower_ascii c) c.
Proof.
  unfold lower_ascii. destruct (Nat.leb 65 (nat_of_ascii c) && Nat.leb (nat_of_ascii c) 90)%bool eqn:E; [|now left].
  right. exists (nat_of_ascii c). split; [lia|]. right. split; [symmetry; apply ascii_nat_embedding|reflexivity].
Qed.
Lemma upper_letter c : same_letter (upper_ascii c) c.
Proof.
  unfold upper_ascii. destruct (Nat.leb 97 (nat_of_ascii c) && Nat.leb (nat_of_ascii c) 122)%bool eqn:E; [|now left].
  right. exists (nat_of_ascii c - 32)%nat. split; [lia|]. left. split; [reflexivity|].
  replace (nat_of_ascii c - 32 + 32)%nat with (nat_of_ascii c) by lia. symmetry. apply ascii_nat_embedding.
Qed.
Lemma lower_same s : same_text (lower s) s.
Proof. apply (fold_ascii lower_ascii); auto using lower_letter. Qed.
Lemma upper_same s : same_text (upper s) s.
Proof. apply (fold_ascii upper_ascii); auto using upper_letter. Qed.

(* two strings equal up to case have the same folded form *)
Lemma letter_case a b : same_letter a b -> lower_ascii a = lower_ascii b /\ upper_ascii a = upper_ascii b.
Proof.
  intros [->|(n & Hn & [[-> ->]|[-> ->]])]; [auto| |].
  all: unfold lower_ascii, upper_ascii;
    rewrite (nat_ascii_embedding n), (nat_ascii_embedding (n + 32)) by lia.
  all: replace ((65 <=? n) && (n <=? 90))%nat with true by lia.
  all: replace ((65 <=? n + 32) && (n + 32 <=? 90))%nat with false by lia.
  all: replace ((97 <=? n) && (n <=? 122))%nat with false by lia.
  all: replace ((97 <=? n + 32) && (n + 32 <=? 122))%nat with true by lia.
  all: split; try reflexivity; f_equal; lia.
Qed.
Lemma text_case s t : same_text s t -> lower s = lower t /\ upper s = upper t.
Proof.
  induction 1 as [|a b s t H1 H2 [IH1 IH2]]; [auto|]. cbn. destruct (letter_case a b H1) as [-> ->]. now rewrite IH1, IH2.
Qed.
Lemma lower_idem s : lower (lower s) = lower s.
Proof. exact (proj1 (text_case _ _ (lower_same s))). Qed.
Lemma upper_idem s : upper (upper s) = upper s.
Proof. exact (proj2 (text_case _ _ (upper_same s))). Qed.

Lemma str_in_lower s l : Forall (fun w => lower w = w) l -> str_in (lower s) l = true <-> exists w, In w l /\ same_text w s.
Proof.
  intros Hl. rewrite str_in_iff. split.
  - intros H. exists (lower s). split; [exact H|apply lower_same].
  - intros (w & Hw & E). rewrite <- (proj1 (text_case _ _ E)). rewrite Forall_forall in Hl. now rewrite Hl.
Qed.
Lemma str_in_upper s l : Forall (fun w => upper w = w) l -> str_in (upper s) l = true <-> exists w, In w l /\ same_text w s.
Proof.
  intros Hl. rewrite str_in_iff. split.
  - intros H. exists (upper s). split; [exact H|apply upper_same].
  - intros (w & Hw & E). rewrite <- (proj2 (text_case _ _ E)). rewrite Forall_forall in Hl. now rewrite Hl.
Qed.

(* ---------------- C30 ---------------- *)
Lemma nominal_range x : 0 < x -> exists k, nominal x = powerRZ 2 k /\ 2 * x <= powerRZ 2 k < 4 * x.
Proof.
  intros Hx. exists (Zceil (1 + log2 x)). split; [reflexivity|].
  assert (L2 : 0 < ln 2) by (rewrite <- ln_1; apply ln_increasing; lra).
  assert (P : forall k, powerRZ 2 k = exp (IZR k * ln 2)).
  { intros k. rewrite powerRZ_Rpower by lra. unfold Rpower. reflexivity. }
  assert (E : exp (log2 x * ln 2) = x).
  { unfold log2. replace (ln x / ln 2 * ln 2) with (ln x) by (field; lra). now apply exp_ln. }
  assert (E2 : exp (ln 2) = 2) by (apply exp_ln; lra).
  pose proof (Zceil_ub (1 + log2 x)) as U. pose proof (Zceil_lb (1 + log2 x)) as B.
  rewrite P. set (k := Zceil (1 + log2 x)) in *. split.
  - replace (2 * x) with (exp ((1 + log2 x) * ln 2)).
    + destruct U as [U|U]; [left; apply exp_increasing; now apply Rmult_lt_compat_r|right; now rewrite U].
    + rewrite Rmult_plus_distr_r, Rmult_1_l, exp_plus, E, E2. ring.
  - replace (4 * x) with (exp ((2 + log2 x) * ln 2)).
    + apply exp_increasing. apply Rmult_lt_compat_r; lra.
    + rewrite Rmult_plus_distr_r, exp_plus, E. replace (2 * ln 2) with (ln 2 + ln 2) by ring. rewrite exp_plus, E2. ring.
Qed.

Lemma powerRZ_IZR k : (0 <= k)%Z -> powerRZ 2 k = IZR (2 ^ k).
Proof.
  intros H. rewrite <- (Z2Nat.id k H). rewrite <- pow_powerRZ, <- pow_IZR. reflexivity.
Qed.
Lemma nominal_pow2 x : 1 <= x -> exists k, (1 <= k)%Z /\ nominal x = IZR (2 ^ k) /\ 2 * x <= IZR (2 ^ k) < 4 * x.
Proof.
  intros Hx. destruct (nominal_range x ltac:(lra)) as (k & E & H1 & H2).
  assert (K : (1 <= k)%Z).
  { destruct (Z.le_gt_cases 1 k) as [?|C]; [assumption|exfalso].
    destruct k as [|p|p]; [cbn in *; lra|lia|]. unfold powerRZ in H1.
    assert (1 <= 2 ^ Pos.to_nat p) by (apply pow_R1_Rle; lra).
    assert (/ 2 ^ Pos.to_nat p <= / 1) by (apply Rinv_le; lra). rewrite Rinv_1 in *. lra. }
  exists k. rewrite <- powerRZ_IZR by lia. auto.
Qed.

Lemma doubling_spec a b : forall M N, 0 < N -> (a <= N * 2 ^ M) -> (b <= N * 2 ^ M) ->
  exists k, (k <= M)%nat /\ (forall f, (S k <= f)%nat -> doubling f N a b = Some (N * 2 ^ k)) /\
    (forall f, (f <= k)%nat -> doubling f N a b = None) /\
    a <= N * 2 ^ k /\ b <= N * 2 ^ k /\ (k = O \/ N * 2 ^ (k - 1) < Rmax a b).
Proof.
  induction M as [|M IH]; intros N HN Ha Hb.
  - exists O. cbn [pow] in *. split; [lia|]. split.
    + intros [|f] Hf; [lia|]. cbn [doubling]. destruct (Rlt_dec N a); [lra|]. destruct (Rlt_dec N b); [lra|]. f_equal; ring.
    + split; [intros f Hf; replace f with O by lia; reflexivity|]. split; [lra|]. split; [lra|now left].
  - destruct (Rlt_dec N a) as [Hl|Hl]; [|destruct (Rlt_dec N b) as [Hl2|Hl2]].
    3:{ exists O. cbn [pow]. split; [lia|]. split.
        + intros [|f] Hf; [lia|]. cbn [doubling]. destruct (Rlt_dec N a); [lra|]. destruct (Rlt_dec N b); [lra|]. f_equal; ring.
        + split; [intros f Hf; replace f with O by lia; reflexivity|]. split; [lra|]. split; [lra|now left]. }
    all: cbn [pow] in Ha, Hb;
      destruct (IH (2 * N) ltac:(lra) ltac:(lra) ltac:(lra)) as (k & K1 & K2 & K3 & K4 & K5 & K6);
      exists (S k); (split; [lia|]); (split; [|split; [|split; [|split; [|right]]]]).
    1, 6: intros [|f] Hf; [lia|]; cbn [doubling]; rewrite K2 by lia;
       destruct (Rlt_dec N a); destruct (Rlt_dec N b); try lra; f_equal; cbn [pow]; ring.
    1, 5: intros [|f] Hf; [reflexivity|]; cbn [doubling]; rewrite K3 by lia;
       destruct (Rlt_dec N a); destruct (Rlt_dec N b); try lra; reflexivity.
    1, 2, 4, 5: cbn [pow]; lra.
    all: replace (S k - 1)%nat with k by lia; destruct K6 as [->|K6].
    1, 3: cbn [pow]; pose proof (Rmax_l a b); pose proof (Rmax_r a b); lra.
    all: destruct k as [|k]; [cbn [pow]; pose proof (Rmax_l a b); pose proof (Rmax_r a b); lra|];
      replace (S k - 1)%nat with k in K6 by lia; cbn [pow]; lra.
Qed.

Lemma doubling_total a b N : 0 < N -> exists M, a <= N * 2 ^ M /\ b <= N * 2 ^ M.
Proof.
  intros HN. destruct (Pow_x_infinity 2 ltac:(rewrite Rabs_pos_eq; lra) ((Rabs a + Rabs b) / N)) as [M HM].
  exists M. specialize (HM M (le_n M)). rewrite Rabs_pos_eq in HM by (apply pow_le; lra).
  assert (Rabs a + Rabs b <= N * 2 ^ M).
  { apply Rge_le in HM. apply (Rmult_le_compat_l N) in HM; [|lra].
    replace (N * ((Rabs a + Rabs b) / N)) with (Rabs a + Rabs b) in HM by (field; lra). exact HM. }
  pose proof (Rle_abs a). pose proof (Rle_abs b). pose proof (Rabs_pos a). pose proof (Rabs_pos b). lra.
Qed.

Lemma pow2_between k q : (0 <= k)%Z -> pow2 q -> IZR (2 ^ k) < 2 * q -> IZR (2 ^ k) <= q.
Proof.
  intros Hk (j & Hj & ->) H. apply IZR_le. apply Z.pow_le_mono_r; [lia|].
  assert (k < j + 1)%Z; [|lia]. apply (Z.pow_lt_mono_r_iff 2); [lia|lia|].
  apply lt_IZR. rewrite Z.pow_add_r by lia. rewrite mult_IZR. change (2 ^ 1)%Z with 2%Z. lra.
Qed.

(* starting from a nominal size, the loop ends at the least power of two *)
Lemma doubling_least x a b : 1 <= x -> exists k r, (forall f, (k <= f)%nat -> doubling f (nominal x) a b = Some r) /\
  (forall f v, doubling f (nominal x) a b = Some v -> v = r) /\ least_pow2 [2 * x; a; b] r.
Proof.
  intros Hx. destruct (nominal_pow2 x Hx) as (p & P1 & P2 & P3). rewrite P2.
  assert (HN : 0 < IZR (2 ^ p)) by (apply IZR_lt; apply Z.pow_pos_nonneg; lia).
  destruct (doubling_total a b (IZR (2 ^ p)) HN) as (M & A & B).
  destruct (doubling_spec a b M (IZR (2 ^ p)) HN A B) as (k & K1 & K2 & K3 & K4 & K5 & K6).
  exists (S k), (IZR (2 ^ p) * 2 ^ k). split; [exact K2|]. split.
  { intros f v Hv. destruct (Nat.le_gt_cases (S k) f) as [H|H]; [rewrite K2 in Hv by exact H; congruence|].
    rewrite K3 in Hv by lia. discriminate. }
  assert (E : forall n, IZR (2 ^ p) * 2 ^ n = IZR (2 ^ (p + Z.of_nat n))).
  { intros n. rewrite Z.pow_add_r by lia. rewrite mult_IZR. f_equal. apply pow_IZR. }
  split; [|split].
  - exists (p + Z.of_nat k)%Z. split; [lia|apply E].
  - assert (1 <= 2 ^ k) by (apply pow_R1_Rle; lra).
    intros y [<-|[<-|[<-|[]]]]; [|exact K4|exact K5].
    eapply Rle_trans; [apply (proj1 P3)|]. rewrite <- (Rmult_1_r (IZR (2 ^ p))) at 1.
    apply Rmult_le_compat_l; lra.
  - intros q Hq Hr. rewrite E.
    assert (Q1 := Hr (2 * x) (or_introl eq_refl)). assert (Q2 := Hr a (or_intror (or_introl eq_refl))).
    assert (Q3 := Hr b (or_intror (or_intror (or_introl eq_refl)))).
    apply pow2_between; [lia|exact Hq|]. rewrite <- E. destruct K6 as [->|K6].
    + cbn [pow]. lra.
    + destruct k as [|k]; [cbn [pow]; lra|]. replace (S k - 1)%nat with k in K6 by lia. cbn [pow].
      assert (Rmax a b <= q) by (apply Rmax_lub; assumption). lra.
Qed.

Lemma fold_min l : forall x, (fold_left Rmin l x <= x) /\ (forall y, In y l -> fold_left Rmin l x <= y) /\
  (fold_left Rmin l x = x \/ In (fold_left Rmin l x) l).
Proof.
  induction l as [|z l IH]; intros x; cbn [fold_left].
  - split; [lra|]. split; [intros y []|now left].
  - destruct (IH (Rmin x z)) as (H1 & H2 & H3). pose proof (Rmin_l x z). pose proof (Rmin_r x z).
    split; [lra|]. split.
    + intros y [<-|Hy]; [lra|auto].
    + destruct H3 as [H3|H3]; [|right; now right].
      destruct (Rle_dec x z) as [L|L].
      * left. rewrite H3, Rmin_left by lra. reflexivity.
      * right. left. rewrite H3, Rmin_right by lra. reflexivity.
Qed.
Lemma lmin_spec l : l <> [] -> In (lmin l) l /\ forall y, In y l -> lmin l <= y.
Proof.
  destruct l as [|x l]; [congruence|]. intros _. cbn [lmin]. destruct (fold_min l x) as (H1 & H2 & H3). split.
  - destruct H3 as [->|H]; [now left|now right].
  - intros y [<-|Hy]; auto.
Qed.
