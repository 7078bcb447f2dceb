From Verif Require Import StrBase Base RBase CtrlModel CtrlProofs DmModel UtilModel UtilSpec UtilProofs DmSurfModel DmSurfSpec.
Open Scope R_scope.

(* ---- quantisation ---- *)
Lemma discretize_px m step VtoH V out i j : discretize_surf m step VtoH V = Ok out ->
  exists rnd, round_steps m = Ok rnd /\ nr out = nr V /\ nc out = nc V /\
    (step <> 0 -> px VtoH i j <> 0 ->
     px VtoH i j * px out i j = IZR (rnd (px VtoH i j * px V i j / step)) * step).
Proof.
  unfold discretize_surf. destruct (round_steps m) as [rnd|]; cbn [rbind]; [|discriminate]. intros [= <-].
  exists rnd. repeat split; auto. intros Hs Hg. cbn [px]. field. auto.
Qed.
Lemma scale_le a b s : 0 < s -> a <= b -> a * s <= b * s.
Proof. intros; apply Rmult_le_compat_r; lra. Qed.
Lemma near_err x : Rabs (x - IZR (ZnearestE x)) <= / 2.
Proof. rewrite Rabs_minus_sym. rewrite Rabs_minus_sym. apply Znearest_half. Qed.

(* ---- gain maps ---- *)
Lemma gain_quadratic (q1 q2 q3 x : R) : derivable_pt_lim (fun v => q1 * v * v + q2 * v + q3) x (2 * q1 * x + q2).
Proof.
  assert (H : derivable_pt_lim (mult_real_fct q1 id * id + mult_real_fct q2 id + fct_cte q3)%F x
     ((q1 * 1 * id x + mult_real_fct q1 id x * 1) + q2 * 1 + 0)).
  { apply derivable_pt_lim_plus; [apply derivable_pt_lim_plus|apply derivable_pt_lim_const].
    - apply derivable_pt_lim_mult; [|apply derivable_pt_lim_id].
      apply derivable_pt_lim_scal. apply derivable_pt_lim_id.
    - apply derivable_pt_lim_scal. apply derivable_pt_lim_id. }
  unfold id, mult_real_fct in H. replace (2 * q1 * x + q2) with (q1 * 1 * x + q1 * x * 1 + q2 * 1 + 0) by ring.
  exact H.
Qed.
Lemma d_cos_lin k x : derivable_pt_lim (fun v => cos (k * v)) x (- k * sin (k * x)).
Proof.
  replace (- k * sin (k * x)) with ((- sin (k * x)) * (k * 1)) by ring.
  apply (derivable_pt_lim_comp (fun v => k * v) cos x).
  - apply (derivable_pt_lim_scal id k x 1). apply derivable_pt_lim_id.
  - apply derivable_pt_lim_cos.
Qed.
Lemma d_sin_lin k x : derivable_pt_lim (fun v => sin (k * v)) x (k * cos (k * x)).
Proof.
  replace (k * cos (k * x)) with (cos (k * x) * (k * 1)) by ring.
  apply (derivable_pt_lim_comp (fun v => k * v) sin x).
  - apply (derivable_pt_lim_scal id k x 1). apply derivable_pt_lim_id.
  - apply derivable_pt_lim_sin.
Qed.
Lemma gain_fourier (c0 c1 c2 s1 s2 om x : R) :
  derivable_pt_lim (fun v => c0 + c1 * cos (v * om) + s1 * sin (v * om) + c2 * cos (2 * v * om) + s2 * sin (2 * v * om)) x
    (om * (- c1 * sin (x * om) + s1 * cos (x * om) + - 2 * c2 * sin (2 * x * om) + 2 * s2 * cos (2 * x * om))).
Proof.
  assert (H : derivable_pt_lim (fct_cte c0 + mult_real_fct c1 (fun v => cos (om * v)) + mult_real_fct s1 (fun v => sin (om * v))
      + mult_real_fct c2 (fun v => cos ((2 * om) * v)) + mult_real_fct s2 (fun v => sin ((2 * om) * v)))%F x
      (0 + c1 * (- om * sin (om * x)) + s1 * (om * cos (om * x)) + c2 * (- (2 * om) * sin ((2 * om) * x)) + s2 * ((2 * om) * cos ((2 * om) * x)))).
  { repeat apply derivable_pt_lim_plus; try apply derivable_pt_lim_const; apply derivable_pt_lim_scal;
      first [apply d_cos_lin | apply d_sin_lin]. }
  replace (om * (- c1 * sin (x * om) + s1 * cos (x * om) + - 2 * c2 * sin (2 * x * om) + 2 * s2 * cos (2 * x * om)))
    with (0 + c1 * (- om * sin (om * x)) + s1 * (om * cos (om * x)) + c2 * (- (2 * om) * sin ((2 * om) * x)) + s2 * ((2 * om) * cos ((2 * om) * x))).
  2: { replace (x * om) with (om * x) by ring. replace (2 * x * om) with (2 * om * x) by ring. ring. }
  intros eps Heps. destruct (H eps Heps) as (dl & Hd). exists dl. intros h Hh Hl. specialize (Hd h Hh Hl).
  unfold fct_cte, plus_fct, mult_real_fct in Hd.
  replace (2 * (x + h) * om) with (2 * om * (x + h)) by ring. replace ((x + h) * om) with (om * (x + h)) by ring.
  replace (2 * x * om) with (2 * om * x) by ring. replace (x * om) with (om * x) by ring. exact Hd.
Qed.

(* ---- superposition ---- *)
Lemma box_index_ok n ll Nb : (0 <= ll)%Z -> (ll + Nb <= n)%Z ->
  box_index n ll Nb = Ok (map (fun b => Z.to_nat (ll + b)) (zrange Nb)).
Proof.
  intros H0 H1. unfold box_index.
  assert (Q : forall l, (forall b, In b l -> (0 <= b < Nb)%Z) ->
     fold_right (fun b acc => do l0 <- acc; do p <- np_index n (ll + b)%Z; Ok (p :: l0)) (Ok []) l
     = Ok (map (fun b => Z.to_nat (ll + b)) l)).
  { induction l as [|b l IH]; intros Hl; cbn [fold_right map]; [reflexivity|].
    rewrite IH by (intros; apply Hl; now right). cbn [rbind].
    rewrite np_index_ok by (specialize (Hl b (or_introl eq_refl)); lia). reflexivity. }
  apply Q. intros b Hb. now apply in_zrange in Hb.
Qed.
Lemma last_index_range k ll i : forall m s, (0 <= ll)%Z -> (0 <= s)%Z ->
  last_index_from k i (map (fun b => Z.to_nat (ll + b)) (map Z.of_nat (seq (Z.to_nat s) m))) =
  if ((ll + s <=? i) && (i <? ll + s + Z.of_nat m))%Z then Some (k + (i - ll - s))%Z else None.
Proof.
  intros m; revert k; induction m as [|m IH]; intros k s H0 Hs.
  - cbn. destruct ((ll + s <=? i)%Z && (i <? ll + s + 0)%Z)%bool eqn:E; [lia|reflexivity].
  - cbn [seq map last_index_from]. replace (S (Z.to_nat s)) with (Z.to_nat (s + 1)) by lia.
    rewrite IH by lia.
    destruct ((ll + (s + 1) <=? i) && (i <? ll + (s + 1) + Z.of_nat m))%Z%bool eqn:E1;
    destruct ((ll + s <=? i) && (i <? ll + s + Z.of_nat (S m)))%Z%bool eqn:E2; try lia.
    + f_equal. lia.
    + destruct (Z.eqb_spec (Z.of_nat (Z.to_nat (ll + Z.of_nat (Z.to_nat s)))) i) as [E|E]; [f_equal; lia|lia].
    + destruct (Z.eqb_spec (Z.of_nat (Z.to_nat (ll + Z.of_nat (Z.to_nat s)))) i) as [E|E]; [lia|reflexivity].
Qed.
Lemma last_index_box ll Nb i : (0 <= ll)%Z -> (0 <= Nb)%Z ->
  last_index_from 0 i (map (fun b => Z.to_nat (ll + b)) (zrange Nb)) =
  if ((ll <=? i) && (i <? ll + Nb))%Z then Some (i - ll)%Z else None.
Proof.
  intros H0 H1. unfold zrange. pose proof (last_index_range 0 ll i (Z.to_nat Nb) 0 H0 ltac:(lia)) as H.
  rewrite Z2Nat.inj_0 in H. rewrite H.
  destruct ((ll + 0 <=? i) && (i <? ll + 0 + Z.of_nat (Z.to_nat Nb)))%Z%bool eqn:E1;
  destruct ((ll <=? i) && (i <? ll + Nb))%Z%bool eqn:E2; try lia; auto. f_equal. lia.
Qed.

Definition sigb (c : cube) (k : Z) : bool :=
  if Rlt_dec (1 / 10 ^ 12) (abs_total (Nbox c) (inf_datacube c k)) then true else false.
Definition term (c : cube) (V VtoH : arr R) (k i j : Z) : R :=
  if sigb c k then height V VtoH k * influence c k i j else 0.

Lemma superpose_ok c V VtoH s k : (0 <= Nbox c)%Z -> (0 <= k < nr V * nc V)%Z -> (nr VtoH * nc VtoH = nr V * nc V)%Z -> box_ok c k ->
  exists s', superpose c V VtoH s k = Ok s' /\ nr s' = nr s /\ nc s' = nc s /\
    forall i j, px s' i j = px s i j + term c V VtoH k i j.
Proof.
  intros HNb Hk HV (B1 & B2 & B3 & B4). unfold superpose, term, sigb.
  destruct (Rlt_dec (1 / 10 ^ 12) (abs_total (Nbox c) (inf_datacube c k))).
  - rewrite !box_index_ok by lia. cbn [rbind]. unfold at_linear. rewrite HV.
    replace (k <? nr V * nc V)%Z with true by lia. cbn [rbind].
    eexists. split; [reflexivity|]. split; [reflexivity|]. split; [reflexivity|].
    intros i j. unfold add_box; cbn [px]. rewrite !last_index_box by auto.
    unfold influence, in_box, height.
    destruct ((ll_y c k <=? i) && (i <? ll_y c k + Nbox c))%Z%bool eqn:E1;
    destruct ((ll_x c k <=? j) && (j <? ll_x c k + Nbox c))%Z%bool eqn:E2; cbn [andb].
    + rewrite ?E2. reflexivity.
    + rewrite ?E2. ring.
    + ring.
    + ring.
  - exists s. repeat split; auto. intros; ring.
Qed.
Lemma superpose_all_ok c V VtoH : (0 <= Nbox c)%Z -> (nr VtoH * nc VtoH = nr V * nc V)%Z -> forall m s0 s,
  (forall k, (Z.of_nat s0 <= k < Z.of_nat (s0 + m))%Z -> (0 <= k < nr V * nc V)%Z /\ (sigb c k = true -> box_ok c k)) ->
  exists s', superpose_all c V VtoH s (map Z.of_nat (seq s0 m)) = Ok s' /\ nr s' = nr s /\ nc s' = nc s /\
    forall i j, px s' i j = px s i j + rsum m (fun k => term c V VtoH (Z.of_nat (s0 + k)) i j).
Proof.
  intros HNb HV. induction m as [|m IH]; intros s0 s H.
  - exists s. repeat split; auto. intros; cbn; ring.
  - cbn [seq map superpose_all].
    assert (Q : exists s', superpose c V VtoH s (Z.of_nat s0) = Ok s' /\ nr s' = nr s /\ nc s' = nc s /\
       forall i j, px s' i j = px s i j + term c V VtoH (Z.of_nat s0) i j).
    { destruct (H (Z.of_nat s0)) as [R B]; [lia|]. destruct (sigb c (Z.of_nat s0)) eqn:E.
      - apply superpose_ok; auto.
      - exists s. unfold superpose, term. rewrite E. unfold sigb in E.
        destruct (Rlt_dec (1 / 10 ^ 12) (abs_total (Nbox c) (inf_datacube c (Z.of_nat s0)))); [discriminate|].
        repeat split; auto. intros; ring. }
    destruct Q as (s1 & E1 & R1 & C1 & P1). rewrite E1. cbn [rbind].
    destruct (IH (S s0) s1) as (s' & E & R2 & C2 & P2). { intros k Hk. apply H. lia. }
    exists s'. split; auto. split; [congruence|]. split; [congruence|].
    intros i j. rewrite P2, P1. change (S m) with (1 + m)%nat. rewrite rsum_app. cbn [rsum].
    rewrite Nat.add_0_r. rewrite Rplus_0_l.
    rewrite (rsum_ext m (fun k => term c V VtoH (Z.of_nat (S s0 + k)) i j) (fun k => term c V VtoH (Z.of_nat (s0 + (1 + k))) i j)).
    + ring.
    + intros k _. do 2 f_equal. lia.
Qed.
Lemma rsum_ge_term n f k : (forall i, (i < n)%nat -> 0 <= f i) -> (k < n)%nat -> f k <= rsum n f.
Proof.
  induction n as [|n IH]; intros H Hk; [lia|]. cbn [rsum].
  assert (0 <= rsum n f) by (apply rsum_nonneg; auto).
  destruct (Nat.eq_dec k n) as [->|]; [lra|].
  assert (f k <= rsum n f) by (apply IH; [auto|lia]). specialize (H n (Nat.lt_succ_diag_r n)). lra.
Qed.
Lemma influence_small c k i j : (0 <= Nbox c)%Z -> Rabs (influence c k i j) <= abs_total (Nbox c) (inf_datacube c k).
Proof.
  intros HN. unfold influence. destruct (in_box c k i j) eqn:E.
  - unfold in_box in E. unfold abs_total.
    set (a := Z.to_nat (i - ll_y c k)). set (b := Z.to_nat (j - ll_x c k)).
    replace (i - ll_y c k)%Z with (Z.of_nat a) by lia. replace (j - ll_x c k)%Z with (Z.of_nat b) by lia.
    eapply Rle_trans; [|apply (rsum_ge_term (Z.to_nat (Nbox c)) _ a)]; [|intros; apply rsum_nonneg; intros; apply Rabs_pos|lia].
    apply (rsum_ge_term (Z.to_nat (Nbox c)) (fun b0 => Rabs (inf_datacube c k (Z.of_nat a) (Z.of_nat b0))) b); [intros; apply Rabs_pos|lia].
  - rewrite Rabs_R0. unfold abs_total. apply rsum_nonneg; intros; apply rsum_nonneg; intros; apply Rabs_pos.
Qed.
Lemma Rabs_rsum n f : Rabs (rsum n f) <= rsum n (fun k => Rabs (f k)).
Proof.
  induction n as [|n IH]; cbn [rsum]; [rewrite Rabs_R0; lra|]. eapply Rle_trans; [apply Rabs_triang|]. lra.
Qed.

(* ---- rotation ---- *)
Lemma mrot_xyz a b g : mat_eq (Mrot true a b g) (mmul (Rz g) (mmul (Ry b) (Rx a))).
Proof.
  intros i j Hi Hj. destruct i as [|[|[|i]]]; try lia; destruct j as [|[|[|j]]]; try lia;
    unfold Mrot, mmul, Rx, Ry, Rz, entry9; cbn [rsum]; ring.
Qed.
Lemma mrot_zyx a b g : mat_eq (Mrot false a b g) (mmul (Rx a) (mmul (Ry b) (Rz g))).
Proof.
  intros i j Hi Hj. destruct i as [|[|[|i]]]; try lia; destruct j as [|[|[|j]]]; try lia;
    unfold Mrot, mmul, Rx, Ry, Rz, entry9; cbn [rsum]; ring.
Qed.
Lemma sc t : sin t * sin t = 1 - cos t * cos t.
Proof. pose proof (sin2_cos2 t) as H. unfold Rsqr in H. lra. Qed.
Lemma mrot_orth o a b g : mat_eq (mmul (Mrot o a b g) (transpose (Mrot o a b g))) ident.
Proof.
  intros i j Hi Hj. pose proof (sc a) as Ha; pose proof (sc b) as Hb; pose proof (sc g) as Hg.
  destruct o, i as [|[|[|i]]]; try lia; destruct j as [|[|[|j]]]; try lia;
    unfold Mrot, mmul, transpose, ident, entry9; cbn [rsum];
    generalize dependent (sin a); generalize dependent (cos a); generalize dependent (sin b); generalize dependent (cos b);
    generalize dependent (sin g); generalize dependent (cos g); intros cg sg Hg cb sb Hb ca sa Ha;
    ring [Ha Hb Hg].
Qed.
Lemma mrot_det o a b g : det3 (Mrot o a b g) = 1.
Proof.
  pose proof (sc a) as Ha; pose proof (sc b) as Hb; pose proof (sc g) as Hg.
  destruct o; unfold det3, Mrot; 
    generalize dependent (sin a); generalize dependent (cos a); generalize dependent (sin b); generalize dependent (cos b);
    generalize dependent (sin g); generalize dependent (cos g); intros cg sg Hg cb sb Hb ca sa Ha;
    ring [Ha Hb Hg].
Qed.
(* rotation cannot move an actuator further from the centre *)
Lemma rot_xy_norm o a b g x y : let p := rot_xy o a b g x y in fst p * fst p + snd p * snd p <= x * x + y * y.
Proof.
  cbn zeta.
  assert (H : fst (rot_xy o a b g x y) * fst (rot_xy o a b g x y) + snd (rot_xy o a b g x y) * snd (rot_xy o a b g x y)
     + (Mrot o a b g 2 0 * x + Mrot o a b g 2 1 * y) * (Mrot o a b g 2 0 * x + Mrot o a b g 2 1 * y) = x * x + y * y).
  { unfold rot_xy; cbn [fst snd]. pose proof (sc a) as Ha; pose proof (sc b) as Hb; pose proof (sc g) as Hg.
    destruct o; unfold Mrot; 
    generalize dependent (sin a); generalize dependent (cos a); generalize dependent (sin b); generalize dependent (cos b);
    generalize dependent (sin g); generalize dependent (cos g); intros cg sg Hg cb sb Hb ca sa Ha;
    ring [Ha Hb Hg]. }
  pose proof (Rle_0_sqr (Mrot o a b g 2 0 * x + Mrot o a b g 2 1 * y)) as S. unfold Rsqr in S. lra.
Qed.

(* ---- stamps ---- *)
Lemma fold_max_ge l x0 : forall x, x = x0 \/ In x l -> x <= fold_right Rmax x0 l.
Proof.
  induction l as [|y l IH]; intros x H; cbn [fold_right].
  - destruct H as [->|[]]; lra.
  - destruct H as [->|[->|H]]; [eapply Rle_trans; [apply IH; now left|apply Rmax_r]|apply Rmax_l|].
    eapply Rle_trans; [apply IH; now right|apply Rmax_r].
Qed.
Lemma stamps_inside nbox NboxAS centers P npad x :
  (nbox mod 2 = 0)%Z -> (nbox <= NboxAS)%Z -> 0 < P ->
  ndm_pad NboxAS centers P = Ok npad -> In x centers ->
  exists ll : Z, box_lower_left x P npad nbox = IZR ll /\ (0 < ll)%Z /\ (ll + nbox < npad)%Z.
Proof.
  intros Hev Hle HP Hn Hin. unfold ndm_pad in Hn. destruct (np_max (map Rabs centers)) as [m|] eqn:Em; cbn [rbind] in Hn; [|discriminate].
  injection Hn as Hn.
  assert (Hx : Rabs x <= m).
  { unfold np_max in Em. apply (in_map Rabs) in Hin. destruct (map Rabs centers) as [|y l]; [destruct Hin|].
    injection Em as <-. apply fold_max_ge. destruct Hin as [->|H]; auto. }
  destruct (ceil_even_least (IZR NboxAS + 2 * (1 + (m + / 2) * P))) as ((k & Hk) & Hge & _). rewrite Hn in Hk, Hge.
  exists (ZnearestE (x * P + / 2) + (npad - nbox) / 2)%Z.
  assert (E2 : (npad - nbox = 2 * ((npad - nbox) / 2))%Z) by lia.
  assert (ER : IZR npad - IZR nbox = 2 * IZR ((npad - nbox) / 2)) by (rewrite <- minus_IZR, E2 at 1; now rewrite mult_IZR).
  split. { unfold box_lower_left. rewrite ER, plus_IZR. field. }
  pose proof (near_err (x * P + / 2)) as Hr. set (z := ZnearestE (x * P + / 2)) in *. apply Rabs_le_inv in Hr.
  assert (HxP : - (m * P) <= x * P <= m * P).
  { apply Rabs_le_inv in Hx. split; [|apply Rmult_le_compat_r; lra].
    replace (- (m * P)) with ((- m) * P) by ring. apply Rmult_le_compat_r; lra. }
  assert (HI : IZR nbox <= IZR NboxAS) by (now apply IZR_le).
  assert (0 < m * P + 1 + P / 2 \/ True) by auto.
  split; apply lt_IZR; rewrite ?plus_IZR; lra.
Qed.
