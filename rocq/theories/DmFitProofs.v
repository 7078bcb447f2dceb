From Verif Require Import StrBase Base RBase CtrlModel DmModel UtilModel DmSurfModel DmSurfSpec.
Open Scope R_scope.

Lemma rsum_delta n m d (F : Z -> Z -> R) :
  rsum n (fun s => if ((0 <=? d - Z.of_nat s) && (d - Z.of_nat s <? Z.of_nat m))%Z then F (Z.of_nat s) (d - Z.of_nat s)%Z else 0)
  = rsum n (fun s => rsum m (fun r => if (Z.of_nat s + Z.of_nat r =? d)%Z then F (Z.of_nat s) (Z.of_nat r) else 0)).
Proof.
  apply rsum_ext. intros s Hs.
  destruct ((0 <=? d - Z.of_nat s) && (d - Z.of_nat s <? Z.of_nat m))%Z%bool eqn:E.
  - rewrite (rsum_single m (Z.to_nat (d - Z.of_nat s))).
    + replace (Z.of_nat (Z.to_nat (d - Z.of_nat s))) with (d - Z.of_nat s)%Z by lia.
      replace (Z.of_nat s + (d - Z.of_nat s) =? d)%Z with true by lia. reflexivity.
    + lia.
    + intros i Hi Hne. replace (Z.of_nat s + Z.of_nat i =? d)%Z with false by lia. reflexivity.
  - symmetry. apply rsum_zero. intros r Hr. replace (Z.of_nat s + Z.of_nat r =? d)%Z with false by lia. reflexivity.
Qed.
Lemma reindex n m d (F : Z -> Z -> R) :
  rsum n (fun s => if ((0 <=? d - Z.of_nat s) && (d - Z.of_nat s <? Z.of_nat m))%Z then F (Z.of_nat s) (d - Z.of_nat s)%Z else 0)
  = rsum m (fun r => if ((0 <=? d - Z.of_nat r) && (d - Z.of_nat r <? Z.of_nat n))%Z then F (d - Z.of_nat r)%Z (Z.of_nat r) else 0).
Proof.
  rewrite rsum_delta. rewrite rsum_swap.
  pose proof (rsum_delta m n d (fun r s => F s r)) as H. cbn beta in H. rewrite H.
  apply rsum_ext; intros r Hr. apply rsum_ext; intros s Hs.
  replace (Z.of_nat r + Z.of_nat s)%Z with (Z.of_nat s + Z.of_nat r)%Z by lia. reflexivity.
Qed.

Lemma conv_surface (a k : arr R) i j : (0 <= nr a)%Z -> (0 <= nc a)%Z -> (0 <= nr k)%Z -> (0 <= nc k)%Z ->
  convolve a k i j = dm_surface (nr a) (nc a) k a i j.
Proof.
  intros H1 H2 H3 H4. unfold convolve, dm_surface.
  transitivity (rsum (Z.to_nat (nr k)) (fun s =>
    if ((0 <=? (i + nr k / 2) - Z.of_nat s) && ((i + nr k / 2) - Z.of_nat s <? Z.of_nat (Z.to_nat (nr a))))%Z then
      rsum (Z.to_nat (nc k)) (fun t => px k (Z.of_nat s) (Z.of_nat t) * get0 a ((i + nr k / 2) - Z.of_nat s) (j + nc k / 2 - Z.of_nat t))
    else 0)).
  { apply rsum_ext. intros s Hs. destruct (_ && _)%Z%bool eqn:E; [reflexivity|].
    apply rsum_zero. intros t Ht. unfold get0.
    replace ((0 <=? i + nr k / 2 - Z.of_nat s) && (i + nr k / 2 - Z.of_nat s <? nr a))%Z%bool with false by lia. cbn [andb]. ring. }
  rewrite (reindex (Z.to_nat (nr k)) (Z.to_nat (nr a)) (i + nr k / 2) (fun s u => 
     rsum (Z.to_nat (nc k)) (fun t => px k s (Z.of_nat t) * get0 a u (j + nc k / 2 - Z.of_nat t)))).
  apply rsum_ext. intros r Hr.
  destruct ((0 <=? i + nr k / 2 - Z.of_nat r) && (i + nr k / 2 - Z.of_nat r <? Z.of_nat (Z.to_nat (nr k))))%Z%bool eqn:E.
  - transitivity (rsum (Z.to_nat (nc k)) (fun t =>
      if ((0 <=? (j + nc k / 2) - Z.of_nat t) && ((j + nc k / 2) - Z.of_nat t <? Z.of_nat (Z.to_nat (nc a))))%Z then
        px k (i + nr k / 2 - Z.of_nat r)%Z (Z.of_nat t) * px a (Z.of_nat r) ((j + nc k / 2) - Z.of_nat t)%Z else 0)).
    { apply rsum_ext. intros t Ht. unfold get0.
      destruct ((0 <=? j + nc k / 2 - Z.of_nat t) && (j + nc k / 2 - Z.of_nat t <? Z.of_nat (Z.to_nat (nc a))))%Z%bool eqn:E2.
      - replace ((0 <=? Z.of_nat r) && (Z.of_nat r <? nr a) && (0 <=? j + nc k / 2 - Z.of_nat t) && (j + nc k / 2 - Z.of_nat t <? nc a))%Z%bool with true by lia. reflexivity.
      - replace ((0 <=? Z.of_nat r) && (Z.of_nat r <? nr a) && (0 <=? j + nc k / 2 - Z.of_nat t) && (j + nc k / 2 - Z.of_nat t <? nc a))%Z%bool with false by lia. ring. }
    rewrite (reindex (Z.to_nat (nc k)) (Z.to_nat (nc a)) (j + nc k / 2) (fun t v => px k (i + nr k / 2 - Z.of_nat r)%Z t * px a (Z.of_nat r) v)).
    apply rsum_ext. intros c Hc. unfold kernel.
    replace (i - Z.of_nat r + nr k / 2)%Z with (i + nr k / 2 - Z.of_nat r)%Z by lia.
    replace (j - Z.of_nat c + nc k / 2)%Z with (j + nc k / 2 - Z.of_nat c)%Z by lia.
    destruct ((0 <=? j + nc k / 2 - Z.of_nat c) && (j + nc k / 2 - Z.of_nat c <? Z.of_nat (Z.to_nat (nc k))))%Z%bool eqn:E2.
    + replace ((0 <=? i + nr k / 2 - Z.of_nat r) && (i + nr k / 2 - Z.of_nat r <? nr k) && (0 <=? j + nc k / 2 - Z.of_nat c) && (j + nc k / 2 - Z.of_nat c <? nc k))%Z%bool with true by lia. ring.
    + replace ((0 <=? i + nr k / 2 - Z.of_nat r) && (i + nr k / 2 - Z.of_nat r <? nr k) && (0 <=? j + nc k / 2 - Z.of_nat c) && (j + nc k / 2 - Z.of_nat c <? nc k))%Z%bool with false by lia. ring.
  - symmetry. apply rsum_zero. intros c Hc. unfold kernel.
    replace (i - Z.of_nat r + nr k / 2)%Z with (i + nr k / 2 - Z.of_nat r)%Z by lia.
    replace ((0 <=? i + nr k / 2 - Z.of_nat r) && (i + nr k / 2 - Z.of_nat r <? nr k))%Z%bool with false by lia. cbn [andb]. ring.
Qed.

Lemma prefilter_kernel nrow ncol inf j p : (0 < nrow)%Z -> (0 < ncol)%Z -> (0 <= nr inf)%Z -> (0 <= nc inf)%Z ->
  (0 <= j < nrow * ncol)%Z ->
  prefilter nrow ncol inf j p = kernel inf (p / ncol - j / ncol) (p mod ncol - j mod ncol).
Proof.
  intros H1 H2 H3 H4 Hj. unfold prefilter. rewrite conv_surface by (cbn; lia). unfold dm_surface. cbn [nr nc px].
  assert (J : (j = ncol * (j / ncol) + j mod ncol)%Z) by (apply Z.div_mod; lia).
  assert (JM : (0 <= j mod ncol < ncol)%Z) by (apply Z.mod_pos_bound; lia).
  assert (JD : (0 <= j / ncol < nrow)%Z) by (split; [apply Z.div_pos; lia|apply Z.div_lt_upper_bound; lia]).
  set (jr := (j / ncol)%Z) in *. set (jc := (j mod ncol)%Z) in *. clearbody jr jc.
  rewrite (rsum_single (Z.to_nat nrow) (Z.to_nat jr)); [|lia|].
  - rewrite (rsum_single (Z.to_nat ncol) (Z.to_nat jc)); [|lia|].
    + rewrite !Z2Nat.id by lia. replace (jr * ncol + jc =? j)%Z with true by lia. ring.
    + intros c Hc Hne. rewrite Z2Nat.id by lia. replace (jr * ncol + Z.of_nat c =? j)%Z with false by lia. ring.
  - intros r Hr Hne. apply rsum_zero. intros c Hc.
    assert (Z.of_nat r * ncol + Z.of_nat c <> j)%Z.
    { intros E. assert (Hr' : ((Z.of_nat r - jr) * ncol = jc - Z.of_nat c)%Z) by lia.
      assert (Z.of_nat r - jr = 0)%Z by nia. lia. }
    replace (Z.of_nat r * ncol + Z.of_nat c =? j)%Z with false by lia. ring.
Qed.
Lemma kernel_sym inf dr dc : odd_shape inf -> point_symmetric inf -> kernel inf (- dr) (- dc) = kernel inf dr dc.
Proof.
  intros (H1 & H2 & O1 & O2) S. unfold kernel.
  destruct ((0 <=? - dr + nr inf / 2) && (- dr + nr inf / 2 <? nr inf) && (0 <=? - dc + nc inf / 2) && (- dc + nc inf / 2 <? nc inf))%Z%bool eqn:E.
  - replace ((0 <=? dr + nr inf / 2) && (dr + nr inf / 2 <? nr inf) && (0 <=? dc + nc inf / 2) && (dc + nc inf / 2 <? nc inf))%Z%bool with true by lia.
    rewrite S by lia. f_equal; lia.
  - replace ((0 <=? dr + nr inf / 2) && (dr + nr inf / 2 <? nr inf) && (0 <=? dc + nc inf / 2) && (dc + nc inf / 2 <? nc inf))%Z%bool with false by lia. reflexivity.
Qed.
Lemma fit_reproduces nrow ncol inf surf x : (0 < nrow)%Z -> (0 < ncol)%Z -> odd_shape inf -> point_symmetric inf ->
  is_lsq_fit nrow ncol inf surf x ->
  forall i j, (0 <= i < nrow)%Z -> (0 <= j < ncol)%Z -> dm_surface nrow ncol inf x i j = px surf i j.
Proof.
  intros H1 H2 Ho Hs Hf i j Hi Hj. pose proof Ho as (O1 & O2 & O3 & O4).
  specialize (Hf (i * ncol + j)%Z ltac:(nia)).
  assert (Di : ((i * ncol + j) / ncol = i)%Z) by (rewrite Z.div_add_l by lia; rewrite Z.div_small; lia).
  assert (Dm : ((i * ncol + j) mod ncol = j)%Z) by (rewrite Z.add_comm, Z.mod_add by lia; apply Z.mod_small; lia).
  rewrite Di, Dm in Hf. rewrite <- Hf. unfold dm_surface.
  replace (Z.to_nat (nrow * ncol)) with (Z.to_nat nrow * Z.to_nat ncol)%nat by (rewrite Z2Nat.inj_mul; lia).
  rewrite rsum_mul_blocks. apply rsum_ext. intros r Hr. apply rsum_ext. intros c Hc.
  assert (Er : (Z.of_nat (r * Z.to_nat ncol + c) = Z.of_nat r * ncol + Z.of_nat c)%Z) by lia.
  assert (Dr : (Z.of_nat (r * Z.to_nat ncol + c) / ncol = Z.of_nat r)%Z) by (rewrite Er, Z.div_add_l by lia; rewrite Z.div_small; lia).
  assert (Dc : (Z.of_nat (r * Z.to_nat ncol + c) mod ncol = Z.of_nat c)%Z) by (rewrite Er, Z.add_comm, Z.mod_add by lia; apply Z.mod_small; lia).
  rewrite prefilter_kernel by (auto; nia). rewrite Dr, Dc, Di, Dm.
  rewrite <- (kernel_sym inf (i - Z.of_nat r) (j - Z.of_nat c)) by auto.
  replace (- (i - Z.of_nat r))%Z with (Z.of_nat r - i)%Z by lia. replace (- (j - Z.of_nat c))%Z with (Z.of_nat c - j)%Z by lia. ring.
Qed.
