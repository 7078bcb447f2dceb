From Coq Require Import Sorted Permutation.
From Verif Require Import Base RBase CtrlModel CtrlProofs DmModel DmSpec DmProofs EfcSpec EfcProofs JacModel JacSpec JacProofs.
Open Scope Z_scope.

Lemma nonzero_sorted {X} (f : X -> bool) l : StronglySorted Z.lt (nonzero f l).
Proof.
  unfold nonzero. generalize 0. induction l as [|x l IH]; intros k; cbn [nonzero_from]; [constructor|].
  destruct (f x); auto. constructor; auto. apply Forall_forall. intros j Hj. apply nonzero_from_spec in Hj.
  destruct Hj as (i & y & -> & _). lia.
Qed.
Lemma insert_perm x l : Permutation (x :: l) (insert x l).
Proof.
  induction l as [|y l IH]; cbn; auto. destruct (x <=? y); auto.
  eapply perm_trans; [apply perm_swap|]. now constructor.
Qed.
Lemma isort_perm l : Permutation l (isort l).
Proof. induction l as [|x l IH]; cbn; auto. eapply perm_trans; [|apply insert_perm]. now constructor. Qed.
Lemma insert_sorted x l : StronglySorted Z.le l -> StronglySorted Z.le (insert x l).
Proof.
  induction l as [|y l IH]; intros H; cbn.
  - constructor; auto.
  - apply StronglySorted_inv in H. destruct H as [HS HF]. destruct (Z.leb_spec x y).
    + constructor; [constructor; auto|]. constructor; auto. eapply Forall_impl; [|exact HF]. cbn; lia.
    + constructor; auto. eapply Permutation_Forall; [apply insert_perm|]. constructor; auto. lia.
Qed.
Lemma isort_sorted l : StronglySorted Z.le (isort l).
Proof. induction l; cbn; [constructor|]. now apply insert_sorted. Qed.
Lemma sorted_nodup_lt l : StronglySorted Z.le l -> NoDup l -> StronglySorted Z.lt l.
Proof.
  induction 1 as [|x l HS IH HF]; intros ND; constructor; apply NoDup_cons_iff in ND; destruct ND as [Hn ND]; auto.
  rewrite Forall_forall in *. intros y Hy. specialize (HF y Hy). assert (x <> y) by congruence. lia.
Qed.
Lemma sorted_lt_nodup l : StronglySorted Z.lt l -> NoDup l.
Proof.
  induction 1 as [|x l HS IH HF]; constructor; auto. intros Hx. rewrite Forall_forall in HF. specialize (HF x Hx). lia.
Qed.

Lemma add_if_missing_spec act i : NoDup act -> NoDup (add_if_missing act i) /\
  forall x, In x (add_if_missing act i) <-> In x act \/ x = i.
Proof.
  intros ND. unfold add_if_missing. destruct (existsb (Z.eqb i) act) eqn:E.
  - apply existsb_exists in E. destruct E as (y & Hy & He). apply Z.eqb_eq in He. subst y.
    split; auto. intros x. split; auto. intros [H| ->]; auto.
  - assert (Hn : ~ In i act).
    { intros H. assert (existsb (Z.eqb i) act = true); [|congruence]. apply existsb_exists. exists i. split; auto. apply Z.eqb_refl. }
    split.
    + apply (Permutation_NoDup (l := i :: act)); [apply Permutation_cons_append|]. now constructor.
    + intros x. rewrite in_app_iff. cbn. intuition.
Qed.
Lemma add_ties_spec ties : forall act, NoDup act ->
  let r := fold_left (fun act '(a, b) => add_if_missing (add_if_missing act a) b) ties act in
  NoDup r /\ forall x, In x r <-> In x act \/ In x (map fst ties) \/ In x (map snd ties).
Proof.
  induction ties as [|[a b] t IH]; intros act ND; cbn [fold_left].
  - split; auto. intros x. cbn. tauto.
  - destruct (add_if_missing_spec act a ND) as [N1 I1]. destruct (add_if_missing_spec _ b N1) as [N2 I2].
    destruct (IH _ N2) as [N3 I3]. split; auto. intros x. rewrite I3, I2, I1. cbn. intuition.
Qed.

Lemma stage_ok dm_ind f : forall keys s, NoDup keys ->
  (forall k, In k keys -> usedb dm_ind k = true -> exists x, f k (s k) = Ok x) ->
  exists s', stage dm_ind f keys s = Ok s' /\
    (forall k, In k keys -> usedb dm_ind k = true -> f k (s k) = Ok (s' k)) /\
    (forall k, ~ In k keys \/ usedb dm_ind k = false -> s' k = s k).
Proof.
  induction keys as [|k keys IH]; intros s ND H; cbn [stage].
  - exists s. split; [auto|]. split; [intros k []|auto].
  - apply NoDup_cons_iff in ND. destruct ND as [Hk ND].
    assert (E : exists x, (if usedb dm_ind k then f k (s k) else Ok (s k)) = Ok x /\
                (usedb dm_ind k = true -> f k (s k) = Ok x) /\ (usedb dm_ind k = false -> x = s k)).
    { destruct (usedb dm_ind k) eqn:U.
      - destruct (H k (or_introl eq_refl) U) as [x Hx]. exists x. repeat split; auto. discriminate.
      - exists (s k). repeat split; auto. discriminate. }
    destruct E as (x & E & Et & Ef). rewrite E. cbn [rbind].
    assert (Uo : forall j, j <> k -> upd s k x j = s j) by (intros j Hj; unfold upd; now replace (j =? k) with false by lia).
    assert (Us : upd s k x k = x) by (unfold upd; now rewrite Z.eqb_refl).
    destruct (IH (upd s k x) ND) as (s' & E' & A & B).
    { intros j Hj Uj. rewrite Uo by congruence. apply H; auto. now right. }
    exists s'. split; [auto|]. split.
    + intros j [<-|Hj] Uj.
      * rewrite B by (left; auto). rewrite Us. auto.
      * rewrite <- (Uo j) by congruence. apply A; auto.
    + intros j Hj. rewrite B.
      * unfold upd. destruct (Z.eqb_spec j k) as [->|]; auto. apply Ef. destruct Hj as [Hj|Hj]; auto. exfalso; apply Hj; now left.
      * destruct Hj as [Hj|Hj]; [left; intros Hi; apply Hj; now right|now right].
Qed.

Lemma lmax_ok l : l <> [] -> exists M, lmax l = Ok M /\ In M l /\ forall x, In x l -> (x <= M)%R.
Proof.
  induction l as [|x l IH]; intros H; [congruence|]. cbn [lmax]. destruct l as [|y l].
  - exists x. cbn. split; [auto|]. split; [auto|]. intros z [<-|[]]. lra.
  - destruct IH as (M & E & HI & HM); [discriminate|]. rewrite E. exists (Rmax x M). split; [auto|]. split.
    + unfold Rmax. destruct (Rle_dec x M); [now right|now left].
    + intros z [<-|Hz]; [apply Rmax_l|]. eapply Rle_trans; [apply HM; auto|apply Rmax_r].
Qed.

Lemma strength_energy Npix M col : length col = M -> (0 < M)%nat -> strength Npix col = (energy Npix col / INR M)%R.
Proof.
  intros L HM. unfold strength, energy. rewrite L.
  rewrite (rsum_ext _ _ (fun p => / INR M * rsuml (map (fun v => sqmod (v p)) col))%R) by (intros; unfold Rdiv; ring).
  rewrite rsum_scal. unfold Rdiv. ring.
Qed.

Lemma relevant_in k : In k [1; 2; 8; 9] <-> relevant k.
Proof. unfold relevant. cbn. intuition. Qed.

Lemma keep_strong_ok Npix M logGmin k d G : (0 < M)%nat -> fresh Npix M k (d, G) ->
  exists act, keep_strong Npix logGmin k (d, G) = Ok (mkjdm (jNact d) act false (jNele d) (jtied d), G) /\
    StronglySorted Z.lt act /\ forall a, In a act <-> 0 <= a < jNact d /\
      exists col, nth_error G (Z.to_nat a) = Some col /\ forall other, In other G -> (Rpower 10 logGmin * energy Npix other <= energy Npix col)%R.
Proof.
  intros HM ([L F] & H0 & (cp & Hcp & Ecp) & _). cbn [fst snd] in *.
  rewrite Forall_forall in F.
  assert (HI : (0 < INR M)%R) by (apply lt_0_INR; auto).
  unfold keep_strong. destruct (lmax_ok (map (strength Npix) G)) as (S & E & HIn & HS).
  { destruct G; [destruct Hcp|discriminate]. }
  rewrite E. cbn [rbind]. eexists. split; [reflexivity|]. split; [apply nonzero_sorted|].
  assert (HSpos : (0 < S)%R).
  { eapply Rlt_le_trans; [|apply HS; apply in_map; exact Hcp].
    rewrite (strength_energy Npix M) by auto. apply Rdiv_lt_0_compat; auto. }
  apply in_map_iff in HIn. destruct HIn as (cm & Em & Hcm).
  assert (Thr : forall col, In col G -> strong (Rpower 10 logGmin) S (strength Npix col) = true <->
            forall other, In other G -> (Rpower 10 logGmin * energy Npix other <= energy Npix col)%R).
  { intros col Hcol. unfold strong. destruct (Rlt_dec 0 S) as [_|]; [|contradiction].
    assert (T : (Rpower 10 logGmin <= strength Npix col / S)%R <-> (Rpower 10 logGmin * S <= strength Npix col)%R).
    { split; intros Hx.
      - apply (Rmult_le_compat_r S) in Hx; [|lra]. unfold Rdiv in Hx. rewrite Rmult_assoc, Rinv_l, Rmult_1_r in Hx by lra. lra.
      - apply (Rmult_le_reg_r S); [lra|]. unfold Rdiv. rewrite Rmult_assoc, Rinv_l, Rmult_1_r by lra. lra. }
    assert (Q : (Rpower 10 logGmin * S <= strength Npix col)%R <->
        forall other, In other G -> (Rpower 10 logGmin * energy Npix other <= energy Npix col)%R).
    { assert (P : (0 <= Rpower 10 logGmin)%R) by (unfold Rpower; left; apply exp_pos).
      split.
      - intros Hx other Ho. specialize (HS _ (in_map (strength Npix) _ _ Ho)).
        rewrite (strength_energy Npix M) in HS, Hx by auto.
        assert (Rpower 10 logGmin * (energy Npix other / INR M) <= energy Npix col / INR M)%R.
        { eapply Rle_trans; [|exact Hx]. apply Rmult_le_compat_l; auto. }
        apply (Rmult_le_compat_r (INR M)) in H; [|lra]. unfold Rdiv in H.
        replace (Rpower 10 logGmin * (energy Npix other * / INR M) * INR M)%R with (Rpower 10 logGmin * energy Npix other * (/ INR M * INR M))%R in H by ring.
        rewrite Rmult_assoc with (r3 := INR M), Rinv_l, !Rmult_1_r in H by lra. lra.
      - intros Hx. specialize (Hx cm Hcm). rewrite <- Em.
        rewrite !(strength_energy Npix M) by auto. unfold Rdiv.
        rewrite <- Rmult_assoc. apply Rmult_le_compat_r; [left; now apply Rinv_0_lt_compat|auto]. }
    rewrite <- Q, <- T. destruct (Rle_dec _ _); split; auto; discriminate. }
  intros a. split.
  - intros Ha. assert (Hr : idx_ok (length (map (strength Npix) G)) a).
    { pose proof (nonzero_range (strong (Rpower 10 logGmin) S) (map (strength Npix) G)) as HR. rewrite Forall_forall in HR. auto. }
    unfold idx_ok in Hr. rewrite map_length, L in Hr. split; [lia|].
    replace a with (Z.of_nat (Z.to_nat a)) in Ha by lia. apply nonzero_spec in Ha. destruct Ha as (x & Ex & Hx).
    rewrite nth_error_map in Ex. destruct (nth_error G (Z.to_nat a)) as [col|] eqn:Ec; [|discriminate].
    cbn in Ex. injection Ex as <-. exists col. split; auto. apply Thr; auto. eapply nth_error_In; eauto.
  - intros (Hr & col & Ec & Hc). replace a with (Z.of_nat (Z.to_nat a)) by lia. apply nonzero_spec.
    exists (strength Npix col). rewrite nth_error_map, Ec. split; auto. apply Thr; auto. eapply nth_error_In; eauto.
Qed.

Lemma set_hist_ok hist Nitr Itr b : 0 <= Itr < Nitr -> (forall h, hist = Some h -> Z.of_nat (length h) = Nitr) ->
  exists h, set_hist hist Nitr Itr b = Ok h /\ Z.of_nat (length h) = Nitr /\ nth_error h (Z.to_nat Itr) = Some b.
Proof.
  intros HI HH. unfold set_hist. set (h := match hist with Some h => h | None => _ end).
  assert (L : Z.of_nat (length h) = Nitr) by (unfold h; destruct hist; [auto|rewrite repeat_length; lia]).
  rewrite L, np_index_ok by lia. cbn [rbind]. eexists. split; [reflexivity|].
  rewrite upd_nth_length. split; auto. apply nth_error_upd_same. lia.
Qed.

Theorem cull_ok Npix M Itr Nitr sched logGmin dm_ind hist s : (0 < M)%nat ->
  flag_cull Itr sched = Ok true -> 0 <= Itr < Nitr -> (forall h, hist = Some h -> Z.of_nat (length h) = Nitr) ->
  (forall k, relevant k -> usedb dm_ind k = true -> fresh Npix M k (s k)) ->
  exists s' h, cull Npix Itr Nitr true sched logGmin dm_ind hist s = Ok (s', h) /\
    Z.of_nat (length h) = Nitr /\ nth_error h (Z.to_nat Itr) = Some true /\
    (forall k, relevant k -> usedb dm_ind k = true ->
       let d := fst (s k) in let d' := fst (s' k) in
       consistent d' (snd (s' k)) /\ jlist d' = false /\ jNact d' = jNact d /\ jtied d' = jtied d /\
       (forall a, In a (jact d') <-> 0 <= a < jNact d /\ kept Npix logGmin k (s k) a) /\
       (forall j a, nth_error (jact d') j = Some a -> nth_error (snd (s' k)) j = nth_error (snd (s k)) (Z.to_nat a))) /\
    (forall k, relevant k -> usedb dm_ind k = false ->
       jNele (fst (s' k)) = 0 /\ jact (fst (s' k)) = jact (fst (s k)) /\ snd (s' k) = snd (s k)).
Proof.
  intros HM HF HI HH HK. unfold cull. rewrite HF. cbn [rbind].
  destruct (set_hist_ok hist Nitr Itr true HI HH) as (h & Eh & Lh & Nh). rewrite Eh. cbn [rbind].
  set (s1 := reinclude dm_ind s).
  assert (ND : NoDup [1; 2; 8; 9]) by (repeat constructor; cbn; intuition lia).
  assert (S1 : forall k, relevant k -> s1 k = ((if usedb dm_ind k then include_all (fst (s k)) else no_ele (fst (s k))), snd (s k))).
  { intros k Hk. unfold s1, reinclude. destruct (s k) as [d G].
    assert (existsb (Z.eqb k) [1; 2; 8; 9] = true) as -> by (destruct Hk as [-> | [-> | [-> | ->]]]; reflexivity).
    reflexivity. }
  assert (Fr1 : forall k, relevant k -> usedb dm_ind k = true -> fresh Npix M k (s1 k)).
  { intros k Hk U. specialize (HK k Hk U). rewrite S1, U by auto. unfold fresh in *. cbn. exact HK. }
  (* stage 1 *)
  destruct (stage_ok dm_ind (keep_strong Npix logGmin) [1; 2; 8; 9] s1 ND) as (s2 & E2 & A2 & B2).
  { intros k Hk U. apply relevant_in in Hk. specialize (Fr1 k Hk U). destruct (s1 k) as [d G] eqn:Es.
    destruct (keep_strong_ok Npix M logGmin k d G HM Fr1) as (act & E & _). eauto. }
  rewrite E2. cbn [rbind].
  destruct (stage_ok dm_ind add_tied [1; 2; 8; 9] s2 ND) as (s3 & E3 & A3 & B3).
  { intros k _ _. unfold add_tied. destruct (s2 k). destruct (_ || _)%bool; eauto. }
  rewrite E3. cbn [rbind].
  destruct (stage_ok dm_ind count [1; 2; 8; 9] s3 ND) as (s4 & E4 & A4 & B4).
  { intros k _ _. unfold count. destruct (s3 k). eauto. }
  rewrite E4. cbn [rbind].
  assert (D4 : forall k, relevant k -> usedb dm_ind k = true -> exists act,
      s4 k = (mkjdm (jNact (fst (s k))) act false (Z.of_nat (length act)) (jtied (fst (s k))), snd (s k)) /\
      StronglySorted Z.lt act /\ (forall a, In a act <-> 0 <= a < jNact (fst (s k)) /\ kept Npix logGmin k (s k) a)).
  { intros k Hk U. pose proof (Fr1 k Hk U) as F1. pose proof (HK k Hk U) as F0. rewrite (S1 k Hk) in F1. rewrite U in F1.
    specialize (A2 k (proj2 (relevant_in k) Hk) U). specialize (A3 k (proj2 (relevant_in k) Hk) U).
    specialize (A4 k (proj2 (relevant_in k) Hk) U). rewrite (S1 k Hk), U in A2.
    destruct (keep_strong_ok Npix M logGmin k _ _ HM F1) as (act & E & HS & HIn).
    rewrite E in A2. injection A2 as A2. rewrite <- A2 in A3. clear E E2 E3 E4.
    destruct (s k) as [d G]. cbn [fst snd include_all jNact jtied jNele jact] in *.
    unfold add_tied in A3. destruct F0 as (_ & _ & _ & Ht). cbn [fst snd] in Ht.
    destruct ((k =? 1) || (k =? 2))%bool eqn:Ek.
    - injection A3 as A3. rewrite <- A3 in A4. unfold count in A4. injection A4 as A4.
      eexists. split; [symmetry; exact A4|]. clear A3 A4 A2.
      destruct (add_ties_spec (jtied d) act (sorted_lt_nodup _ HS)) as [NDr Ir].
      cbn [jtied jact]. set (r := fold_left _ _ _) in *.
      split.
      + apply sorted_nodup_lt; [apply isort_sorted|]. eapply Permutation_NoDup; [apply isort_perm|auto].
      + assert (K12 : k = 1 \/ k = 2) by lia. specialize (Ht K12). rewrite Forall_forall in Ht.
        intros a. assert (Hp : In a (isort r) <-> In a r).
        { split; apply Permutation_in; [apply Permutation_sym|]; apply isort_perm. }
        rewrite Hp, Ir, HIn. unfold kept. cbn [fst snd]. split.
        * intros [[Hr Hc]|Hti]; [tauto|]. split; [|tauto].
          destruct Hti as [Hti|Hti]; apply in_map_iff in Hti; destruct Hti as ([x y] & <- & Hxy); apply (Ht _ Hxy).
        * intros [Hr [Hc|[_ Hti]]]; tauto.
    - injection A3 as A3. rewrite <- A3 in A4. unfold count in A4. injection A4 as A4.
      eexists. split; [symmetry; exact A4|]. split; auto.
      intros a. cbn [jact]. rewrite HIn. unfold kept. cbn [fst snd]. split; [tauto|].
      intros [Hr [Hc|[Hk12 _]]]; [tauto|]. exfalso. destruct Hk12; subst k; discriminate. }
  assert (U4 : forall k, relevant k -> usedb dm_ind k = false -> s4 k = s1 k).
  { intros k Hk U. rewrite B4, B3, B2; auto. }
  destruct (stage_ok dm_ind crop [1; 2; 8; 9] s4 ND) as (s5 & E5 & A5 & B5).
  { intros k Hk U. apply relevant_in in Hk. destruct (D4 k Hk U) as (act & E & HS & HIn). rewrite E. unfold crop. cbn [jact].
    destruct (HK k Hk U) as ([L _] & H0 & _).
    destruct (gather_ok (snd (s k)) act) as (u & Eg & _).
    - apply Forall_forall. intros a Ha. apply HIn in Ha. rewrite L. lia.
    - rewrite Eg. cbn [rbind]. eauto. }
  rewrite E5. cbn [rbind]. exists s5, h. split; [auto|]. split; [auto|]. split; [auto|]. split.
  - intros k Hk U. destruct (D4 k Hk U) as (act & E & HS & HIn).
    specialize (A5 k (proj2 (relevant_in k) Hk) U). rewrite E in A5. unfold crop in A5. cbn [jact] in A5.
    destruct (HK k Hk U) as ([L _] & H0 & _).
    destruct (gather_ok (snd (s k)) act) as (u & Eg & Lg & Ng).
    { apply Forall_forall. intros a Ha. apply HIn in Ha. rewrite L. lia. }
    rewrite Eg in A5. cbn [rbind] in A5. injection A5 as A5. rewrite <- A5. cbn.
    split; [|split; [auto|split; [auto|split; [auto|split; auto]]]].
    unfold consistent. cbn. split; [auto|]. split; [|split; auto].
    apply Forall_forall. intros a Ha. apply HIn in Ha. lia.
  - intros k Hk U. rewrite B5, U4 by auto. rewrite (S1 k Hk), U. cbn. auto.
Qed.

Lemma cull_skip Npix Itr Nitr relin sched logGmin dm_ind hist s : 
  flag_cull Itr sched = Ok false -> 0 <= Itr < Nitr -> (forall h, hist = Some h -> Z.of_nat (length h) = Nitr) ->
  exists h, cull Npix Itr Nitr relin sched logGmin dm_ind hist s = Ok (s, h) /\ nth_error h (Z.to_nat Itr) = Some false.
Proof.
  intros HF HI HH. unfold cull. rewrite HF. cbn [rbind].
  destruct (set_hist_ok hist Nitr Itr false HI HH) as (h & Eh & Lh & Nh). rewrite Eh. cbn [rbind]. eauto.
Qed.

Lemma sorted_perm_eq a b : StronglySorted Z.le a -> StronglySorted Z.le b -> Permutation a b -> a = b.
Proof.
  revert b. induction a as [|x a IH]; intros b Ha Hb HP.
  - apply Permutation_nil in HP. auto.
  - destruct b as [|y b]; [apply Permutation_sym, Permutation_nil in HP; discriminate|].
    apply StronglySorted_inv in Ha, Hb. destruct Ha as [Ha Fa], Hb as [Hb Fb]. rewrite Forall_forall in Fa, Fb.
    assert (x = y).
    { assert (In x (y :: b)) by (eapply Permutation_in; [exact HP|now left]).
      assert (In y (x :: a)) by (eapply Permutation_in; [apply Permutation_sym; exact HP|now left]).
      destruct H as [H|H]; auto. destruct H0 as [H0|H0]; auto. specialize (Fa y H0). specialize (Fb x H). lia. }
    subst y. f_equal. apply IH; auto. eapply Permutation_cons_inv; eauto.
Qed.
Lemma isort_eq a b : isort a = isort b <-> Permutation a b.
Proof.
  split; intros H.
  - eapply perm_trans; [apply isort_perm|]. rewrite H. apply Permutation_sym, isort_perm.
  - apply sorted_perm_eq; try apply isort_sorted.
    eapply perm_trans; [apply Permutation_sym, isort_perm|]. eapply perm_trans; [exact H|apply isort_perm].
Qed.

Lemma flag_cull_spec Itr sched : 0 <= Itr -> (forall s, sched = Some s -> Itr < Z.of_nat (length s)) ->
  exists b, flag_cull Itr sched = Ok b /\
    (b = true <-> Itr = 0 \/ exists s, sched = Some s /\ 0 < Itr /\
       ~ Permutation (nth (Z.to_nat (Itr - 1)) s []) (nth (Z.to_nat Itr) s [])).
Proof.
  intros H0 HS. unfold flag_cull. destruct (Z.eqb_spec Itr 0) as [->|Hne].
  - exists true. split; auto. split; auto.
  - destruct sched as [s|].
    + specialize (HS s eq_refl). rewrite !np_index_ok by lia. cbn [rbind]. eexists. split; [reflexivity|].
      destruct (list_eq_dec Z.eq_dec _ _) as [E|E].
      * split; [discriminate|]. intros [H|(s' & Es & _ & Hn)]; [lia|]. injection Es as <-. exfalso. apply Hn. now apply isort_eq.
      * split; auto. intros _. right. exists s. split; auto. split; [lia|]. intros HP. apply E. now apply isort_eq.
    + exists false. split; auto. split; [discriminate|]. intros [H|(s & Es & _)]; [lia|discriminate].
Qed.
