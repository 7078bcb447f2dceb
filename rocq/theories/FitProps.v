(* C108: PROPER's fit of actuator commands *)
From Verif Require Import Base RBase CBase FitModel FitSpec.
From Coq Require Import Lra Lia.
Open Scope R_scope.
Lemma go_on_true e e0 : 0 <= e -> go_on e e0 = true -> e < e0 /\ 101 * e < 100 * e0.
Proof.
  intros P. unfold go_on. destruct (Rlt_dec e e0) as [L|]; [|discriminate]. destruct (Req_EM_T e 0) as [->|N].
  - intros _. split; lra.
  - destruct (Rlt_dec (1 / 100) ((e0 - e) / e)) as [G|]; [|discriminate]. intros _. split; [exact L|].
    assert (0 < e) by lra. apply (Rmult_lt_compat_r e) in G; [|lra]. replace ((e0 - e) / e * e) with (e0 - e) in G by (field; lra). lra.
Qed.
Lemma go_on_false e e0 : 0 <= e -> go_on e e0 = false -> 100 * e0 <= 101 * e.
Proof.
  intros P. unfold go_on. destruct (Rlt_dec e e0) as [L|]; [|intros _; lra]. destruct (Req_EM_T e 0) as [->|N]; [discriminate|].
  destruct (Rlt_dec (1 / 100) ((e0 - e) / e)) as [|G]; [discriminate|]. intros _. apply Rnot_lt_le in G.
  assert (0 < e) by lra. apply (Rmult_le_compat_r e) in G; [|lra]. replace ((e0 - e) / e * e) with (e0 - e) in G by (field; lra). lra.
Qed.
Lemma norm2_pos n m d : 0 <= norm2 n m d. Proof. apply sqrt_pos. Qed.
Lemma rmax_ge n f k : (k < n)%nat -> f k <= rmax n f.
Proof. induction n as [|n IH]; intros H; [lia|]. cbn. destruct (Nat.eq_dec k n) as [->|]; [apply Rmax_r|]. eapply Rle_trans; [apply IH; lia|apply Rmax_l]. Qed.
Lemma rmax_le n f B : 0 <= B -> (forall k, (k < n)%nat -> f k <= B) -> rmax n f <= B.
Proof. intros P. induction n as [|n IH]; intros H; cbn; [exact P|]. apply Rmax_lub; [apply IH; auto|apply H; lia]. Qed.
Lemma peak_ge n m d i j : (i < n)%nat -> (j < m)%nat -> Rabs (d i j) <= peak n m d.
Proof. intros. unfold peak. eapply Rle_trans; [|apply (rmax_ge n _ i); assumption]. apply (rmax_ge m (fun j => Rabs (d i j)) j). assumption. Qed.
Lemma rsum_term n f k : (forall i, (i < n)%nat -> 0 <= f i) -> (k < n)%nat -> f k <= rsum n f.
Proof.
  induction n as [|n IH]; intros P H; [lia|]. cbn [rsum]. pose proof (rsum_nonneg n f ltac:(auto)). pose proof (P n ltac:(lia)).
  destruct (Nat.eq_dec k n) as [->|]; [lra|]. specialize (IH ltac:(auto) ltac:(lia)). lra.
Qed.
Lemma norm2_ge n m d i j : (i < n)%nat -> (j < m)%nat -> Rabs (d i j) <= norm2 n m d.
Proof.
  intros I J. unfold norm2. rewrite <- sqrt_Rsqr_abs. apply sqrt_le_1_alt. unfold Rsqr.
  pose proof (rsum_term m (fun j => d i j ^ 2) j ltac:(intros; apply pow2_ge_0) J) as A. cbv beta in A.
  pose proof (rsum_term n (fun i => rsum m (fun j => d i j ^ 2)) i ltac:(intros; apply rsum_nonneg; intros; apply pow2_ge_0) I) as B. cbv beta in B.
  replace (d i j * d i j) with (d i j ^ 2) by ring. lra.
Qed.
Lemma peak_norm n m d : peak n m d <= norm2 n m d.
Proof. apply rmax_le; [apply norm2_pos|]. intros i I. apply rmax_le; [apply norm2_pos|]. intros j J. now apply norm2_ge. Qed.
(* the four ways to stop *)
Definition stopped n m z w (r : image * image) : Prop :=
  let t := trial n m z w in let mis k := misfit n m z w (t k) in
  (100 * 1000000 <= 101 * mis 0%nat /\ r = (t 0%nat, conv n m w (t 0%nat))) \/
  exists k, improving n m z w k /\
    ((r = (t (S k), conv n m w (t (S k))) /\ within n m (1 / 10 ^ 15) z (conv n m w (t (S k)))) \/
     (r = (t (S k), conv n m w (t (S k))) /\ mis (S k) <= mis k /\ 100 * mis k <= 101 * mis (S k)) \/
     (r = (t k, conv n m w (t (S k))) /\ mis k < mis (S k))).
Lemma loop_stops n m z w fuel : forall k r, improving n m z w k -> let t := trial n m z w in
  fit_loop fuel n m z w (t (S k)) (t k) (conv n m w (t (S k))) (misfit n m z w (t (S k))) (misfit n m z w (t k)) = Some r -> stopped n m z w r.
Proof.
  induction fuel as [|f IH]; intros k r IM t H; [discriminate|]. cbn [fit_loop] in H.
  destruct (go_on _ _) eqn:G.
  - apply go_on_true in G; [|apply norm2_pos]. destruct G as [_ G].
    assert (IM' : improving n m z w (S k)). { intros i I. destruct (Nat.eq_dec i k) as [->|]; [exact G|apply IM; lia]. }
    destruct (Rlt_dec _ _) as [L|L].
    + injection H as <-. right. exists (S k). split; [exact IM'|]. left. unfold fit_end. destruct (Rlt_dec _ _) as [X|_]; [exfalso; revert X; apply Rlt_irrefl|]. split; [reflexivity|].
      intros i j I J. eapply Rle_lt_trans; [|exact L]. apply (peak_ge n m (sub2 z (conv n m w (t (S (S k))))) i j I J).
    + exact (IH (S k) r IM' H).
  - apply go_on_false in G; [|apply norm2_pos]. injection H as <-. unfold fit_end. destruct (Rlt_dec _ _) as [X|X].
    + right. exists k. split; [exact IM|]. right. right. split; [reflexivity|exact X].
    + right. exists k. split; [exact IM|]. right. left. split; [reflexivity|]. split; [apply Rnot_lt_le; exact X|exact G].
Qed.
(* what is returned: the last command before the fit stops improving, stops being worse than 1e-15 or diverges *)
Theorem C108_stops fuel n m z w r : prop_fit_dm fuel n m z w = Some r ->
  let t := trial n m z w in let mis k := misfit n m z w (t k) in
  (100 * 1000000 <= 101 * mis 0%nat /\ r = (t 0%nat, conv n m w (t 0%nat))) \/
  exists k, improving n m z w k /\
    ((r = (t (S k), conv n m w (t (S k))) /\ within n m (1 / 10 ^ 15) z (conv n m w (t (S k)))) \/
     (r = (t (S k), conv n m w (t (S k))) /\ mis (S k) <= mis k /\ 100 * mis k <= 101 * mis (S k)) \/
     (r = (t k, conv n m w (t (S k))) /\ mis k < mis (S k))).
Proof.
  change (prop_fit_dm fuel n m z w = Some r -> stopped n m z w r). intros H. unfold prop_fit_dm in H. cbv zeta in H. destruct fuel as [|f]; [discriminate|]. cbn [fit_loop] in H.
  set (t := trial n m z w).
  destruct (go_on _ _) eqn:G.
  - assert (IM : improving n m z w 0) by (intros i I; lia). destruct (Rlt_dec _ _) as [L|L].
    + injection H as <-. right. exists 0%nat. split; [exact IM|]. left. unfold fit_end. destruct (Rlt_dec _ _) as [X|_]; [exfalso; revert X; apply Rlt_irrefl|]. split; [reflexivity|].
      intros i j I J. eapply Rle_lt_trans; [|exact L]. apply (peak_ge n m (sub2 z (conv n m w (t 1%nat))) i j I J).
    + exact (loop_stops n m z w f 0 r IM H).
  - apply go_on_false in G; [|apply norm2_pos]. injection H as <-. left. split; [exact G|]. unfold fit_end. destruct (Rlt_dec _ _); reflexivity.
Qed.
Print Assumptions C108_stops.
(* it always ends, after a number of corrections that depends on nothing *)
Lemma loop_ends n m z w N : forall cmd last surf e e0, 1 / 10 ^ 15 <= e -> e0 * (100 / 101) ^ N < 1 / 10 ^ 15 -> exists r, forall k, (N < k)%nat -> fit_loop k n m z w cmd last surf e e0 = Some r.
Proof.
  induction N as [|N IH]; intros cmd last surf e e0 E B.
  - simpl pow in B at 1. exists (fit_end cmd last surf e e0). intros k K. destruct k as [|k]; [lia|]. cbn [fit_loop]. assert (P : 0 <= e) by (eapply Rle_trans; [|exact E]; apply Rlt_le, Rdiv_lt_0_compat; [lra|apply pow_lt; lra]).
    destruct (go_on e e0) eqn:G; [|reflexivity]. apply go_on_true in G; [|exact P]. destruct G as [G _]. exfalso. rewrite Rmult_1_r in B. apply (Rlt_irrefl e). eapply Rlt_trans; [exact G|]. eapply Rlt_le_trans; [exact B|exact E].
  - assert (P : 0 <= e) by (eapply Rle_trans; [|exact E]; apply Rlt_le, Rdiv_lt_0_compat; [lra|apply pow_lt; lra]).
    destruct (go_on e e0) eqn:G.
    + apply go_on_true in G; [|exact P]. destruct G as [_ G].
      set (cmd' := add2 cmd (sub2 z surf)). set (surf' := conv n m w cmd'). set (d := sub2 z surf').
      destruct (Rlt_dec (peak n m d) (1 / 10 ^ 15)) as [L|L] eqn:EL.
      * exists (fit_end cmd' cmd surf' e e). intros k K. destruct k as [|k]; [lia|]. cbn [fit_loop]. destruct (go_on e e0) eqn:G'; [|exfalso; unfold go_on in G'; clear - G G' P].
        -- cbv zeta. fold cmd'. fold surf'. fold d. rewrite EL. reflexivity.
        -- destruct (Rlt_dec e e0); [|lra]. destruct (Req_EM_T e 0); [discriminate|]. destruct (Rlt_dec (1 / 100) ((e0 - e) / e)) as [|X]; [discriminate|]. apply X. apply Rmult_lt_reg_r with e; [lra|]. replace ((e0 - e) / e * e) with (e0 - e) by (field; lra). lra.
      * destruct (IH cmd' cmd surf' (norm2 n m d) e) as [r R].
        -- eapply Rle_trans; [exact (Rnot_lt_le _ _ L)|apply peak_norm].
        -- eapply Rle_lt_trans; [|exact B]. simpl pow at 2. rewrite <- Rmult_assoc. apply Rmult_le_compat_r; [apply pow_le; lra|lra].
        -- exists r. intros k K. destruct k as [|k]; [lia|]. cbn [fit_loop]. destruct (go_on e e0) eqn:G'; [|exfalso; unfold go_on in G'; clear - G G' P].
           ++ cbv zeta. fold cmd'. fold surf'. fold d. rewrite EL. apply R. lia.
           ++ destruct (Rlt_dec e e0); [|lra]. destruct (Req_EM_T e 0); [discriminate|]. destruct (Rlt_dec (1 / 100) ((e0 - e) / e)) as [|X]; [discriminate|]. apply X. apply Rmult_lt_reg_r with e; [lra|]. replace ((e0 - e) / e * e) with (e0 - e) by (field; lra). lra.
    + exists (fit_end cmd last surf e e0). intros k K. destruct k as [|k]; [lia|]. cbn [fit_loop]. rewrite G. reflexivity.
Qed.
Theorem C108_terminates : exists K, forall n m z w, exists r, forall fuel, (K <= fuel)%nat -> prop_fit_dm fuel n m z w = Some r.
Proof.
  assert (P15 : 0 < 1 / 10 ^ 15) by (apply Rdiv_lt_0_compat; [lra|apply pow_lt; lra]).
  destruct (pow_lt_1_zero (100 / 101) ltac:(rewrite Rabs_pos_eq; lra) (1 / 10 ^ 15 / 1000000) ltac:(apply Rdiv_lt_0_compat; lra)) as [N HN].
  exists (S (S N)). intros n m z w. unfold prop_fit_dm. cbv zeta. set (surf := conv n m w z). set (e := norm2 n m (sub2 z surf)).
  destruct (go_on e 1000000) eqn:G.
  - pose proof (go_on_true e 1000000 (norm2_pos _ _ _) G) as [L _].
    set (cmd' := add2 z (sub2 z surf)). set (surf' := conv n m w cmd'). set (d := sub2 z surf').
    destruct (Rlt_dec (peak n m d) (1 / 10 ^ 15)) as [Q|Q] eqn:EL.
    + exists (fit_end cmd' z surf' e e). intros k K. destruct k as [|k]; [lia|]. cbn [fit_loop]. rewrite G. cbv zeta. fold cmd'. fold surf'. fold d. rewrite EL. reflexivity.
    + destruct (loop_ends n m z w N cmd' z surf' (norm2 n m d) e) as [r R].
      * eapply Rle_trans; [exact (Rnot_lt_le _ _ Q)|apply peak_norm].
      * specialize (HN N (le_n N)). rewrite Rabs_pos_eq in HN by (apply pow_le; lra). apply Rle_lt_trans with (1000000 * (100 / 101) ^ N).
        -- apply Rmult_le_compat_r; [apply pow_le; lra|lra].
        -- apply (Rmult_lt_compat_l 1000000) in HN; [|lra]. replace (1000000 * (1 / 10 ^ 15 / 1000000)) with (1 / 10 ^ 15) in HN by (field; apply pow_nonzero; lra). exact HN.
      * exists r. intros k K. destruct k as [|k]; [lia|]. cbn [fit_loop]. rewrite G. cbv zeta. fold cmd'. fold surf'. fold d. rewrite EL. apply R. lia.
  - exists (fit_end z z surf e 1000000). intros k K. destruct k as [|k]; [lia|]. cbn [fit_loop]. rewrite G. reflexivity.
Qed.
Print Assumptions C108_terminates.
(* the command is never worse than dm_z itself, unless everything is within 1e-15 *)
Lemma improving_le n m z w k : improving n m z w k -> misfit n m z w (trial n m z w k) <= misfit n m z w z.
Proof.
  induction k as [|k IH]; intros H; [apply Rle_refl|]. specialize (IH ltac:(intros i I; apply H; lia)). pose proof (H k ltac:(lia)) as G. assert (P : 0 <= misfit n m z w (trial n m z w (S k))) by apply norm2_pos. apply Rle_trans with (misfit n m z w (trial n m z w k)); [|exact IH]. lra.
Qed.
Theorem C108_never_worse fuel n m z w c s : prop_fit_dm fuel n m z w = Some (c, s) -> misfit n m z w c <= misfit n m z w z \/ within n m (1 / 10 ^ 15) z (conv n m w c).
Proof.
  intros H. apply C108_stops in H. cbv zeta in H. destruct H as [[_ H]|(k & IM & [[H W]|[(H & M & _)|[H _]]])]; injection H as -> ->.
  - left. apply Rle_refl.
  - right. exact W.
  - left. eapply Rle_trans; [exact M|now apply improving_le].
  - left. now apply improving_le.
Qed.
Print Assumptions C108_never_worse.
(* convolving is linear *)
Lemma conv_add n m w a b i j : conv n m w (add2 a b) i j = conv n m w a i j + conv n m w b i j.
Proof. unfold conv, add2. rewrite <- rsum_plus. apply rsum_ext. intros. rewrite <- rsum_plus. apply rsum_ext. intros. ring. Qed.
Lemma norm2_ext n m a b : (forall i j, (i < n)%nat -> (j < m)%nat -> a i j = b i j) -> norm2 n m a = norm2 n m b.
Proof. intros H. unfold norm2. f_equal. apply rsum_ext. intros. apply rsum_ext. intros. now rewrite H. Qed.
Lemma next_misfit n m z w k : let r := sub2 z (conv n m w (trial n m z w k)) in misfit n m z w (trial n m z w (S k)) = norm2 n m (sub2 r (conv n m w r)).
Proof. intros r. unfold misfit. apply norm2_ext. intros i j _ _. unfold sub2 at 1. cbn [trial]. rewrite conv_add. fold r. unfold r at 2, sub2. ring. Qed.
(* near enough to the identity, it finds commands for the surface *)
Theorem C108_finds fuel n m z w c s : (forall d, 102 * norm2 n m (sub2 d (conv n m w d)) <= 100 * norm2 n m d) -> 101 * misfit n m z w z < 100 * 1000000 ->
  prop_fit_dm fuel n m z w = Some (c, s) -> s = conv n m w c /\ within n m (1 / 10 ^ 15) z s.
Proof.
  intros C B H. apply C108_stops in H. cbv zeta in H. destruct H as [[L H]|(k & IM & H)]; [exfalso; change (trial n m z w 0) with z in L; lra|].
  pose proof (next_misfit n m z w k) as NX. cbv zeta in NX. pose proof (C (sub2 z (conv n m w (trial n m z w k)))) as Q. rewrite <- NX in Q. fold (misfit n m z w (trial n m z w k)) in Q.
  assert (P0 : 0 <= misfit n m z w (trial n m z w k)) by apply norm2_pos. assert (P1 : 0 <= misfit n m z w (trial n m z w (S k))) by apply norm2_pos.
  destruct H as [[H W]|[(H & _ & M)|[H M]]]; injection H as -> ->.
  - split; [reflexivity|exact W].
  - split; [reflexivity|]. intros i j I J. assert (Z : misfit n m z w (trial n m z w (S k)) = 0) by lra.
    eapply Rle_lt_trans; [apply (norm2_ge n m (sub2 z (conv n m w (trial n m z w (S k)))) i j I J)|]. unfold misfit in Z. rewrite Z. apply Rdiv_lt_0_compat; [lra|apply pow_lt; lra].
  - exfalso. lra.
Qed.
Print Assumptions C108_finds.
(* a kernel of one element *)
Lemma one_conv n m v c i j : (i < n)%nat -> (j < m)%nat -> conv n m (mkker 1 1 (fun _ _ => v)) c i j = v * c i j.
Proof.
  intros I J. unfold conv. cbn [k_r k_c k_w]. cbn [rsum]. change (1 / 2)%nat with 0%nat.
  assert (R : forall n i, (i < n)%nat -> refl n (Z.of_nat i - Z.of_nat 0 + Z.of_nat 0) = i).
  { clear. intros n i I. unfold refl. replace (Z.of_nat i - Z.of_nat 0 + Z.of_nat 0)%Z with (Z.of_nat i) by lia. rewrite Z.mod_small by lia. cbv zeta. destruct (Z.ltb_spec (Z.of_nat i) (Z.of_nat n)); lia. }
  rewrite !R by assumption. ring.
Qed.
Lemma norm2_scal n m a d : norm2 n m (fun i j => a * d i j) = Rabs a * norm2 n m d.
Proof.
  unfold norm2. rewrite <- sqrt_Rsqr_abs, <- sqrt_mult_alt by apply Rle_0_sqr. f_equal. rewrite <- rsum_scal. apply rsum_ext. intros. rewrite <- rsum_scal. apply rsum_ext. intros. unfold Rsqr. ring.
Qed.
(* a case: actuators of which half the stroke arrives *)
Theorem C108_finds_example n m z : 101 * norm2 n m z < 200 * 1000000 -> forall fuel c s, prop_fit_dm fuel n m z (mkker 1 1 (fun _ _ => 1 / 2)) = Some (c, s) -> within n m (1 / 10 ^ 15) z s /\ within n m (2 / 10 ^ 15) c (fun i j => 2 * z i j).
Proof.
  intros B fuel c s H. set (w := mkker 1 1 (fun _ _ => 1 / 2)) in *.
  assert (D : forall d, norm2 n m (sub2 d (conv n m w d)) = 1 / 2 * norm2 n m d).
  { intros d. rewrite (norm2_ext n m _ (fun i j => 1 / 2 * d i j)); [rewrite norm2_scal, Rabs_pos_eq by lra; reflexivity|]. intros i j I J. unfold sub2. unfold w. rewrite one_conv by assumption. field. }
  destruct (C108_finds fuel n m z w c s) as [-> W]; [|unfold misfit; rewrite D; lra|exact H|].
  - intros d. rewrite D. pose proof (norm2_pos n m d). lra.
  - split; [exact W|]. intros i j I J. specialize (W i j I J). unfold w in W. rewrite one_conv in W by assumption.
    replace (c i j - 2 * z i j) with (- (2 * (z i j - 1 / 2 * c i j))) by field. rewrite Rabs_Ropp, Rabs_mult, (Rabs_pos_eq 2) by lra. replace (2 / 10 ^ 15) with (2 * (1 / 10 ^ 15)) by (field; apply pow_nonzero; lra). lra.
Qed.
Print Assumptions C108_finds_example.
(* not as documented: where it diverges, the surface returned is not that of the command returned *)
Theorem C108_surface_refuted : exists z w c s, (forall fuel, (2 <= fuel)%nat -> prop_fit_dm fuel 1 1 z w = Some (c, s)) /\ c 0%nat 0%nat = 1 /\ conv 1 1 w c 0%nat 0%nat = 3 /\ s 0%nat 0%nat = -3.
Proof.
  set (z := fun _ _ : nat => 1). set (w := mkker 1 1 (fun _ _ => 3)). set (t := trial 1 1 z w).
  assert (C : forall c, conv 1 1 w c 0%nat 0%nat = 3 * c 0%nat 0%nat) by (intros c; unfold w; apply one_conv; lia).
  assert (N : forall d, norm2 1 1 d = Rabs (d 0%nat 0%nat)). { intros d. unfold norm2. cbn [rsum]. rewrite <- sqrt_Rsqr_abs. f_equal. unfold Rsqr. ring. }
  exists z, w, z, (conv 1 1 w (t 1%nat)). split; [|split; [reflexivity|split; [rewrite C; unfold z; lra|rewrite C; unfold t; cbn [trial]; unfold add2, sub2; rewrite C; unfold z; lra]]].
  intros fuel F. destruct fuel as [|[|fuel]]; [lia|lia|]. unfold prop_fit_dm. cbv zeta. cbn [fit_loop]. fold (t 1%nat).
  assert (E0 : norm2 1 1 (sub2 z (conv 1 1 w z)) = 2). { rewrite N. unfold sub2. rewrite C. unfold z. replace (1 - 3 * 1) with (-2) by lra. rewrite Rabs_left by lra. lra. }
  change (add2 z (sub2 z (conv 1 1 w z))) with (t 1%nat). assert (T1 : t 1%nat 0%nat 0%nat = -1). { unfold t. cbn [trial]. unfold add2, sub2. rewrite C. unfold z. lra. }
  assert (E1 : norm2 1 1 (sub2 z (conv 1 1 w (t 1%nat))) = 4). { rewrite N. unfold sub2. rewrite C, T1. unfold z. rewrite Rabs_pos_eq; lra. }
  assert (P1 : peak 1 1 (sub2 z (conv 1 1 w (t 1%nat))) >= 4). { rewrite <- E1, N. apply Rle_ge. apply peak_ge; lia. }
  rewrite E0, E1. unfold go_on at 1. destruct (Rlt_dec 2 1000000); [|lra]. destruct (Req_EM_T 2 0); [lra|]. destruct (Rlt_dec (1 / 100) ((1000000 - 2) / 2)); [|lra].
  destruct (Rlt_dec (peak 1 1 _) _) as [L|_]; [exfalso; assert (1 / 10 ^ 15 < 1) by (apply Rmult_lt_reg_r with (10 ^ 15); [apply pow_lt; lra|]; unfold Rdiv; rewrite Rmult_assoc, Rinv_l by (apply pow_nonzero; lra); simpl; lra); lra|].
  unfold go_on. destruct (Rlt_dec 4 2); [lra|]. unfold fit_end. destruct (Rlt_dec 2 4); [reflexivity|lra].
Qed.
Print Assumptions C108_surface_refuted.
(* the surface returned is that of the command returned, or that of the next one, which is worse *)
Theorem C108_surface fuel n m z w c s : prop_fit_dm fuel n m z w = Some (c, s) ->
  s = conv n m w c \/ let next := add2 c (sub2 z (conv n m w c)) in s = conv n m w next /\ misfit n m z w c < misfit n m z w next.
Proof.
  intros H. apply C108_stops in H. cbv zeta in H. destruct H as [[_ H]|(k & IM & [[H W]|[(H & M & _)|[H M]]])]; injection H as -> ->.
  1-3: left; reflexivity. right. split; [reflexivity|exact M].
Qed.
Print Assumptions C108_surface.
(* the samples beyond the edges of the surface are its mirror image *)
Theorem C108_mirror n k : (k < n)%nat -> refl n (Z.of_nat k) = k /\ refl n (- 1 - Z.of_nat k) = k /\ refl n (Z.of_nat n + Z.of_nat k) = (n - 1 - k)%nat.
Proof.
  intros K. unfold refl. split; [|split]; cbv zeta.
  - rewrite Z.mod_small by lia. destruct (Z.ltb_spec (Z.of_nat k) (Z.of_nat n)); lia.
  - replace (-1 - Z.of_nat k)%Z with ((2 * Z.of_nat n - 1 - Z.of_nat k) + (-1) * (2 * Z.of_nat n))%Z by ring. rewrite Z.mod_add, Z.mod_small by lia. destruct (Z.ltb_spec (2 * Z.of_nat n - 1 - Z.of_nat k) (Z.of_nat n)); lia.
  - rewrite Z.mod_small by lia. destruct (Z.ltb_spec (Z.of_nat n + Z.of_nat k) (Z.of_nat n)); lia.
Qed.
Print Assumptions C108_mirror.
(* actuators that move nothing but their own point: the command is the surface wanted *)
Lemma unit_conv n m w c i j : (forall a b, (a < k_r w)%nat -> (b < k_c w)%nat -> k_w w a b = if (a =? k_r w / 2)%nat && (b =? k_c w / 2)%nat then 1 else 0) -> (1 <= k_r w)%nat -> (1 <= k_c w)%nat -> (i < n)%nat -> (j < m)%nat -> conv n m w c i j = c i j.
Proof.
  intros U A B I J. unfold conv. pose proof (Nat.div_lt (k_r w) 2 ltac:(lia) ltac:(lia)). pose proof (Nat.div_lt (k_c w) 2 ltac:(lia) ltac:(lia)).
  rewrite (rsum_single (k_r w) (k_r w / 2)); [|assumption|].
  - rewrite (rsum_single (k_c w) (k_c w / 2)); [|assumption|].
    + rewrite U by assumption. rewrite !Nat.eqb_refl. cbn [andb]. replace (Z.of_nat i - Z.of_nat (k_r w / 2) + Z.of_nat (k_r w / 2))%Z with (Z.of_nat i) by lia. replace (Z.of_nat j - Z.of_nat (k_c w / 2) + Z.of_nat (k_c w / 2))%Z with (Z.of_nat j) by lia.
      rewrite (proj1 (C108_mirror n i I)), (proj1 (C108_mirror m j J)). ring.
    + intros b Hb NE. rewrite U by assumption. rewrite Nat.eqb_refl. destruct (Nat.eqb_spec b (k_c w / 2)); [contradiction|]. cbn [andb]. ring.
  - intros a Ha NE. apply rsum_zero. intros b Hb. rewrite U by assumption. destruct (Nat.eqb_spec a (k_r w / 2)); [contradiction|]. cbn [andb]. ring.
Qed.
Theorem C108_unit fuel n m z w c s : (forall a b, (a < k_r w)%nat -> (b < k_c w)%nat -> k_w w a b = if (a =? k_r w / 2)%nat && (b =? k_c w / 2)%nat then 1 else 0) -> (1 <= k_r w)%nat -> (1 <= k_c w)%nat ->
  prop_fit_dm fuel n m z w = Some (c, s) -> forall i j, (i < n)%nat -> (j < m)%nat -> c i j = z i j /\ s i j = z i j.
Proof.
  intros U A B H i j I J. assert (T : forall k i j, (i < n)%nat -> (j < m)%nat -> trial n m z w k i j = z i j).
  { induction k as [|k IH]; intros a b Ha Hb; [reflexivity|]. cbn [trial]. unfold add2, sub2. rewrite (unit_conv n m w) by assumption. rewrite IH by assumption. ring. }
  apply C108_stops in H. cbv zeta in H. destruct H as [[_ H]|(k & IM & [[H W]|[(H & M & _)|[H M]]])]; injection H as -> ->; rewrite (unit_conv n m w) by assumption.
  - exact (conj (T 0%nat i j I J) (T 0%nat i j I J)).
  - exact (conj (T (S k) i j I J) (T (S k) i j I J)).
  - exact (conj (T (S k) i j I J) (T (S k) i j I J)).
  - exact (conj (T k i j I J) (T (S k) i j I J)).
Qed.
Print Assumptions C108_unit.
(* a case: a kernel of 3 x 3 *)
Theorem C108_unit_example n m z fuel c s : prop_fit_dm fuel n m z (mkker 3 3 (fun a b => if (a =? 1)%nat && (b =? 1)%nat then 1 else 0)) = Some (c, s) -> forall i j, (i < n)%nat -> (j < m)%nat -> c i j = z i j /\ s i j = z i j.
Proof. apply C108_unit; cbn [k_r k_c k_w]; try lia. intros; reflexivity. Qed.
Print Assumptions C108_unit_example.
(* every actuator away from the edges raises the kernel about itself *)
Theorem C108_poke n m w p q a b : (a < k_r w)%nat -> (b < k_c w)%nat -> (k_r w <= p)%nat -> (p + k_r w <= n)%nat -> (k_c w <= q)%nat -> (q + k_c w <= m)%nat ->
  conv n m w (fun i j => if (i =? p)%nat && (j =? q)%nat then 1 else 0) (p + a - k_r w / 2)%nat (q + b - k_c w / 2)%nat = k_w w a b.
Proof.
  intros A B P1 P2 Q1 Q2. pose proof (Nat.div_lt (k_r w) 2 ltac:(lia) ltac:(lia)). pose proof (Nat.div_lt (k_c w) 2 ltac:(lia) ltac:(lia)). unfold conv.
  assert (X : forall h s n p a a', (h < s)%nat -> (s <= p)%nat -> (p + s <= n)%nat -> (a < s)%nat -> (a' < s)%nat -> refl n (Z.of_nat (p + a - h) - Z.of_nat a' + Z.of_nat h) = (p + a - a')%nat).
  { clear. intros h s n p a a' H1 H2 H3 H4 H5. replace (Z.of_nat (p + a - h) - Z.of_nat a' + Z.of_nat h)%Z with (Z.of_nat (p + a - a')) by lia. apply C108_mirror. lia. }
  rewrite (rsum_single (k_r w) a); [|assumption|].
  - rewrite (rsum_single (k_c w) b); [|assumption|].
    + rewrite (X (k_r w / 2)%nat (k_r w)), (X (k_c w / 2)%nat (k_c w)) by assumption. replace (p + a - a)%nat with p by lia. replace (q + b - b)%nat with q by lia. rewrite !Nat.eqb_refl. cbn [andb]. ring.
    + intros b' Hb NE. rewrite (X (k_c w / 2)%nat (k_c w)) by assumption. destruct (Nat.eqb_spec (q + b - b') q); [lia|]. rewrite andb_false_r. ring.
  - intros a' Ha NE. apply rsum_zero. intros b' Hb. rewrite (X (k_r w / 2)%nat (k_r w)) by assumption. destruct (Nat.eqb_spec (p + a - a') p); [lia|]. cbn [andb]. ring.
Qed.
Print Assumptions C108_poke.
