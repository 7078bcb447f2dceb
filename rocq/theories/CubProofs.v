(* Lemmas on cubic convolution *)
From Coq Require Import Permutation.
From Verif Require Import Base RBase CubModel.
Open Scope R_scope.
Definition wt (c : R) (j : nat) : R := ker0 (dist c j) - 1 / 2 * ker1 (dist c j).
Lemma weight_sep fx fy i j : weight fx fy i j = wt fx i * wt fy j. Proof. unfold weight, wt. field. Qed.
Definition inner (d : R) : R := d * d * (2 * d - 3) + 1 - 1 / 2 * (d * d * (d - 1)).
Definition outer (d : R) : R := - (1 / 2) * (d * (d * d - 5 * d + 8) - 4).
Lemma keys_in d : d <= 1 -> ker0 d - 1 / 2 * ker1 d = inner d.
Proof. intros H. unfold ker0, ker1, inner. destruct (Rle_dec d 1); [ring|lra]. Qed.
Lemma keys_out d : 1 <= d <= 2 -> ker0 d - 1 / 2 * ker1 d = outer d.
Proof. intros H. unfold ker0, ker1, outer. destruct (Rle_dec d 1); [assert (d = 1) by lra; subst; field|]. destruct (Rle_dec d 2); [field|lra]. Qed.
Lemma keys_far d : 2 <= d -> ker0 d - 1 / 2 * ker1 d = 0.
Proof. intros H. unfold ker0, ker1. destruct (Rle_dec d 1); [lra|]. destruct (Rle_dec d 2); [assert (d = 2) by lra; subst; field|field]. Qed.
Lemma wt_pos c : 0 <= c <= 1 / 2 -> wt c 0 = outer (2 - c) /\ wt c 1 = inner (1 - c) /\ wt c 2 = inner c /\ wt c 3 = outer (1 + c) /\ wt c 4 = 0.
Proof.
  intros H. unfold wt, dist. cbn [INR].
  replace (Rabs (c + (0 - 2))) with (2 - c) by (rewrite Rabs_left1; lra). replace (Rabs (c + (1 - 2))) with (1 - c) by (rewrite Rabs_left1; lra).
  replace (Rabs (c + (1 + 1 - 2))) with c by (rewrite Rabs_right; lra). replace (Rabs (c + (1 + 1 + 1 - 2))) with (1 + c) by (rewrite Rabs_right; lra). replace (Rabs (c + (1 + 1 + 1 + 1 - 2))) with (2 + c) by (rewrite Rabs_right; lra).
  rewrite (keys_out (2 - c)), (keys_in (1 - c)), (keys_in c), (keys_out (1 + c)), (keys_far (2 + c)) by lra. auto.
Qed.
Lemma wt_neg c : - (1 / 2) <= c <= 0 -> wt c 0 = 0 /\ wt c 1 = outer (1 - c) /\ wt c 2 = inner (- c) /\ wt c 3 = inner (1 + c) /\ wt c 4 = outer (2 + c).
Proof.
  intros H. unfold wt, dist. cbn [INR].
  replace (Rabs (c + (0 - 2))) with (2 - c) by (rewrite Rabs_left1; lra). replace (Rabs (c + (1 - 2))) with (1 - c) by (rewrite Rabs_left1; lra).
  replace (Rabs (c + (1 + 1 - 2))) with (- c) by (rewrite Rabs_left1; lra). replace (Rabs (c + (1 + 1 + 1 - 2))) with (1 + c) by (rewrite Rabs_right; lra). replace (Rabs (c + (1 + 1 + 1 + 1 - 2))) with (2 + c) by (rewrite Rabs_right; lra).
  rewrite (keys_far (2 - c)), (keys_out (1 - c)), (keys_in (- c)), (keys_in (1 + c)), (keys_out (2 + c)) by lra. auto.
Qed.
(* quadratics are reproduced *)
Lemma wt_quadratic c p q0 q1 q2 : Rabs c <= 1 / 2 -> rsum 5 (fun j => wt c j * (q0 + q1 * (p + (INR j - 2)) + q2 * (p + (INR j - 2)) ^ 2)) = q0 + q1 * (p - c) + q2 * (p - c) ^ 2.
Proof.
  intros H. cbn [rsum INR]. destruct (Rle_dec 0 c) as [P|P].
  - rewrite Rabs_right in H by lra. destruct (wt_pos c ltac:(lra)) as (-> & -> & -> & -> & ->). unfold inner, outer. field.
  - rewrite Rabs_left in H by lra. destruct (wt_neg c ltac:(lra)) as (-> & -> & -> & -> & ->). unfold inner, outer. field.
Qed.
Lemma wt_zero j : (j < 5)%nat -> wt 0 j = if Nat.eqb j 2 then 1 else 0.
Proof.
  intros H. destruct (wt_pos 0 ltac:(lra)) as (A & B & C & D & E). destruct j as [|[|[|[|[|j]]]]]; cbn [Nat.eqb]; try lia; rewrite ?A, ?B, ?C, ?D, ?E; unfold inner, outer; try field; lra.
Qed.
Lemma frac_small v : Rabs (frac v) <= 1 / 2.
Proof.
  unfold frac, roundval. destruct (Rlt_dec 0 v) as [P|P].
  - pose proof (Zfloor_lb (v + / 2)). pose proof (Zfloor_ub (v + / 2)). apply Rabs_le. lra.
  - rewrite opp_IZR. pose proof (Zfloor_lb (- v + / 2)). pose proof (Zfloor_ub (- v + / 2)). apply Rabs_le. lra.
Qed.
Lemma round_int z : roundval (IZR z) = z.
Proof.
  unfold roundval. destruct (Rlt_dec 0 (IZR z)); [apply Zfloor_imp; rewrite plus_IZR; lra|].
  rewrite <- opp_IZR. rewrite (Zfloor_imp (- z)); [lia|]. rewrite plus_IZR. lra.
Qed.
Lemma frac_int z : frac (IZR z) = 0. Proof. unfold frac. rewrite round_int. ring. Qed.
Lemma pixel_sum_lin mem1 mem2 a b sx sy fx fy px py : pixel_sum (fun k => a * mem1 k + b * mem2 k) sx sy fx fy px py = a * pixel_sum mem1 sx sy fx fy px py + b * pixel_sum mem2 sx sy fx fy px py.
Proof.
  unfold pixel_sum. cbv zeta. rewrite <- !rsum_scal, <- rsum_plus. apply rsum_ext. intros j _. destruct (_ || _)%bool; [ring|]. rewrite <- !rsum_scal, <- rsum_plus. apply rsum_ext. intros i _. destruct (_ || _)%bool; ring.
Qed.
(* inside, all samples are there *)
Lemma pixel_sum_in mem sx sy fx fy px py : (2 <= px < sx - 2)%Z -> (2 <= py < sy - 2)%Z ->
  pixel_sum mem sx sy fx fy px py = rsum 5 (fun j => wt fy j * rsum 5 (fun i => wt fx i * mem ((py + Z.of_nat j - 2) * sx + (px + Z.of_nat i - 2))%Z)).
Proof.
  intros X Y. unfold pixel_sum. apply rsum_ext. intros j J. cbv zeta. destruct (Z.ltb_spec (py + Z.of_nat j - 2) 0); [lia|]. destruct (Z.leb_spec sy (py + Z.of_nat j - 2)); [lia|]. cbn [orb]. rewrite <- rsum_scal. apply rsum_ext. intros i I.
  destruct (Z.ltb_spec (px + Z.of_nat i - 2) 0); [lia|]. destruct (Z.leb_spec sx (px + Z.of_nat i - 2)); [lia|]. cbn [orb]. rewrite weight_sep. ring.
Qed.
Lemma pix_in size v : (2 <= roundval v < size - 2)%Z -> pix size v = roundval v.
Proof. intros H. unfold pix. cbv zeta. destruct (Z.ltb_spec (roundval v) 2); [lia|]. destruct (Z.ltb_spec (size - 2) (roundval v)); lia. Qed.
(* at a node *)
Lemma pixel_sum_node mem sx sy px py : (2 <= px <= sx - 1)%Z -> (2 <= py <= sy - 1)%Z -> pixel_sum mem sx sy 0 0 px py = mem (py * sx + px)%Z.
Proof.
  intros X Y. unfold pixel_sum. rewrite (rsum_ext 5 _ (fun j => if Nat.eqb j 2 then mem (py * sx + px)%Z else 0)).
  - cbn [rsum Nat.eqb]. ring.
  - intros j J. cbv zeta. destruct (Nat.eqb_spec j 2) as [->|N].
    + destruct (Z.ltb_spec (py + Z.of_nat 2 - 2) 0); [lia|]. destruct (Z.leb_spec sy (py + Z.of_nat 2 - 2)); [lia|]. cbn [orb].
      rewrite (rsum_ext 5 _ (fun i => if Nat.eqb i 2 then mem (py * sx + px)%Z else 0)); [cbn [rsum Nat.eqb]; ring|].
      intros i I. destruct (Nat.eqb_spec i 2) as [->|M].
      * destruct (Z.ltb_spec (px + Z.of_nat 2 - 2) 0); [lia|]. destruct (Z.leb_spec sx (px + Z.of_nat 2 - 2)); [lia|]. cbn [orb]. rewrite weight_sep, wt_zero by lia. cbn [Nat.eqb]. replace (py + Z.of_nat 2 - 2)%Z with py by lia. replace (px + Z.of_nat 2 - 2)%Z with px by lia. ring.
      * destruct (_ || _)%bool; auto. rewrite weight_sep, wt_zero by auto. destruct (Nat.eqb_spec i 2); [contradiction|ring].
    + destruct (_ || _)%bool; auto. apply rsum_zero. intros i I. destruct (_ || _)%bool; auto. rewrite weight_sep, (wt_zero j) by auto. destruct (Nat.eqb_spec j 2); [contradiction|ring].
Qed.
(* ---- threads ---- *)
Lemma dy_cover soy nt : (0 < nt)%nat -> (soy <= thread_dy soy nt * nt)%nat.
Proof. intros N. unfold thread_dy. destruct (Nat.eqb_spec (soy / nt * nt) soy); [lia|]. pose proof (Nat.div_mod soy nt ltac:(lia)). pose proof (Nat.mod_upper_bound soy nt ltac:(lia)). nia. Qed.
Lemma rows_in soy nt t r : In r (thread_rows soy nt t) <-> (t * thread_dy soy nt <= r < (t + 1) * thread_dy soy nt /\ r < soy)%nat.
Proof. unfold thread_rows. rewrite in_seq. lia. Qed.
Lemma rows_perm soy nt : (0 < nt)%nat -> Permutation (flat_map (thread_rows soy nt) (seq 0 nt)) (seq 0 soy).
Proof.
  intros N. pose proof (dy_cover soy nt N) as C. set (dy := thread_dy soy nt) in *.
  assert (G : forall m, flat_map (thread_rows soy nt) (seq 0 m) = seq 0 (Nat.min (m * dy) soy)).
  { induction m as [|m IH]; [reflexivity|]. rewrite seq_S, flat_map_app, IH. cbn [flat_map plus]. rewrite app_nil_r. unfold thread_rows. fold dy. cbv zeta.
    destruct (le_lt_dec soy (m * dy)) as [L|L].
    - replace (Nat.min ((m + 1) * dy) soy - m * dy)%nat with 0%nat by lia. cbn [seq]. rewrite app_nil_r. f_equal. lia.
    - replace (Nat.min (m * dy) soy) with (m * dy)%nat by lia. rewrite <- seq_app. f_equal. lia. }
  rewrite G. replace (Nat.min (nt * dy) soy) with soy by lia. apply Permutation_refl.
Qed.
Lemma flat_map_perm {A B} (f : A -> list B) l1 l2 : Permutation l1 l2 -> Permutation (flat_map f l1) (flat_map f l2).
Proof. induction 1; cbn; auto; [now apply Permutation_app_head|rewrite !app_assoc; apply Permutation_app_tail, Permutation_app_comm|eapply Permutation_trans; eauto]. Qed.
Lemma flat_map_flat_map {A B C} (f : A -> list B) (g : B -> list C) l : flat_map g (flat_map f l) = flat_map (fun a => flat_map g (f a)) l.
Proof. induction l; cbn; auto. now rewrite flat_map_app, IHl. Qed.
(* a write list with distinct places, each with its value *)
Lemma apply_distinct ws : NoDup (map fst ws) -> forall o k v, In (k, v) ws -> apply_writes o ws k = v.
Proof.
  induction ws as [|(q, u) ws IH]; intros D o k v I; [destruct I|]. cbn [map fst] in D. inversion D as [|? ? NI D']; subst. unfold apply_writes. cbn [fold_left]. destruct I as [E|I].
  - injection E as -> ->. assert (G : forall ws o, ~ In k (map fst ws) -> apply_writes o ws k = o k).
    { clear. induction ws as [|(q, u) ws IH]; intros o N; auto. unfold apply_writes. cbn [fold_left fst snd]. fold (apply_writes (fun z => if Nat.eqb z q then u else o z) ws). rewrite IH by (intros X; apply N; right; auto). destruct (Nat.eqb_spec k q) as [->|]; auto. exfalso. apply N. left. auto. }
    fold (apply_writes (fun z => if Nat.eqb z (fst (k, v)) then snd (k, v) else o z) ws). rewrite G by auto. cbn [fst snd]. now rewrite Nat.eqb_refl.
  - fold (apply_writes (fun z => if Nat.eqb z (fst (q, u)) then snd (q, u) else o z) ws). now apply IH.
Qed.
Lemma apply_outside ws : forall o k, ~ In k (map fst ws) -> apply_writes o ws k = o k.
Proof.
  induction ws as [|(q, u) ws IH]; intros o k N; auto. unfold apply_writes. cbn [fold_left fst snd]. fold (apply_writes (fun z => if Nat.eqb z q then u else o z) ws). rewrite IH by (intros X; apply N; right; auto). destruct (Nat.eqb_spec k q) as [->|]; auto. exfalso. apply N. left. auto.
Qed.
Lemma grid_writes {B} (f : nat -> nat -> B) sox soy : NoDup (map fst (flat_map (fun yo => map (fun xo => ((yo * sox + xo)%nat, f yo xo)) (seq 0 sox)) (seq 0 soy))) /\
  forall k v, In (k, v) (flat_map (fun yo => map (fun xo => ((yo * sox + xo)%nat, f yo xo)) (seq 0 sox)) (seq 0 soy)) <-> (k < soy * sox)%nat /\ v = f (k / sox)%nat (k mod sox)%nat.
Proof.
  set (L := flat_map _ _). assert (E : forall k v, In (k, v) L <-> (k < soy * sox)%nat /\ v = f (k / sox)%nat (k mod sox)%nat).
  { intros k v. unfold L. rewrite in_flat_map. split.
    - intros (yo & Iy & Ix). apply in_map_iff in Ix. destruct Ix as (xo & Ex & Ix). injection Ex as <- <-. apply in_seq in Iy, Ix. split; [nia|]. f_equal; [apply Nat.div_unique with xo; lia|apply Nat.mod_unique with yo; lia].
    - intros (K & ->). assert (sox <> 0)%nat by (intros ->; rewrite Nat.mul_0_r in K; lia). exists (k / sox)%nat. split; [apply in_seq; split; [apply Nat.le_0_l|]; rewrite Nat.add_0_l; apply Nat.div_lt_upper_bound; lia|]. apply in_map_iff. exists (k mod sox)%nat. split; [f_equal; rewrite (Nat.mul_comm (k / sox)); symmetry; now apply Nat.div_mod|]. apply in_seq. split; [lia|]. cbn. now apply Nat.mod_upper_bound. }
  split; auto. unfold L. clear. assert (G : forall s n, map fst (flat_map (fun yo => map (fun xo => ((yo * sox + xo)%nat, f yo xo)) (seq 0 sox)) (seq s n)) = seq (s * sox) (n * sox)).
  { intros s n. revert s. induction n as [|n IH]; intros s; [reflexivity|]. cbn [seq flat_map]. rewrite map_app, IH, map_map. cbn [fst]. replace (S n * sox)%nat with (sox + n * sox)%nat by lia. rewrite seq_app. f_equal; [|f_equal; lia].
    clear. assert (H : forall m a, map (fun x => (s * sox + x)%nat) (seq a m) = seq (s * sox + a) m) by (induction m as [|m IHm]; intros a; cbn [seq map]; auto; rewrite IHm; f_equal; f_equal; lia). rewrite H. f_equal. lia. }
  rewrite G. apply seq_NoDup.
Qed.
(* every schedule gives the same array *)
Lemma schedule_result mem sx sy x y sox soy nt ws : (0 < nt)%nat -> schedule mem sx sy x y sox soy nt ws -> forall o k,
  apply_writes o ws k = if Nat.ltb k (soy * sox) then thread_px mem sx sy x y sox (k / sox) (k mod sox) else o k.
Proof.
  intros N S o k. set (f := thread_px mem sx sy x y sox). set (row := fun yo => map (fun xo => ((yo * sox + xo)%nat, f yo xo)) (seq 0 sox)).
  assert (P : Permutation ws (flat_map row (seq 0 soy))).
  { eapply Permutation_trans; [exact S|]. change (flat_map (thread_writes mem sx sy x y sox soy nt) (seq 0 nt)) with (flat_map (fun t => flat_map row (thread_rows soy nt t)) (seq 0 nt)). rewrite <- flat_map_flat_map. apply flat_map_perm. now apply rows_perm. }
  destruct (grid_writes f sox soy) as (D & E). fold row in D, E. assert (D' : NoDup (map fst ws)) by (eapply Permutation_NoDup; [apply Permutation_map, Permutation_sym; exact P|exact D]).
  destruct (Nat.ltb_spec k (soy * sox)) as [K|K].
  - apply apply_distinct; auto. eapply Permutation_in; [apply Permutation_sym; exact P|]. apply E. auto.
  - apply apply_outside. intros I. apply in_map_iff in I. destruct I as ((q & v) & Q & I). cbn in Q. subst q. apply (Permutation_in _ P) in I. apply E in I. lia.
Qed.
