From Verif Require Import Base RBase PoolModel PoolSpec PoolProofs JacModel SpectModel SpectSpec SpectProofs ModalProofs EfcSpec ImgModel ImgSpec.
Open Scope R_scope.

Lemma acc_sum_eq l : acc_sum l = rsuml l.
Proof.
  unfold acc_sum. assert (H : forall a, fold_left Rplus l a = a + rsuml l).
  { induction l as [|x l IH]; intros a; cbn; [ring|]. rewrite IH; ring. }
  rewrite H; ring.
Qed.
Section Gen.
  Context {X : Type}.
  Variables (P F : X -> Z) (hlc : bool).
  Definition gcode (x : X) : code := Wr 0 (P x) :: full_code hlc (F x).
  Definition good (m : mem) (x : X) : list Z := [P x; if hlc then F x else m 1%nat].
  Lemma gcode_run m x : snd (run_code m (gcode x)) = good m x /\ (hlc = false -> fst (run_code m (gcode x)) 1%nat = m 1%nat).
  Proof. unfold gcode, full_code, good. destruct hlc; cbn; split; auto; discriminate. Qed.
  Lemma serial_good m l : serial_reads m (map gcode l) = map (good m) l.
  Proof.
    revert m; induction l as [|x l IH]; intros m; [reflexivity|]. cbn [map serial_reads].
    destruct (gcode_run m x) as [A B]. destruct (run_code m (gcode x)) as [m' r]; cbn in A, B. rewrite A, IH. f_equal.
    apply map_ext. intros y. unfold good. destruct hlc; [reflexivity|]. now rewrite B.
  Qed.
  Lemma gcode_ne l c : In c (map gcode l) -> c <> [].
  Proof. intros H. apply in_map_iff in H. destruct H as (x & <- & _). discriminate. Qed.
  Lemma gcode_free l : all_equal (map P l) -> (hlc = true -> all_equal (map F l)) -> no_interference (map gcode l).
  Proof.
    intros HP HF r. unfold never_written, only_writes.
    destruct r as [|[|r]].
    - destruct l as [|x0 l]; [left; intros c x []|]. right. split.
      + exists (P x0). intros c x Hc Hi. apply in_map_iff in Hc. destruct Hc as (y & <- & Hy).
        unfold gcode, full_code in Hi. assert (x = P y) as ->.
        { destruct hlc; cbn in Hi; repeat (destruct Hi as [Hi|Hi]; [try discriminate; congruence|]); destruct Hi. }
        apply HP; apply in_map; auto. now left.
      + intros c Hc. apply in_map_iff in Hc. destruct Hc as (y & <- & Hy). cbn. now left.
    - destruct hlc eqn:Eh.
      + destruct l as [|x0 l]; [left; intros c x []|]. right. split.
        * exists (F x0). intros c x Hc Hi. apply in_map_iff in Hc. destruct Hc as (y & <- & Hy).
          unfold gcode, full_code in Hi. rewrite Eh in Hi. cbn in Hi.
          assert (x = F y) as -> by (repeat (destruct Hi as [Hi|Hi]; [try discriminate; congruence|]); destruct Hi).
          apply (HF eq_refl); apply in_map; auto. now left.
        * intros c Hc. apply in_map_iff in Hc. destruct Hc as (y & <- & Hy). unfold gcode, full_code. rewrite Eh. cbn. right; now left.
      + left. intros c x Hc Hi. apply in_map_iff in Hc. destruct Hc as (y & <- & Hy). unfold gcode, full_code in Hi. rewrite Eh in Hi.
        cbn in Hi. repeat (destruct Hi as [Hi|Hi]; [discriminate|]); destruct Hi.
    - left. intros c x Hc Hi. apply in_map_iff in Hc. destruct Hc as (y & <- & Hy). unfold gcode, full_code in Hi.
      destruct hlc; cbn in Hi; repeat (destruct Hi as [Hi|Hi]; [discriminate|]); destruct Hi.
  Qed.
  Lemma gcode_schedule T m l sched r : ((all_equal (map P l) /\ (hlc = true -> all_equal (map F l))) \/ T = 1%nat) ->
    pool_reads T m (map gcode l) sched = Some r -> r = map (good m) l.
  Proof.
    intros [[HP HF]| ->] H; rewrite <- serial_good.
    - eapply free_serial; [|exact H]. now apply gcode_free.
    - eapply one_worker; [|exact H]. apply gcode_ne.
  Qed.
  Lemma gcode_pol_race T m a x y b : (2 <= T)%nat -> exists sched l tail,
    pool_reads T m (map gcode (a ++ x :: y :: b)) sched = Some (l ++ [P y; if hlc then F x else m 1%nat] :: tail) /\ length l = length a.
  Proof.
    intros HT. destruct (race T m (map gcode a) [Wr 0 (P x)] (full_code hlc (F x)) [Wr 0 (P y)] (full_code hlc (F y)) (map gcode b))
      as (s & l & t & E & L); auto; try discriminate; try apply gcode_ne.
    exists s, l, t. rewrite map_length in L. split; [|auto]. rewrite map_app. cbn [map]. unfold gcode at 2 3.
    cbn [app] in E. etransitivity; [exact E|]. do 2 f_equal.
    f_equal. cbn [run_code fst snd app]. unfold full_code. destruct hlc eqn:Eh; cbn; [reflexivity|]. unfold put; cbn.
    repeat f_equal. clear -Eh. revert m; induction a as [|z a IH]; intros m; [reflexivity|]. cbn [map serial_mem]. rewrite IH.
    apply (proj2 (gcode_run m z) Eh).
  Qed.
  Lemma gcode_mask_race T m a x y b : (2 <= T)%nat -> hlc = true -> exists sched l tail,
    pool_reads T m (map gcode (a ++ x :: y :: b)) sched = Some (l ++ [P y; F y] :: tail) /\ length l = length a.
  Proof.
    intros HT Eh. destruct (race T m (map gcode a) [Wr 0 (P x); Wr 1 (F x)] [Rd 0; Rd 1] [Wr 0 (P y); Wr 1 (F y)] [Rd 0; Rd 1] (map gcode b))
      as (s & l & t & E & L); auto; try discriminate; try apply gcode_ne.
    exists s, l, t. rewrite map_length in L. split; [|auto]. rewrite map_app. cbn [map]. unfold gcode at 2 3. unfold full_code. rewrite Eh.
    exact E.
  Qed.
End Gen.

Lemma comp_is_gcode pols hlc fpm si x :
  comp_code pols hlc fpm si x = gcode (fun '(_, ipol, _) => pol pols ipol) (fun '(wi, _, _) => fpm si wi) hlc x.
Proof. destruct x as [[wi ip] s]. reflexivity. Qed.
Lemma combine_map {A B} (f : A -> B) l : combine l (map f l) = map (fun x => (x, f x)) l.
Proof. induction l as [|x l IH]; cbn; [reflexivity|]. now rewrite IH. Qed.

Lemma rsuml_list_prod {A B} (f : A * B -> R) a b : rsuml (map f (list_prod a b)) = rsuml (map (fun x => rsuml (map (fun y => f (x, y)) b)) a).
Proof.
  induction a as [|x a IH]; cbn; [reflexivity|]. rewrite map_app, rsuml_app, IH, map_map. reflexivity.
Qed.
Lemma rsuml_nth {A} (f : A -> R) d l : rsum (length l) (fun k => f (nth k l d)) = rsuml (map f l).
Proof.
  induction l as [|x l IH]; [reflexivity|]. cbn [length map rsuml]. replace (S (length l)) with (1 + length l)%nat by lia.
  rewrite rsum_app. cbn [rsum]. rewrite <- IH. cbn [nth]. ring_simplify. f_equal.
Qed.
Lemma rsuml_map_scal {A} k (f : A -> R) l : rsuml (map (fun x => k * f x) l) = k * rsuml (map f l).
Proof. induction l as [|x l IH]; cbn; [ring|]. rewrite IH; ring. Qed.

Lemma subband_total_good Nw stars pols lamw hlc fpm inten fN noise m si :
  subband_total Nw stars pols lamw inten fN noise si
     (map (good (fun '(_, ipol, _) => pol pols ipol) (fun '(wi, _, _) => fpm si wi) hlc m) (inds_list Nw stars pols)) =
  let I := subband_sum Nw stars pols lamw inten (fun s w => if hlc then fpm s w else m 1%nat) si in
  if fN : bool then noise si I else I.
Proof.
  unfold subband_total. rewrite combine_map, map_map, acc_sum_eq.
  assert (E : rsuml (map (fun x => comp_value pols lamw inten si x
      (good (fun '(_, ipol, _) => pol pols ipol) (fun '(wi, _, _) => fpm si wi) hlc m x)) (inds_list Nw stars pols)) =
    subband_sum Nw stars pols lamw inten (fun s w => if hlc then fpm s w else m 1%nat) si).
  { unfold inds_list. rewrite rsuml_list_prod, rsuml_list_prod, rsuml_map_seq. unfold subband_sum. apply rsum_ext. intros wi _.
    rewrite rsuml_map_seq. 
    rewrite (rsum_ext _ _ (fun ip => rsum stars (fun s => lamw wi / INR (length pols) * inten si wi s (pol pols ip) (if hlc then fpm si wi else m 1%nat)))).
    2:{ intros ip _. rewrite rsuml_map_seq. apply rsum_ext. intros s _. cbn. reflexivity. }
    rewrite rsum_swap, <- rsum_scal. apply rsum_ext. intros s _. rewrite rsum_scal. unfold pol, Npol.
    rewrite (rsuml_nth (fun p => inten si wi s p (if hlc then fpm si wi else m 1%nat))). unfold Rdiv. ring. }
  rewrite E. reflexivity.
Qed.
Lemma sbp_serial Nw stars pols lamw hlc fpm inten fN noise m si :
  sbp_image_serial Nw stars pols lamw hlc fpm inten fN noise m si =
  let I := subband_sum Nw stars pols lamw inten (fun s w => if hlc then fpm s w else m 1%nat) si in
  if fN : bool then noise si I else I.
Proof.
  unfold sbp_image_serial, sbp_jobs. rewrite (map_ext _ _ (comp_is_gcode pols hlc fpm si)), serial_good. apply subband_total_good.
Qed.
Lemma final_mem_field1 pols fpm si l m :
  final_mem m (map (comp_code pols false fpm si) l) 1%nat = m 1%nat.
Proof.
  revert m; induction l as [|x l IH]; intros m; [reflexivity|]. cbn [map final_mem]. rewrite IH, comp_is_gcode.
  now apply (proj2 (gcode_run (fun '(_, ipol, _) => pol pols ipol) (fun '(wi, _, _) => fpm si wi) false m x)).
Qed.
Lemma summed_loop_eq Nw stars pols sbpw lamw hlc fpm inten fN noise sis m :
  summed_loop Nw stars pols sbpw lamw hlc fpm inten fN noise m sis =
  map (fun si => sbpw si * let I := subband_sum Nw stars pols lamw inten (fun s w => if hlc then fpm s w else m 1%nat) si in
                           if fN : bool then noise si I else I) sis.
Proof.
  revert m; induction sis as [|si t IH]; intros m; [reflexivity|]. cbn [summed_loop map]. rewrite sbp_serial, IH. f_equal.
  apply map_ext. intros s. destruct hlc; [reflexivity|]. unfold sbp_jobs. now rewrite final_mem_field1.
Qed.

Lemma uniq_is_gcode Nw hlc fpm uniq x :
  uniq_code Nw hlc fpm uniq x = gcode (fun '(_, p) => p) (fun '(il, _) => fpm (fst (rep Nw uniq il)) (snd (rep Nw uniq il))) hlc x.
Proof. destruct x. reflexivity. Qed.

(* (sub-band, wavelength) of flat index k *)
Lemma block_sum Nsbp Nw f : (1 <= Nw)%nat -> rsum Nsbp (fun si => rsum Nw (fun wi => f si wi)) = rsum (Nsbp * Nw) (fun k => f (k / Nw)%nat (k mod Nw)%nat).
Proof.
  intros H. rewrite rsum_mul_blocks. apply rsum_ext. intros i _. apply rsum_ext. intros j Hj.
  rewrite Nat.div_add_l, Nat.div_small, Nat.add_0_r by lia. rewrite Nat.add_comm, Nat.mod_add, Nat.mod_small by lia. reflexivity.
Qed.
(* grouping a sum by wavelength key *)
Lemma regroup n lam w g : separated n lam ->
  (forall k j, (k < n)%nat -> (j < n)%nat -> pm_key (lam k) = pm_key (lam j) -> g k = g j) ->
  rsum (length (inds_unique n lam)) (fun i => nth i (merged_weights n lam w) 0 * g (nth i (inds_unique n lam) 0%nat)) =
  rsum n (fun k => w k * g k).
Proof.
  intros HS HG. set (u := inds_unique n lam).
  assert (Hu : forall j, In j u -> (j < n)%nat).
  { intros j Hj. apply (unique_in n (fun k => pm_key (lam k))) in Hj. tauto. }
  rewrite (rsum_ext _ _ (fun i => rsum n (fun k => if (pm_key (lam k) =? pm_key (lam (nth i u 0%nat)))%Z then w k * g k else 0))).
  2:{ intros i Hi. assert (Hn : nth_error u i = Some (nth i u 0%nat)) by (now apply nth_error_nth').
      rewrite (nth_error_nth _ _ _ (merged_entry n lam w HS i _ Hn)). rewrite Rmult_comm, <- rsum_scal. apply rsum_ext. intros k Hk.
      destruct (Z.eqb_spec (pm_key (lam k)) (pm_key (lam (nth i u 0%nat)))) as [E|]; [|ring].
      rewrite (HG k (nth i u 0%nat)); [ring|auto| |auto]. apply Hu. now apply nth_In. }
  rewrite rsum_swap. apply rsum_ext. intros k Hk.
  destruct (unique_rep n (fun k => pm_key (lam k)) k Hk) as (j & Hj & E).
  destruct (In_nth _ _ 0%nat Hj) as (i & Hi & Ei). change (i < length u)%nat in Hi. change (nth i u 0%nat = j) in Ei.
  rewrite (rsum_single _ i); [|auto|].
  - rewrite Ei. cbn in E. rewrite E, Z.eqb_refl. reflexivity.
  - intros i' Hi' N. destruct (Z.eqb_spec (pm_key (lam k)) (pm_key (lam (nth i' u 0%nat)))) as [E2|]; [|reflexivity].
    exfalso. apply N. 
    assert (nth i' u 0%nat = j). { apply (unique_key_inj n (fun k => pm_key (lam k))); auto; [now apply nth_In|cbn in *; congruence]. }
    apply (NoDup_nth u 0%nat); auto; [|congruence]. apply (unique_nodup n (fun k => pm_key (lam k))).
Qed.

Lemma same_set_spec a b : same_set a b = true <-> set_eq a b.
Proof.
  unfold same_set, set_eq. rewrite andb_true_iff, !forallb_forall. split.
  - intros [H1 H2] x. split; intros Hx.
    + apply H1 in Hx. apply existsb_exists in Hx. destruct Hx as (y & Hy & E). apply Z.eqb_eq in E. now subst.
    + apply H2 in Hx. apply existsb_exists in Hx. destruct Hx as (y & Hy & E). apply Z.eqb_eq in E. now subst.
  - intros H. split; intros x Hx; apply existsb_exists; exists x; rewrite Z.eqb_refl; split; auto; now apply H.
Qed.

(* tasks that only call model.full *)
Section HGen.
  Context {X : Type}.
  Variables (F : X -> Z) (hlc : bool).
  Definition hcode (x : X) : code := full_code hlc (F x).
  Definition hgood (m : mem) (x : X) : list Z := [m 0%nat; if hlc then F x else m 1%nat].
  Lemma hserial m l : serial_reads m (map hcode l) = map (hgood m) l.
  Proof.
    revert m; induction l as [|x l IH]; intros m; [reflexivity|]. cbn [map serial_reads].
    unfold hcode at 1, full_code. unfold hgood at 1. destruct hlc eqn:Eh; cbn; rewrite IH; [|reflexivity].
    f_equal. apply map_ext. intros y. unfold hgood. rewrite Eh. reflexivity.
  Qed.
  Lemma hcode_schedule T m l sched r : hlc = false \/ T = 1%nat ->
    pool_reads T m (map hcode l) sched = Some r -> r = map (hgood m) l.
  Proof.
    intros [Eh| ->] H; rewrite <- hserial.
    - eapply free_serial; [|exact H]. intros k. left. intros c x Hc Hi. apply in_map_iff in Hc. destruct Hc as (y & <- & _).
      unfold hcode, full_code in Hi. rewrite Eh in Hi. cbn in Hi. repeat (destruct Hi as [Hi|Hi]; [discriminate|]). destruct Hi.
    - eapply one_worker; [|exact H]. intros c Hc. apply in_map_iff in Hc. destruct Hc as (y & <- & _). unfold hcode, full_code.
      destruct hlc; discriminate.
  Qed.
End HGen.

Lemma csum_eq l : csum l = (rsuml (map fst l), rsuml (map snd l)).
Proof.
  unfold csum. assert (H : forall a, fold_left cadd l a = (fst a + rsuml (map fst l), snd a + rsuml (map snd l))).
  { induction l as [|x l IH]; intros [a b]; cbn; [f_equal; ring|]. rewrite IH. cbn. f_equal; ring. }
  rewrite H. cbn. f_equal; ring.
Qed.
Lemma nth_error_list_prod {A B} (a : list A) (b : list B) i j x y : nth_error a i = Some x -> nth_error b j = Some y ->
  nth_error (list_prod a b) (i * length b + j) = Some (x, y).
Proof.
  revert i; induction a as [|x0 a IH]; intros [|i] Hi Hj; try discriminate; cbn [list_prod].
  - cbn in Hi. injection Hi as ->. cbn. assert (j < length b)%nat by (apply nth_error_Some; congruence).
    rewrite nth_error_app1 by (now rewrite map_length). rewrite nth_error_map, Hj. reflexivity.
  - cbn in Hi. replace (S i * length b + j)%nat with (length (map (fun y => (x0, y)) b) + (i * length b + j))%nat by (rewrite map_length; lia).
    rewrite nth_error_app2 by lia. rewrite Nat.add_sub_swap, Nat.sub_diag by lia. cbn. now apply IH.
Qed.
Lemma nth_error_seq0 n k : (k < n)%nat -> nth_error (seq 0 n) k = Some k.
Proof. intros H. rewrite nth_error_nth' with (d := 0%nat); [now rewrite seq_nth|now rewrite seq_length]. Qed.

Definition perf_good Nmode Nw (hlc : bool) (fpm : nat -> nat -> Z) (sbp_ind : nat -> nat) (m : mem) : list (list Z) :=
  map (hgood (fun '(im, wi) => fpm (sbp_ind im) wi) hlc m) (perf_inds Nmode Nw).
Lemma perf_jobs_eq Nmode Nw hlc fpm sbp_ind :
  perf_jobs Nmode Nw hlc fpm sbp_ind = map (hcode (fun '(im, wi) => fpm (sbp_ind im) wi) hlc) (perf_inds Nmode Nw).
Proof. unfold perf_jobs. apply map_ext. now intros []. Qed.
Lemma perf_serial_reads Nmode Nw hlc fpm sbp_ind m :
  serial_reads m (perf_jobs Nmode Nw hlc fpm sbp_ind) = perf_good Nmode Nw hlc fpm sbp_ind m.
Proof. rewrite perf_jobs_eq. apply hserial. Qed.
Lemma perf_schedule Nmode Nw hlc fpm sbp_ind T m sched r : hlc = false \/ T = 1%nat ->
  pool_reads T m (perf_jobs Nmode Nw hlc fpm sbp_ind) sched = Some r -> r = serial_reads m (perf_jobs Nmode Nw hlc fpm sbp_ind).
Proof. rewrite perf_serial_reads, perf_jobs_eq. apply hcode_schedule. Qed.
Lemma perf_table_value Nmode Nw hlc fpm sbp_ind Efull m im wi : (im < Nmode)%nat -> (wi < Nw)%nat ->
  perf_table Nw Efull (perf_good Nmode Nw hlc fpm sbp_ind m) im wi = Efull im wi (m 0%nat) (if hlc then fpm (sbp_ind im) wi else m 1%nat).
Proof.
  intros Hi Hw. unfold perf_table, perf_good.
  assert (E : nth_error (perf_inds Nmode Nw) (im * Nw + wi) = Some (im, wi)).
  { pose proof (nth_error_list_prod (seq 0 Nmode) (seq 0 Nw) im wi im wi) as Q. rewrite seq_length in Q. apply Q; now apply nth_error_seq0. }
  erewrite nth_error_nth; [|rewrite nth_error_map, E; reflexivity]. reflexivity.
Qed.
Lemma perf_mean Nmode Nw lamw hlc fpm sbp_ind Efull m im : (im < Nmode)%nat ->
  band_mean Nw lamw (perf_table Nw Efull (perf_good Nmode Nw hlc fpm sbp_ind m)) im =
  (rsum Nw (fun wi => lamw wi * fst (Efull im wi (m 0%nat) (if hlc then fpm (sbp_ind im) wi else m 1%nat))),
   rsum Nw (fun wi => lamw wi * snd (Efull im wi (m 0%nat) (if hlc then fpm (sbp_ind im) wi else m 1%nat)))).
Proof.
  intros Hi. unfold band_mean. rewrite csum_eq, !map_map, !rsuml_map_seq. f_equal; apply rsum_ext; intros wi Hw; now rewrite (perf_table_value Nmode).
Qed.
Lemma img_same Nmode Nw lamw sbp_ind zern_ind tab s :
  (forall i j, (i < Nmode)%nat -> (j < Nmode)%nat -> zern_ind i = 1%Z -> zern_ind j = 1%Z -> sbp_ind i = sbp_ind j -> i = j) ->
  img_parallel Nmode Nw lamw sbp_ind zern_ind tab s = img_serial Nmode Nw lamw sbp_ind zern_ind tab s.
Proof.
  unfold img_parallel, img_serial. induction Nmode as [|n IH]; intros HU; [reflexivity|].
  rewrite seq_S, !fold_left_app. cbn [fold_left plus Nat.add]. destruct (piston zern_ind n) eqn:Ez; [apply Z.eqb_eq in Ez|apply IH; intros; apply HU; auto; lia].
  destruct (Nat.eqb_spec s (sbp_ind n)) as [->|]; [|apply IH; intros; apply HU; auto; lia].
  match goal with |- ?a + _ = _ => replace a with 0; [ring|] end. symmetry.
  assert (HZ : forall k, (k <= n)%nat -> fold_left (fun a im => if piston zern_ind im then fun s0 => if Nat.eqb s0 (sbp_ind im) then a s0 + sqmod (band_mean Nw lamw tab im) else a s0 else a)
     (seq 0 k) (fun _ => 0) (sbp_ind n) = 0).
  { induction k as [|k IHk]; intros Hk; [reflexivity|]. rewrite seq_S, fold_left_app. cbn [fold_left Nat.add].
    destruct (piston zern_ind k) eqn:Ek; [apply Z.eqb_eq in Ek|apply IHk; lia].
    destruct (Nat.eqb_spec (sbp_ind n) (sbp_ind k)) as [Es|]; [|apply IHk; lia].
    specialize (HU n k ltac:(lia) ltac:(lia) Ez Ek Es). lia. }
  apply (HZ n). lia.
Qed.

Lemma norm_fold_other peak l a si wi : ~ In (si, wi) (map fst l) -> fold_left (norm_set peak) l a si wi = a si wi.
Proof.
  revert a; induction l as [|[[s w] r] l IH]; intros a H; [reflexivity|]. cbn [fold_left]. rewrite IH by (intros Q; apply H; now right).
  cbn. destruct (Nat.eqb_spec si s) as [->|], (Nat.eqb_spec wi w) as [->|]; cbn; try reflexivity. exfalso. apply H. now left.
Qed.
Lemma norm_fold_value peak l a si wi r : NoDup (map fst l) -> In ((si, wi), r) l ->
  fold_left (norm_set peak) l a si wi = with_reads 0 (peak si wi) r.
Proof.
  revert a; induction l as [|[[s w] q] l IH]; intros a HN HI; [destruct HI|]. cbn [map fst] in HN. inversion HN; subst. cbn [fold_left].
  destruct HI as [E|HI]; [|now apply IH]. injection E as -> -> ->. rewrite norm_fold_other by auto. cbn. now rewrite !Nat.eqb_refl.
Qed.
Lemma norm_serial_value Nsbp Nw hlc fpm peak m si wi : (si < Nsbp)%nat -> (wi < Nw)%nat ->
  norm_serial Nsbp Nw hlc fpm peak m si wi = peak si wi (m 0%nat) (if hlc then fpm si wi else m 1%nat).
Proof.
  intros Hs Hw. unfold norm_serial, norm_jobs. rewrite (map_ext _ (hcode (fun '(si, wi) => fpm si wi) hlc)) by (now intros []).
  rewrite hserial. unfold norm_from. rewrite combine_map.
  rewrite (norm_fold_value _ _ _ si wi (hgood (fun '(si, wi) => fpm si wi) hlc m (si, wi))).
  - reflexivity.
  - rewrite map_map. cbn. rewrite map_id. unfold norm_inds.
    assert (HP : forall (a b : list nat), NoDup a -> NoDup b -> NoDup (list_prod a b)).
    { intros a b Ha Hb. induction Ha as [|x a Hx Ha IH]; cbn; [constructor|]. apply NoDup_app_intro; auto.
      - apply FinFun.Injective_map_NoDup; auto. intros u v E. congruence.
      - intros [u v] H1 H2. apply in_map_iff in H1. destruct H1 as (y & E & _). injection E as <- <-. apply in_prod_iff in H2. tauto. }
    apply HP; apply seq_NoDup.
  - apply in_map_iff. exists (si, wi). split; [reflexivity|]. unfold norm_inds. apply in_prod_iff. rewrite !in_seq. lia.
Qed.
