From Verif Require Import Base RBase CtrlModel CtrlProofs DmModel DmSpec.
Open Scope Z_scope.

Lemma nth_nth_error {X} (l : list X) i d : (i < length l)%nat -> nth_error l i = Some (nth i l d).
Proof. apply nth_error_nth'. Qed.

Lemma set_each_ok {X} idx (x : X) : forall a, Forall (idx_ok (length a)) idx ->
  exists w, set_each a idx x = Ok w /\ length w = length a /\
    forall i, (i < length a)%nat -> nth_error w i = if in_dec Z.eq_dec (Z.of_nat i) idx then Some x else nth_error a i.
Proof.
  induction idx as [|k idx IH]; intros a H.
  - exists a. repeat split; auto.
  - apply Forall_cons_iff in H. destruct H as [Hk H]. unfold idx_ok in Hk.
    cbn [set_each]. rewrite np_index_ok by auto. cbn [rbind].
    destruct (IH (upd_nth (Z.to_nat k) x a)) as (w & E & L & N); [now rewrite upd_nth_length|].
    rewrite upd_nth_length in *. exists w. repeat split; auto.
    intros i Hi. rewrite N by auto. destruct (in_dec Z.eq_dec (Z.of_nat i) idx) as [Hin|Hin].
    + destruct (in_dec Z.eq_dec (Z.of_nat i) (k :: idx)) as [|Hn]; auto. exfalso; apply Hn; now right.
    + destruct (in_dec Z.eq_dec (Z.of_nat i) (k :: idx)) as [[Hin'|Hin']|Hn]; try tauto.
      * subst k. rewrite Nat2Z.id. now rewrite nth_error_upd_same.
      * rewrite nth_error_upd_other; auto. intros ->. apply Hn. left. lia.
Qed.

Lemma nonzero_from_spec {X} (f : X -> bool) l : forall k j,
  In j (nonzero_from f k l) <-> exists i x, j = k + Z.of_nat i /\ nth_error l i = Some x /\ f x = true.
Proof.
  induction l as [|y l IH]; intros k j; cbn [nonzero_from].
  - split; [intros []|]. intros ([|i] & x & _ & E & _); discriminate.
  - assert (T : In j (nonzero_from f (k + 1) l) <->
        exists i x, j = k + Z.of_nat (S i) /\ nth_error (y :: l) (S i) = Some x /\ f x = true).
    { rewrite IH. split; intros (i & x & E & N & F); exists i, x; repeat split; auto; lia. }
    destruct (f y) eqn:Ef; cbn [In]; rewrite T; split.
    + intros [<-|(i & x & E & N & F)]; [exists 0%nat, y; repeat split; auto; lia|].
      exists (S i), x; auto.
    + intros ([|i] & x & E & N & F); [left; lia|right; eauto].
    + intros (i & x & E & N & F); exists (S i), x; auto.
    + intros ([|i] & x & E & N & F); [cbn in N; congruence|eauto].
Qed.
Lemma nonzero_spec {X} (f : X -> bool) l i : 
  In (Z.of_nat i) (nonzero f l) <-> exists x, nth_error l i = Some x /\ f x = true.
Proof.
  unfold nonzero. rewrite nonzero_from_spec. split.
  - intros (i' & x & E & H). assert (i = i') by lia. subst. eauto.
  - intros (x & H). exists i, x. split; [lia|auto].
Qed.
Lemma nonzero_range {X} (f : X -> bool) l : Forall (idx_ok (length l)) (nonzero f l).
Proof.
  apply Forall_forall. intros j H. apply nonzero_from_spec in H. destruct H as (i & x & -> & N & _).
  assert (i < length l)%nat by (apply nth_error_Some; congruence). unfold idx_ok. lia.
Qed.

Lemma last_assoc_app {X} i k1 (v1 : list X) k2 v2 : length k1 = length v1 ->
  last_assoc i (k1 ++ k2) (v1 ++ v2) =
  match last_assoc i k2 v2 with Some y => Some y | None => last_assoc i k1 v1 end.
Proof.
  revert v1; induction k1 as [|k k1 IH]; intros [|v v1] H; try discriminate; cbn [app last_assoc].
  - now destruct (last_assoc i k2 v2).
  - rewrite IH by (cbn in H; lia). destruct (last_assoc i k2 v2); reflexivity.
Qed.
Lemma last_assoc_const {X} i keys (x : X) :
  last_assoc i keys (repeat x (length keys)) = if in_dec Z.eq_dec i keys then Some x else None.
Proof.
  induction keys as [|k keys IH]; cbn [length repeat last_assoc]; [reflexivity|]. rewrite IH.
  destruct (in_dec Z.eq_dec i keys) as [H|H].
  - destruct (in_dec Z.eq_dec i (k :: keys)) as [|Hn]; auto. exfalso; apply Hn; now right.
  - destruct (Z.eqb_spec k i) as [->|Hne].
    + destruct (in_dec Z.eq_dec i (i :: keys)) as [|Hn]; auto. exfalso; apply Hn; now left.
    + destruct (in_dec Z.eq_dec i (k :: keys)) as [[Hn|Hn]|]; tauto.
Qed.
Lemma last_assoc_none {X} i keys : forall (vals : list X), length vals = length keys ->
  last_assoc i keys vals = None <-> ~ In i keys.
Proof.
  induction keys as [|k keys IH]; intros [|v vals] H; try discriminate; cbn [last_assoc In]; [tauto|].
  specialize (IH vals). destruct (last_assoc i keys vals) eqn:E.
  - split; [discriminate|]. intros Hn. exfalso. apply Hn. right.
    destruct (in_dec Z.eq_dec i keys); auto. exfalso. destruct IH as [_ I2]; [cbn in H; lia|]. specialize (I2 n). discriminate.
  - destruct IH as [I1 _]; [cbn in H; lia|]. specialize (I1 eq_refl).
    destruct (Z.eqb_spec k i) as [->|Hne]; [|tauto]. split; [discriminate|tauto].
Qed.
Lemma last_assoc_some {X} i keys : forall (vals : list X) x, last_assoc i keys vals = Some x ->
  exists j, nth_error keys j = Some i /\ nth_error vals j = Some x.
Proof.
  induction keys as [|k keys IH]; intros [|v vals] x H; try discriminate; cbn [last_assoc] in H.
  destruct (last_assoc i keys vals) eqn:E.
  - injection H as ->. destruct (IH _ _ E) as (j & A & B). exists (S j); auto.
  - destruct (Z.eqb_spec k i) as [->|]; [|discriminate]. injection H as ->. exists 0%nat; auto.
Qed.
Lemma last_assoc_nodup {X} keys : forall (vals : list X) i x j, NoDup keys ->
  nth_error keys j = Some i -> nth_error vals j = Some x -> last_assoc i keys vals = Some x.
Proof.
  induction keys as [|k keys IH]; intros [|v vals] i x [|j] Hn Hk Hv; try discriminate; cbn [last_assoc];
    apply NoDup_cons_iff in Hn; destruct Hn as [Hni Hn]; cbn in Hk, Hv.
  - injection Hk as ->. injection Hv as ->.
    destruct (last_assoc i keys vals) eqn:E.
    + apply last_assoc_some in E. destruct E as (j & A & B). apply nth_error_In in A. contradiction.
    + now rewrite Z.eqb_refl.
  - now rewrite (IH _ _ _ _ Hn Hk Hv).
Qed.

Lemma scatter_pairs_last {X} idx : forall (v vals : list X),
  Forall (idx_ok (length v)) idx -> length vals = length idx ->
  exists w, scatter_pairs v idx vals = Ok w /\ length w = length v /\
    forall i, (i < length v)%nat -> nth_error w i =
      match last_assoc (Z.of_nat i) idx vals with Some x => Some x | None => nth_error v i end.
Proof.
  induction idx as [|k idx IH]; intros v vals HF HL.
  - exists v. cbn. repeat split; auto.
  - destruct vals as [|x vals]; [discriminate|]. apply Forall_cons_iff in HF. destruct HF as [Hk HF].
    unfold idx_ok in Hk. cbn [scatter_pairs last_assoc]. rewrite np_index_ok by auto. cbn [rbind].
    destruct (IH (upd_nth (Z.to_nat k) x v) vals) as (w & E & L & N);
      [now rewrite upd_nth_length|cbn in HL; lia|].
    rewrite upd_nth_length in *. exists w. repeat split; auto.
    intros i Hi. rewrite N by auto. destruct (last_assoc (Z.of_nat i) idx vals); auto.
    destruct (Z.eqb_spec k (Z.of_nat i)) as [->|Hne].
    + rewrite Nat2Z.id. now rewrite nth_error_upd_same.
    + rewrite nth_error_upd_other by lia. reflexivity.
Qed.
Lemma scatter_last {X} idx (v vals : list X) :
  Forall (idx_ok (length v)) idx -> length vals = length idx ->
  exists w, scatter v idx vals = Ok w /\ length w = length v /\
    forall i, (i < length v)%nat -> nth_error w i =
      match last_assoc (Z.of_nat i) idx vals with Some x => Some x | None => nth_error v i end.
Proof.
  intros H L. unfold scatter. rewrite L, Nat.eqb_refl. now apply scatter_pairs_last.
Qed.

Lemma zip_with_ok {X Y W} (f : X -> Y -> W) a b n : length a = n -> length b = n ->
  exists w, zip_with f a b = Ok w /\ length w = n /\
    forall i x y, nth_error a i = Some x -> nth_error b i = Some y -> nth_error w i = Some (f x y).
Proof.
  intros La Lb. unfold zip_with. rewrite La, Lb, Nat.eqb_refl.
  eexists. split; [reflexivity|]. split; [rewrite map_length, combine_length; lia|].
  clear La Lb. revert b. induction a as [|x0 a IH]; intros [|y0 b] [|i] x y Ha Hb; try discriminate; cbn in *; auto; congruence.
Qed.

Open Scope R_scope.
Lemma Rltb_iff x y : Rltb x y = true <-> x < y.
Proof. unfold Rltb. destruct (Rlt_dec x y); split; auto; discriminate. Qed.

Definition deadb (d : dmr) (i : nat) : bool :=
  match dead_map d with Some m => nth i m false | None => if in_dec Z.eq_dec (Z.of_nat i) (dead d) then true else false end.
Lemma deadb_iff d i : deadb d i = true <-> is_dead d i.
Proof.
  unfold deadb, is_dead. destruct (dead_map d); [tauto|].
  destruct (in_dec Z.eq_dec (Z.of_nat i) (dead d)); split; auto; discriminate.
Qed.
Definition v0f (d : dmr) i := if deadb d i then 0 else val (cV d) i.
Definition pinf (d : dmr) i : option R :=
  if Rlt_dec (cVmax d) (v0f d i + val (biasMap d) i) then Some (cVmax d)
  else if Rlt_dec (v0f d i + val (biasMap d) i) (cVmin d) then Some (cVmin d) else pin_of d i.
Definition limf (d : dmr) i : R := match pinf d i with Some p => p | None => v0f d i end.

Lemma alive_v0f d i : alive d i (v0f d i).
Proof.
  unfold v0f. destruct (deadb d i) eqn:E.
  - apply al_dead. now apply deadb_iff.
  - apply al_live. rewrite <- deadb_iff. congruence.
Qed.
Lemma limited_limf d i : limited d i (limf d i).
Proof.
  pose proof (alive_v0f d i) as Ha. unfold limf, pinf.
  destruct (Rlt_dec (cVmax d) (v0f d i + val (biasMap d) i)); [eapply lim_high; eauto|].
  destruct (Rlt_dec (v0f d i + val (biasMap d) i) (cVmin d)); [eapply lim_low; eauto|].
  destruct (pin_of d i) eqn:E; [eapply lim_pin; eauto|eapply lim_free; eauto].
Qed.

Lemma enforce_ok n d : dm_ok n d -> exists d', enforce d = Ok d' /\ dm_ok n d' /\
  cNact d' = cNact d /\ dead d' = dead d /\ biasMap d' = biasMap d /\ cVmin d' = cVmin d /\
  cVmax d' = cVmax d /\ tied d' = tied d /\
  (exists dm', dead_map d' = Some dm') /\
  (forall i, (i < n)%nat -> deadb d' i = deadb d i) /\
  (exists np nv, pinned d' = pinned d ++ np /\ Vpinned d' = Vpinned d ++ nv /\ length np = length nv /\
     (forall j p, nth_error nv j = Some p -> p = cVmin d \/ p = cVmax d)) /\
  (forall i, (i < n)%nat -> pin_of d' i = pinf d i) /\
  (forall i, (i < n)%nat -> val (cV d') i =
     match copies d i with Some j => limf d (Z.to_nat j) | None => limf d i end).
Proof.
  intros (Hn0 & Hn & LV & LB & FD & LD & FP & LP & FT).
  unfold enforce, enforce_constraints.
  assert (D : exists dmap, get_dead_map R d = Ok dmap /\ length dmap = n /\
     forall i, (i < n)%nat -> nth_error dmap i = Some (deadb d i)).
  { unfold get_dead_map, deadb. destruct (dead_map d) as [m|] eqn:Em.
    - exists m. split; auto. split; [now apply LD|]. intros i Hi. apply nth_nth_error. rewrite (LD m); auto.
    - assert (LR : length (repeat false (Z.to_nat (cNact d * cNact d))) = n) by (rewrite repeat_length; lia).
      destruct (set_each_ok (dead d) true (repeat false (Z.to_nat (cNact d * cNact d)))) as (w & E & L & N).
      { now rewrite LR. }
      rewrite LR in *. exists w. split; auto. split; auto. intros i Hi. rewrite N by auto.
      rewrite nth_error_repeat' by lia. now destruct (in_dec Z.eq_dec (Z.of_nat i) (dead d)). }
  destruct D as (dmap & ED & LDm & ND). rewrite ED. cbn [rbind].
  destruct (zip_with_ok (mask_dead R 0) (cV d) dmap n LV LDm) as (V0 & E0 & L0 & N0). rewrite E0. cbn [rbind].
  assert (V0v : forall i, (i < n)%nat -> nth_error V0 i = Some (v0f d i)).
  { intros i Hi. erewrite N0; [|apply nth_nth_error with (d:=0); lia|now apply ND]. reflexivity. }
  destruct (zip_with_ok Rplus V0 (biasMap d) n L0 LB) as (Vt & Et & Lt & Nt). rewrite Et. cbn [rbind].
  assert (Vtv : forall i, (i < n)%nat -> nth_error Vt i = Some (v0f d i + val (biasMap d) i)).
  { intros i Hi. erewrite Nt; [|now apply V0v|apply nth_nth_error with (d:=0); lia]. reflexivity. }
  set (lo := nonzero (fun x => Rltb x (cVmin d)) Vt). set (hi := nonzero (fun x => Rltb (cVmax d) x) Vt).
  assert (Flo : Forall (idx_ok n) lo) by (rewrite <- Lt; apply nonzero_range).
  assert (Fhi : Forall (idx_ok n) hi) by (rewrite <- Lt; apply nonzero_range).
  set (P' := pinned d ++ lo ++ hi).
  set (VP' := Vpinned d ++ repeat (cVmin d) (length lo) ++ repeat (cVmax d) (length hi)).
  assert (LP' : length VP' = length P') by (unfold VP', P'; rewrite !app_length, !repeat_length; lia).
  assert (FP' : Forall (idx_ok n) P') by (unfold P'; rewrite !Forall_app; auto).
  assert (PIN : forall i, (i < n)%nat -> last_assoc (Z.of_nat i) P' VP' = pinf d i).
  { intros i Hi. unfold P', VP', pinf, pin_of. rewrite last_assoc_app by lia.
    rewrite last_assoc_app by (rewrite repeat_length; lia). rewrite !last_assoc_const.
    assert (Hhi : In (Z.of_nat i) hi <-> cVmax d < v0f d i + val (biasMap d) i).
    { unfold hi. rewrite nonzero_spec. split.
      - intros (x & E & F). rewrite Vtv in E by auto. injection E as <-. now apply Rltb_iff.
      - intros H. eexists. split; [now apply Vtv|]. now apply Rltb_iff. }
    assert (Hlo : In (Z.of_nat i) lo <-> v0f d i + val (biasMap d) i < cVmin d).
    { unfold lo. rewrite nonzero_spec. split.
      - intros (x & E & F). rewrite Vtv in E by auto. injection E as <-. now apply Rltb_iff.
      - intros H. eexists. split; [now apply Vtv|]. now apply Rltb_iff. }
    destruct (in_dec Z.eq_dec (Z.of_nat i) hi), (Rlt_dec (cVmax d) (v0f d i + val (biasMap d) i)); try tauto.
    destruct (in_dec Z.eq_dec (Z.of_nat i) lo), (Rlt_dec (v0f d i + val (biasMap d) i) (cVmin d)); tauto. }
  assert (S1 : exists V1, (match P' with [] => Ok V0 | _ => scatter V0 P' VP' end) = Ok V1 /\ length V1 = n /\
      forall i, (i < n)%nat -> nth_error V1 i = Some (limf d i)).
  { destruct (scatter_last P' V0 VP') as (w & E & L & N); [now rewrite L0|auto|].
    assert (Q : forall i, (i < n)%nat -> nth_error w i = Some (limf d i)).
    { intros i Hi. rewrite N by lia. rewrite PIN, V0v by auto. unfold limf. now destruct (pinf d i). }
    destruct P' as [|k P'].
    - exists V0. repeat split; auto. intros i Hi. rewrite V0v by auto. unfold limf. rewrite <- PIN by auto. reflexivity.
    - exists w. repeat split; auto. lia. }
  destruct S1 as (V1 & E1 & L1 & N1). rewrite E1. cbn [rbind].
  assert (S2 : exists V2, (match tied d with [] => Ok V1
       | _ => do src <- gather V1 (map fst (tied d)); scatter V1 (map snd (tied d)) src end) = Ok V2 /\ length V2 = n /\
      forall i, (i < n)%nat -> nth_error V2 i = Some (match copies d i with Some j => limf d (Z.to_nat j) | None => limf d i end)).
  { assert (F1 : Forall (fun a => (0 <= a < Z.of_nat (length V1))%Z) (map fst (tied d))).
    { rewrite L1. apply Forall_map. eapply Forall_impl; [|exact FT]. intros p [H _]; exact H. }
    assert (F2 : Forall (idx_ok (length V1)) (map snd (tied d))).
    { rewrite L1. apply Forall_map. eapply Forall_impl; [|exact FT]. intros p [_ H]; exact H. }
    destruct (gather_ok V1 (map fst (tied d)) F1) as (src & Eg & Lg & Ng).
    destruct (scatter_last (map snd (tied d)) V1 src F2) as (w & E & L & N); [rewrite Lg, !map_length; reflexivity|].
    assert (Q : forall i, (i < n)%nat -> nth_error w i = Some (match copies d i with Some j => limf d (Z.to_nat j) | None => limf d i end)).
    { intros i Hi. rewrite N by lia. unfold copies.
      assert (R : last_assoc (Z.of_nat i) (map snd (tied d)) src =
         option_map (fun j => limf d (Z.to_nat j)) (last_assoc (Z.of_nat i) (map snd (tied d)) (map fst (tied d)))).
      { clear - Ng N1 FT Lg L1. revert src Ng Lg. induction (tied d) as [|[a b] t IH]; intros src Ng Lg.
        - now destruct src.
        - destruct src as [|s src]; [discriminate|]. cbn [map last_assoc fst snd].
          apply Forall_cons_iff in FT. destruct FT as [[Ha Hb] FT]. unfold idx_ok in Ha. cbn in Ha.
          rewrite (IH FT src); [|intros j a' H; apply (Ng (S j)); exact H|cbn in Lg; lia].
          destruct (last_assoc (Z.of_nat i) (map snd t) (map fst t)); auto. cbn [option_map].
          destruct (b =? Z.of_nat i)%Z; auto.
          specialize (Ng 0%nat a eq_refl). cbn in Ng. rewrite N1 in Ng by lia. cbn. congruence. }
      rewrite R. destruct (last_assoc (Z.of_nat i) (map snd (tied d)) (map fst (tied d))) eqn:El; cbn; auto. }
    destruct (tied d) as [|t0 t] eqn:Et'.
    - exists V1. repeat split; auto. intros i Hi. rewrite N1 by auto. unfold copies. rewrite Et'. reflexivity.
    - rewrite Eg. cbn [rbind]. exists w. repeat split; auto. lia. }
  destruct S2 as (V2 & E2 & L2 & N2). rewrite E2. cbn [rbind].
  eexists. split; [reflexivity|]. cbn.
  split. { unfold dm_ok; cbn. repeat split; auto. intros m [= <-]; auto. }
  repeat split; auto; eauto.
  - intros i Hi. unfold deadb at 1. cbn. specialize (ND i Hi).
    apply nth_error_nth with (d := false) in ND. exact ND.
  - exists (lo ++ hi), (repeat (cVmin d) (length lo) ++ repeat (cVmax d) (length hi)).
    split; [reflexivity|]. split; [reflexivity|]. split; [rewrite !app_length, !repeat_length; reflexivity|].
    intros j p H. apply nth_error_In in H. apply in_app_iff in H.
    destruct H as [H|H]; apply repeat_spec in H; auto.
  - intros i Hi. unfold val. specialize (N2 i Hi). now apply nth_error_nth with (d := 0) in N2.
Qed.

Lemma alive_det d i a b : alive d i a -> alive d i b -> a = b.
Proof. destruct 1; destruct 1; auto; contradiction. Qed.
Lemma limited_det d i a b : limited d i a -> limited d i b -> a = b.
Proof.
  intros H; destruct H; intros H'; destruct H';
    repeat match goal with A : alive d i ?a, B : alive d i ?b |- _ =>
      assert_fails (constr_eq a b); pose proof (alive_det _ _ _ _ A B); subst; clear B end; auto; try contradiction; congruence.
Qed.
Lemma limited_limf_eq d i x : limited d i x -> x = limf d i.
Proof. intros H. eapply limited_det; eauto. apply limited_limf. Qed.

Lemma copies_none d i : copies d i = None <-> ~ In (Z.of_nat i) (map snd (tied d)).
Proof. apply last_assoc_none. now rewrite !map_length. Qed.
Lemma copies_some d i j : copies d i = Some j -> In (j, Z.of_nat i) (tied d).
Proof.
  unfold copies. intros H. apply last_assoc_some in H. destruct H as (k & A & B).
  rewrite nth_error_map in A, B. destruct (nth_error (tied d) k) as [[x y]|] eqn:E; [|discriminate].
  cbn in A, B. injection A as ->. injection B as ->. now apply nth_error_In in E.
Qed.
Lemma copies_tied d a b : one_source d -> In (a, Z.of_nat b) (tied d) -> copies d b = Some a.
Proof.
  intros Hs H. apply In_nth_error in H. destruct H as (k & H). unfold copies.
  eapply last_assoc_nodup with (j := k); [exact Hs| |]; rewrite nth_error_map, H; reflexivity.
Qed.

(* ---- idempotence ---- *)
Lemma pin_of_range n d i : dm_ok n d -> pin_of d i <> None -> (i < n)%nat.
Proof.
  intros (_ & _ & _ & _ & _ & _ & FP & LP & _) H. unfold pin_of in H.
  destruct (last_assoc (Z.of_nat i) (pinned d) (Vpinned d)) eqn:E; [|congruence].
  apply last_assoc_some in E. destruct E as (j & A & _). apply nth_error_In in A.
  rewrite Forall_forall in FP. specialize (FP _ A). unfold idx_ok in FP. lia.
Qed.

Lemma stable_step n d d' : dm_ok n d -> small_bias d -> stable_pins d -> enforce d = Ok d' -> stable_pins d' /\ small_bias d'.
Proof.
  intros Hok [Hv Hb] Hs He. destruct (enforce_ok n d Hok) as (d2 & E2 & Hok' & _ & _ & EB & Emin & Emax & _ & _ & _ & _ & HP & _).
  rewrite He in E2. injection E2 as <-. split.
  2: { split; [rewrite Emin, Emax; auto|]. rewrite EB, Emin, Emax. auto. }
  intros i p Hp. assert (Hi : (i < n)%nat) by (eapply pin_of_range; eauto; congruence).
  rewrite HP in Hp by auto. rewrite EB, Emin, Emax. unfold pinf in Hp.
  destruct Hok as (_ & _ & _ & LB & _). specialize (Hb i ltac:(lia)). 
  destruct (Rle_abs (val (biasMap d) i)) as [B1|B1]; pose proof (Rle_abs (- val (biasMap d) i)) as B2; rewrite Rabs_Ropp in B2.
  all: destruct (Rlt_dec (cVmax d) (v0f d i + val (biasMap d) i)); [injection Hp as <-; split; [auto|lra]|].
  all: destruct (Rlt_dec (v0f d i + val (biasMap d) i) (cVmin d)); [injection Hp as <-; split; [lra|auto]|].
  all: exact (Hs i p Hp).
Qed.

Lemma no_chain_source d i j : no_chains d -> copies d i = Some j -> ~ In j (map snd (tied d)).
Proof. intros Hc H. apply copies_some in H. exact (Hc _ _ H). Qed.

Lemma enforce_idempotent n d d' d'' : dm_ok n d -> small_bias d -> stable_pins d -> no_chains d ->
  enforce d = Ok d' -> enforce d' = Ok d'' -> cV d'' = cV d'.
Proof.
  intros Hok Hb Hs Hc E1 E2.
  destruct (stable_step n d d' Hok Hb Hs E1) as [Hs' Hb'].
  destruct (enforce_ok n d Hok) as (x & Ex & Hok1 & _ & _ & EB & Emin & Emax & ET & _ & HD & _ & HP & HV).
  rewrite E1 in Ex. injection Ex as <-.
  destruct (enforce_ok n d' Hok1) as (y & Ey & Hok2 & _ & _ & _ & _ & _ & _ & _ & _ & _ & _ & HV2).
  rewrite E2 in Ey. injection Ey as <-.
  assert (L1 : length (cV d') = n) by apply Hok1. assert (L2 : length (cV d'') = n) by apply Hok2.
  assert (Main : forall i, (i < n)%nat -> copies d i = None -> limf d' i = limf d i).
  { intros i Hi Hcp. 
    assert (HVi : val (cV d') i = limf d i) by (rewrite HV by auto; now rewrite Hcp).
    unfold limf at 1. unfold pinf. rewrite EB, Emin, Emax, HP by auto.
    assert (V0 : v0f d' i = if deadb d i then 0 else limf d i) by (unfold v0f; rewrite HD by auto; now rewrite HVi).
    rewrite V0. clear V0 HVi.
    assert (Hst : forall p, pinf d i = Some p -> (cVmax d < p + val (biasMap d) i -> p = cVmax d) /\ (p + val (biasMap d) i < cVmin d -> p = cVmin d)).
    { intros p Hp. rewrite <- HP in Hp by auto. specialize (Hs' i p Hp). rewrite EB, Emin, Emax in Hs'. exact Hs'. }
    destruct (deadb d i) eqn:Ed.
    - unfold limf. assert (V0 : v0f d i = 0) by (unfold v0f; now rewrite Ed). 
      revert Hst. unfold pinf. rewrite V0.
      destruct (Rlt_dec (cVmax d) (0 + val (biasMap d) i)); auto.
      destruct (Rlt_dec (0 + val (biasMap d) i) (cVmin d)); auto.
    - unfold limf. destruct (pinf d i) as [p|] eqn:Ep.
      + destruct (Hst p eq_refl) as [S1 S2].
        destruct (Rlt_dec (cVmax d) (p + val (biasMap d) i)); [symmetry; auto|].
        destruct (Rlt_dec (p + val (biasMap d) i) (cVmin d)); [symmetry; auto|reflexivity].
      + unfold pinf in Ep.
        destruct (Rlt_dec (cVmax d) (v0f d i + val (biasMap d) i)); [discriminate|].
        destruct (Rlt_dec (v0f d i + val (biasMap d) i) (cVmin d)); [discriminate|reflexivity]. }
  apply nth_ext with (d := 0) (d' := 0); [congruence|]. intros i Hi. rewrite L2 in Hi.
  change (val (cV d'') i = val (cV d') i). rewrite HV2, HV by auto.
  assert (EC : copies d' i = copies d i) by (unfold copies; now rewrite ET). rewrite EC.
  destruct (copies d i) as [j|] eqn:Ecp; [|now apply Main].
  apply Main.
  - apply copies_some in Ecp. destruct Hok as (_ & _ & _ & _ & _ & _ & _ & _ & FT). rewrite Forall_forall in FT.
    specialize (FT _ Ecp). unfold idx_ok in FT. cbn in FT. lia.
  - apply copies_none. rewrite Z2Nat.id. { eapply no_chain_source; eauto. }
    apply copies_some in Ecp. destruct Hok as (_ & _ & _ & _ & _ & _ & _ & _ & FT). rewrite Forall_forall in FT.
    specialize (FT _ Ecp). unfold idx_ok in FT. cbn in FT. lia.
Qed.

(* ---- histories ---- *)
Lemma step_ok n d delta : dm_ok n d -> length delta = n -> exists d0 d', step R 0 Rplus Rltb d delta = Ok d' /\
  enforce d0 = Ok d' /\ dm_ok n d0 /\ dm_ok n d' /\ 
  (forall i, (i < n)%nat -> val (cV d0) i = val (cV d) i + val delta i) /\
  d0 = set_cV d (cV d0).
Proof.
  intros Hok Hl. unfold step. destruct Hok as (H1 & H2 & H3 & H4 & H5 & H6 & H7 & H8 & H9).
  destruct (zip_with_ok Rplus (cV d) delta n H3 Hl) as (v & Ev & Lv & Nv). rewrite Ev. cbn [rbind].
  assert (Hok0 : dm_ok n (set_cV d v)) by (unfold dm_ok, set_cV; cbn; repeat split; auto).
  destruct (enforce_ok n _ Hok0) as (d' & E & Hok' & _).
  exists (set_cV d v), d'. repeat split; auto; try apply Hok0; try apply Hok'.
  intros i Hi. cbn. unfold val. pose proof (Nv i (nth i (cV d) 0) (nth i delta 0)) as Q.
  apply nth_error_nth. apply Q; apply nth_nth_error; lia.
Qed.

Record same_limits (d d' : dmr) : Prop := mksl {
  sl_bias : biasMap d' = biasMap d; sl_min : cVmin d' = cVmin d; sl_max : cVmax d' = cVmax d; sl_tied : tied d' = tied d }.

Lemma history_ok n deltas : forall d, dm_ok n d -> Forall (fun x => length x = n) deltas ->
  exists d', history R 0 Rplus Rltb d deltas = Ok d' /\ dm_ok n d' /\ same_limits d d' /\
    (exists np nv, pinned d' = pinned d ++ np /\ Vpinned d' = Vpinned d ++ nv /\ length np = length nv) /\
    (forall i p, pin_of d i = Some p -> ~ In (Z.of_nat i) (map snd (tied d)) ->
       exists q, pin_of d' i = Some q /\ (q = p \/ q = cVmin d \/ q = cVmax d) /\
         (deltas <> [] -> val (cV d') i = q)) /\
    (small_bias d -> stable_pins d -> small_bias d' /\ stable_pins d').
Proof.
  induction deltas as [|x t IH]; intros d Hok HF.
  - exists d. split; [reflexivity|]. split; [exact Hok|]. split; [split; reflexivity|]. split; [|split].
    + exists [], []. rewrite !app_nil_r. auto.
    + intros i p Hp _. exists p. split; [exact Hp|]. split; [auto|]. intros H; now destruct H.
    + auto.
  - apply Forall_cons_iff in HF. destruct HF as [Hx HF].
    destruct (step_ok n d x Hok Hx) as (d0 & d1 & Es & Ee & Hok0 & Hok1 & _ & Ed0).
    cbn [history]. rewrite Es. cbn [rbind].
    destruct (enforce_ok n d0 Hok0) as (d1' & Ee' & _ & EN & EDd & EB & Emin & Emax & ET & _ & HD & (np & nv & P1 & P2 & P3 & P4) & HP & HV).
    rewrite Ee in Ee'. injection Ee' as <-.
    assert (A1 : biasMap d0 = biasMap d) by (rewrite Ed0; reflexivity).
    assert (A2 : cVmin d0 = cVmin d) by (rewrite Ed0; reflexivity).
    assert (A3 : cVmax d0 = cVmax d) by (rewrite Ed0; reflexivity).
    assert (A4 : tied d0 = tied d) by (rewrite Ed0; reflexivity).
    assert (A5 : pinned d0 = pinned d) by (rewrite Ed0; reflexivity).
    assert (A6 : Vpinned d0 = Vpinned d) by (rewrite Ed0; reflexivity).
    destruct (IH d1 Hok1 HF) as (d' & Eh & Hok' & [S1 S2 S3 S4] & (mp & mv & M1 & M2 & M3) & HPn & HSt).
    exists d'. split; [exact Eh|]. split; [exact Hok'|]. split; [split; congruence|]. split; [|split].
    + exists (np ++ mp), (nv ++ mv). rewrite M1, M2, P1, P2, A5, A6, !app_assoc, !app_length. repeat split; auto.
    + intros i p Hp Hns. assert (Hi : (i < n)%nat) by (eapply pin_of_range; [exact Hok|congruence]).
      assert (Hp0 : pin_of d0 i = Some p) by (unfold pin_of in *; now rewrite A5, A6).
      assert (C0 : copies d0 i = None) by (apply copies_none; now rewrite A4).
      assert (Hq : exists q, pin_of d1 i = Some q /\ (q = p \/ q = cVmin d \/ q = cVmax d) /\ val (cV d1) i = q).
      { rewrite HV, C0, HP by auto. unfold limf, pinf. rewrite Hp0, A2, A3.
        destruct (Rlt_dec (cVmax d) (v0f d0 i + val (biasMap d0) i)); [eexists; eauto|].
        destruct (Rlt_dec (v0f d0 i + val (biasMap d0) i) (cVmin d)); eexists; eauto. }
      destruct Hq as (q & Hq1 & Hq2 & Hq3).
      destruct (HPn i q Hq1) as (q' & Q1 & Q2 & Q3); [now rewrite ET, A4|].
      exists q'. split; auto. split. { rewrite Emin, Emax, A2, A3 in Q2. destruct Q2 as [->|Q2]; auto. }
      intros _. destruct t as [|y t]; [|apply Q3; discriminate].
      cbn in Eh. injection Eh as <-. congruence.
    + intros Hb Hs.
      assert (Hb0 : small_bias d0) by (unfold small_bias in *; now rewrite A1, A2, A3).
      assert (Hs0 : stable_pins d0) by (unfold stable_pins, pin_of in *; now rewrite A1, A2, A3, A5, A6).
      destruct (stable_step n d0 d1 Hok0 Hb0 Hs0 Ee) as [Q1 Q2]. apply HSt; auto.
Qed.
