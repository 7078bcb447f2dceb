From Coq Require Import Sorted Permutation.
From Verif Require Import Base RBase CtrlModel CtrlProofs DmModel DmSpec DmProofs EfcSpec JacModel JacSpec.
Open Scope Z_scope.

Lemma nth_error_ext {X} (a b : list X) : (forall i, nth_error a i = nth_error b i) -> a = b.
Proof.
  revert b. induction a as [|x a IH]; intros [|y b] H; auto.
  - specialize (H 0%nat). discriminate.
  - specialize (H 0%nat). discriminate.
  - f_equal; [specialize (H 0%nat); cbn in H; congruence|]. apply IH. intros i. apply (H (S i)).
Qed.

(* ---- reading and writing entries ---- *)
Lemma rect_ent {P} n M (G : jac P) : rect n M G -> forall c m, (c < n)%nat -> (m < M)%nat -> exists v, ent G c m = Some v.
Proof.
  intros [L F] c m Hc Hm. unfold ent. destruct (nth_error G c) as [col|] eqn:E.
  - rewrite Forall_forall in F. specialize (F col (nth_error_In _ _ E)).
    destruct (nth_error col m) eqn:E2; eauto. apply nth_error_None in E2. lia.
  - apply nth_error_None in E. lia.
Qed.
Lemma rect_upd {P} n M (G : jac P) p col : rect n M G -> length col = M -> rect n M (upd_nth p col G).
Proof.
  intros [L F] H. split; [now rewrite upd_nth_length|].
  apply Forall_forall. intros x Hx. apply In_nth_error in Hx. destruct Hx as [i Hi].
  destruct (Nat.eq_dec i p) as [->|Hne].
  - assert (Hlt : (p < length G)%nat) by (rewrite <- (upd_nth_length p col G); apply nth_error_Some; congruence).
    rewrite nth_error_upd_same in Hi by auto. congruence.
  - rewrite nth_error_upd_other in Hi by auto. rewrite Forall_forall in F. apply F. eapply nth_error_In; eauto.
Qed.
Lemma set_cm_ok {P} n M (G : jac P) c m v : rect n M G -> 0 <= c < Z.of_nat n -> (m < M)%nat ->
  exists G', set_cm P G c m v = Ok G' /\ rect n M G' /\
    forall c' m', ent G' c' m' = if Nat.eqb c' (Z.to_nat c) && Nat.eqb m' m then Some v else ent G c' m'.
Proof.
  intros HR Hc Hm. pose proof HR as [L F]. unfold set_cm. rewrite L, np_index_ok by lia. cbn [rbind].
  destruct (nth_error G (Z.to_nat c)) as [col|] eqn:E.
  2:{ apply nth_error_None in E. lia. }
  assert (Lc : length col = M) by (rewrite Forall_forall in F; apply F; eapply nth_error_In; eauto).
  eexists. split; [reflexivity|]. split; [apply rect_upd; [auto|now rewrite upd_nth_length]|].
  intros c' m'. unfold ent. destruct (Nat.eqb_spec c' (Z.to_nat c)) as [->|Hne]; cbn [andb].
  - rewrite nth_error_upd_same by lia. rewrite E.
    destruct (Nat.eqb_spec m' m) as [->|Hm']; [rewrite nth_error_upd_same by lia; auto|now rewrite nth_error_upd_other].
  - now rewrite nth_error_upd_other.
Qed.
Lemma set_cm_oob {P} n M (G : jac P) c m v : rect n M G -> Z.of_nat n <= c -> set_cm P G c m v = Raise IndexError.
Proof.
  intros [L F] Hc. unfold set_cm, np_index. rewrite L.
  replace ((0 <=? c) && (c <? Z.of_nat n))%bool with false by lia.
  replace ((- Z.of_nat n <=? c) && (c <? 0))%bool with false by lia. reflexivity.
Qed.
Lemma ent_eq {P} n M (G G' : jac P) : rect n M G -> rect n M G' ->
  (forall c m, (c < n)%nat -> (m < M)%nat -> ent G c m = ent G' c m) -> G = G'.
Proof.
  intros HR HR' HE. pose proof HR as [L F]. pose proof HR' as [L' F'].
  apply nth_error_ext. intros c. destruct (Nat.lt_ge_cases c n) as [Hc|Hc].
  2:{ rewrite (proj2 (nth_error_None G c)), (proj2 (nth_error_None G' c)) by lia. auto. }
  destruct (nth_error G c) as [col|] eqn:E; [|apply nth_error_None in E; lia].
  destruct (nth_error G' c) as [col'|] eqn:E'; [|apply nth_error_None in E'; lia].
  f_equal. rewrite Forall_forall in F, F'.
  assert (Lc : length col = M) by (apply F; eapply nth_error_In; eauto).
  assert (Lc' : length col' = M) by (apply F'; eapply nth_error_In; eauto).
  apply nth_error_ext. intros m. destruct (Nat.lt_ge_cases m M) as [Hm|Hm].
  2:{ rewrite (proj2 (nth_error_None col m)), (proj2 (nth_error_None col' m)) by lia. auto. }
  specialize (HE c m Hc Hm). unfold ent in HE. now rewrite E, E' in HE.
Qed.
Lemma zeros_ok {P} (z : P) n M : 0 <= n -> exists G, zeros P z n M = Ok G /\ rect (Z.to_nat n) M G /\ 
  G = repeat (repeat z M) (Z.to_nat n).
Proof.
  intros H. unfold zeros. replace (n <? 0) with false by lia. eexists; split; [reflexivity|]. split; [|reflexivity].
  split; [apply repeat_length|]. apply Forall_forall. intros x Hx. apply repeat_spec in Hx. subst. apply repeat_length.
Qed.

(* ---- serial assembly ---- *)
Lemma fill_serial_ok {P} (resp : Z -> P) M m : (m < M)%nat -> forall act index (G : jac P) n, rect n M G -> 0 <= index ->
  index + Z.of_nat (length act) <= Z.of_nat n ->
  exists G', fill_serial P resp m index act G = Ok G' /\ rect n M G' /\
    (forall j a, nth_error act j = Some a -> ent G' (Z.to_nat index + j) m = Some (resp a)) /\
    (forall c m', (m' <> m \/ (c < Z.to_nat index)%nat) -> ent G' c m' = ent G c m').
Proof.
  intros Hm. induction act as [|a act IH]; intros index G n HR H0 HI; cbn [fill_serial].
  - exists G. repeat split; try apply HR; auto. intros [|j] a; discriminate.
  - cbn [length] in HI. destruct (set_cm_ok n M G index m (resp a) HR ltac:(lia) Hm) as (G1 & E1 & R1 & N1).
    rewrite E1. cbn [rbind]. destruct (IH (index + 1) G1 n R1 ltac:(lia) ltac:(lia)) as (G2 & E2 & R2 & N2 & O2).
    exists G2. split; [auto|]. split; [auto|]. split.
    + intros [|j] a' Ha; cbn in Ha.
      * injection Ha as <-. rewrite O2 by (right; lia). rewrite N1, Nat.add_0_r, !Nat.eqb_refl. reflexivity.
      * rewrite <- (N2 j a' Ha). f_equal. lia.
    + intros c m' Hcm. rewrite O2 by (destruct Hcm; [left; auto|right; lia]). rewrite N1.
      destruct (Nat.eqb_spec c (Z.to_nat index)); destruct (Nat.eqb_spec m' m); cbn [andb]; auto. destruct Hcm; lia.
Qed.

Section SerialModes.
  Variable P : Type.
  Variable resp : Z -> nat -> Z -> P.
  Variable M : nat.
  Variables act1 act2 : list Z.
  Variable dm_ind : list Z.
  Variables n1 n2 : nat.
  Hypothesis H1 : usedb dm_ind 1 = true -> n1 = length act1.
  Hypothesis H2 : usedb dm_ind 2 = true -> n2 = length act2.

  Definition done_upto (k : nat) (idm : Z) (act : list Z) (G0 G : jac P) : Prop :=
    (usedb dm_ind idm = true -> forall j a m, nth_error act j = Some a -> (m < k)%nat -> ent G j m = Some (resp idm m a)) /\
    (usedb dm_ind idm = false -> G = G0).

  Lemma serial_modes_ok : forall ms k G1 G2 Z1 Z2, ms = seq k (M - k) -> (k <= M)%nat ->
    rect n1 M G1 -> rect n2 M G2 -> done_upto k 1 act1 Z1 G1 -> done_upto k 2 act2 Z2 G2 ->
    exists G1' G2', serial_modes P resp dm_ind act1 act2 ms (G1, G2) = Ok (G1', G2') /\
      rect n1 M G1' /\ rect n2 M G2' /\ done_upto M 1 act1 Z1 G1' /\ done_upto M 2 act2 Z2 G2'.
  Proof.
    induction ms as [|m ms IH]; intros k G1 G2 Z1 Z2 Hms Hk R1 R2 D1 D2; cbn [serial_modes].
    - assert (k = M) by (destruct (M - k)%nat eqn:E; [lia|discriminate]). subst k.
      exists G1, G2. repeat split; try apply R1; try apply R2; try apply D1; try apply D2.
    - destruct (M - k)%nat as [|q] eqn:Eq; [discriminate|]. cbn [seq] in Hms. injection Hms as -> Hms.
      assert (Hkm : (k < M)%nat) by lia.
      assert (S1 : exists G1', (if usedb dm_ind 1 then fill_serial P (resp 1 k) k 0 act1 G1 else Ok G1) = Ok G1' /\
                 rect n1 M G1' /\ done_upto (S k) 1 act1 Z1 G1').
      { unfold done_upto in *. destruct (usedb dm_ind 1) eqn:U.
        - destruct (fill_serial_ok (resp 1 k) M k Hkm act1 0 G1 n1 R1) as (G' & E & R & N & O); [lia|rewrite H1 by auto; lia|].
          exists G'. split; [auto|]. split; [auto|]. split; [|discriminate].
          intros _ j a m Ha Hm. destruct (Nat.eq_dec m k) as [->|Hne].
          + rewrite <- (N j a Ha). reflexivity.
          + rewrite O by (left; auto). apply (proj1 D1); auto. lia.
        - exists G1. split; [auto|]. split; [auto|]. split; [discriminate|apply D1]. }
      assert (S2 : exists G2', (if usedb dm_ind 2 then fill_serial P (resp 2 k) k 0 act2 G2 else Ok G2) = Ok G2' /\
                 rect n2 M G2' /\ done_upto (S k) 2 act2 Z2 G2').
      { unfold done_upto in *. destruct (usedb dm_ind 2) eqn:U.
        - destruct (fill_serial_ok (resp 2 k) M k Hkm act2 0 G2 n2 R2) as (G' & E & R & N & O); [lia|rewrite H2 by auto; lia|].
          exists G'. split; [auto|]. split; [auto|]. split; [|discriminate].
          intros _ j a m Ha Hm. destruct (Nat.eq_dec m k) as [->|Hne].
          + rewrite <- (N j a Ha). reflexivity.
          + rewrite O by (left; auto). apply (proj1 D2); auto. lia.
        - exists G2. split; [auto|]. split; [auto|]. split; [discriminate|apply D2]. }
      cbn [fst snd]. destruct S1 as (G1' & -> & R1' & D1'), S2 as (G2' & -> & R2' & D2'). cbn [rbind].
      apply (IH (S k)); auto. rewrite Hms. f_equal. lia.
  Qed.
End SerialModes.

Lemma jac_serial_ok {P} (z : P) resp dm_ind d1 d2 M :
  0 <= jNele d1 -> 0 <= jNele d2 ->
  (usedb dm_ind 1 = true -> jNele d1 = Z.of_nat (length (jact d1))) ->
  (usedb dm_ind 2 = true -> jNele d2 = Z.of_nat (length (jact d2))) ->
  exists G1 G2, jac_serial P z resp dm_ind d1 d2 M = Ok (G1, G2) /\
    (usedb dm_ind 1 = true -> filled (resp 1) (jact d1) M G1) /\
    (usedb dm_ind 2 = true -> filled (resp 2) (jact d2) M G2) /\
    (usedb dm_ind 1 = false -> G1 = repeat (repeat z M) (Z.to_nat (jNele d1))) /\
    (usedb dm_ind 2 = false -> G2 = repeat (repeat z M) (Z.to_nat (jNele d2))).
Proof.
  intros N1 N2 L1 L2. unfold jac_serial.
  destruct (zeros_ok z (jNele d1) M N1) as (Z1 & E1 & R1 & Q1). rewrite E1. cbn [rbind].
  destruct (zeros_ok z (jNele d2) M N2) as (Z2 & E2 & R2 & Q2). rewrite E2. cbn [rbind].
  destruct (serial_modes_ok P resp M (jact d1) (jact d2) dm_ind (Z.to_nat (jNele d1)) (Z.to_nat (jNele d2)) ltac:(intros; rewrite L1 by auto; lia) ltac:(intros; rewrite L2 by auto; lia)
    (seq 0 M) 0 Z1 Z2 Z1 Z2) as (G1 & G2 & E & R1' & R2' & D1 & D2); auto.
  { f_equal; lia. } { lia. }
  { split; auto. intros; lia. } { split; auto. intros; lia. }
  exists G1, G2. split; [auto|]. split; [|split; [|split]].
  - intros U. split; [|intros; apply (proj1 D1); auto].
    replace (length (jact d1)) with (Z.to_nat (jNele d1)) by (rewrite L1 by auto; lia). auto.
  - intros U. split; [|intros; apply (proj1 D2); auto].
    replace (length (jact d2)) with (Z.to_nat (jNele d2)) by (rewrite L2 by auto; lia). auto.
  - intros U. rewrite <- Q1. apply (proj2 D1); auto.
  - intros U. rewrite <- Q2. apply (proj2 D2); auto.
Qed.

(* ---- worker pool ---- *)
Lemma complete_spec {T X} (f : T -> X) tasks : forall order slots, length slots = length tasks ->
  length (complete f tasks order slots) = length tasks /\
  forall i, (i < length tasks)%nat -> nth_error (complete f tasks order slots) i =
    if in_dec Nat.eq_dec i order then option_map (fun x => Some (f x)) (nth_error tasks i) else nth_error slots i.
Proof.
  induction order as [|k order IH]; intros slots L; cbn [complete].
  - split; auto.
  - set (s' := match nth_error tasks k with Some x => upd_nth k (Some (f x)) slots | None => slots end).
    assert (L' : length s' = length tasks) by (unfold s'; destruct (nth_error tasks k); [now rewrite upd_nth_length|auto]).
    destruct (IH s' L') as [IH1 IH2]. split; [auto|]. intros i Hi. rewrite IH2 by auto.
    destruct (in_dec Nat.eq_dec i order) as [Hin|Hin]; destruct (in_dec Nat.eq_dec i (k :: order)) as [Hin'|Hin']; auto.
    + exfalso; apply Hin'; now right.
    + destruct Hin' as [->|Hin']; [|contradiction]. unfold s'.
      destruct (nth_error tasks i) eqn:E; [rewrite nth_error_upd_same by lia; auto|apply nth_error_None in E; lia].
    + unfold s'. destruct (nth_error tasks k) eqn:E; auto. rewrite nth_error_upd_other; auto.
      intros ->. apply Hin'. now left.
Qed.
Lemma pool_map_ok {T X} (f : T -> X) tasks order : Permutation order (seq 0 (length tasks)) ->
  pool_map f tasks order = map (fun x => Some (f x)) tasks.
Proof.
  intros HP. unfold pool_map. destruct (complete_spec f tasks order (repeat None (length tasks)) (repeat_length _ _)) as [L N].
  apply nth_error_ext. intros i. destruct (Nat.lt_ge_cases i (length tasks)) as [Hi|Hi].
  - rewrite N by auto. destruct (in_dec Nat.eq_dec i order) as [Hin|Hin].
    + rewrite nth_error_map. reflexivity.
    + exfalso. apply Hin. apply (Permutation_in _ (Permutation_sym HP)), in_seq. lia.
  - rewrite (proj2 (nth_error_None _ i)) by (rewrite L; lia). symmetry. apply nth_error_None. rewrite map_length. lia.
Qed.

(* ---- parallel assembly ---- *)
Section Reorder.
  Variable P : Type.
  Variable resp : Z -> nat -> Z -> P.
  Variable M n1 n2 : nat.
  Definition task_ok (t : nat * Z * Z) : Prop :=
    let '(m, idm, iact) := t in (m < M)%nat /\ 0 <= iact.
  Definition bound (idm : Z) : nat := if idm =? 1 then n1 else n2.
  Definition in_bounds (t : nat * Z * Z) : Prop := let '(m, idm, iact) := t in iact < Z.of_nat (bound idm).

  Lemma reorder_ok : forall tasks G1 G2, rect n1 M G1 -> rect n2 M G2 ->
    Forall task_ok tasks -> Forall in_bounds tasks -> Forall (fun t => snd (fst t) = 1 \/ snd (fst t) = 2) tasks ->
    exists G1' G2', reorder P tasks (map (fun t => Some (let '(m, idm, iact) := t in resp idm m iact)) tasks) (G1, G2) = Ok (G1', G2') /\
      rect n1 M G1' /\ rect n2 M G2' /\
      (forall c m, (In (m, 1, Z.of_nat c) tasks -> ent G1' c m = Some (resp 1 m (Z.of_nat c))) /\
                   (~ In (m, 1, Z.of_nat c) tasks -> ent G1' c m = ent G1 c m)) /\
      (forall c m, (In (m, 2, Z.of_nat c) tasks -> ent G2' c m = Some (resp 2 m (Z.of_nat c))) /\
                   (~ In (m, 2, Z.of_nat c) tasks -> ent G2' c m = ent G2 c m)).
  Proof.
    induction tasks as [|[[m idm] iact] tasks IH]; intros G1 G2 R1 R2 HT HB HD; cbn [reorder map].
    - exists G1, G2. split; [auto|]. split; [auto|]. split; [auto|].
      split; intros c m; split; auto; intros [].
    - apply Forall_cons_iff in HT. destruct HT as [[Hm Ha] HT]. apply Forall_cons_iff in HB. destruct HB as [Hb HB].
      apply Forall_cons_iff in HD. destruct HD as [Hd HD]. cbn in Hb, Hd. unfold bound in Hb.
      cbn [fst snd].
      destruct (Z.eqb_spec idm 1) as [->|Hne].
      + destruct (set_cm_ok n1 M G1 iact m (resp 1 m iact) R1 ltac:(lia) Hm) as (G1a & E & Ra & Na).
        rewrite E. cbn [rbind fst snd].
        destruct (IH G1a G2 Ra R2 HT HB HD) as (G1' & G2' & E' & R1' & R2' & A1 & A2).
        exists G1', G2'. split; [exact E'|]. split; [auto|]. split; [auto|]. split; intros c m'; split.
        * intros Hin. destruct (A1 c m') as [A B].
          destruct (in_dec (fun x y : nat * Z * Z => ltac:(repeat decide equality)) (m', 1, Z.of_nat c) tasks) as [Hi|Hi]; auto.
          rewrite (B Hi). destruct Hin as [Heq|Hin]; [|contradiction]. injection Heq as <- ->.
          rewrite Na, Nat2Z.id, !Nat.eqb_refl. reflexivity.
        * intros Hn. rewrite (proj2 (A1 c m')) by (intros Hi; apply Hn; now right). rewrite Na.
          destruct (Nat.eqb_spec c (Z.to_nat iact)); destruct (Nat.eqb_spec m' m); cbn [andb]; auto.
          exfalso. apply Hn. left. f_equal; [f_equal; congruence|lia].
        * intros [Heq|Hin]; [injection Heq; intros; lia|]. apply A2; auto.
        * intros Hn. apply A2. intros Hi; apply Hn; now right.
      + assert (idm = 2) by (destruct Hd; congruence). subst idm.
        destruct (set_cm_ok n2 M G2 iact m (resp 2 m iact) R2 ltac:(lia) Hm) as (G2a & E & Ra & Na).
        rewrite E. cbn [rbind fst snd].
        destruct (IH G1 G2a R1 Ra HT HB HD) as (G1' & G2' & E' & R1' & R2' & A1 & A2).
        exists G1', G2'. split; [exact E'|]. split; [auto|]. split; [auto|]. split; intros c m'; split.
        * intros [Heq|Hin]; [injection Heq; intros; lia|]. apply A1; auto.
        * intros Hn. apply A1. intros Hi; apply Hn; now right.
        * intros Hin. destruct (A2 c m') as [A B].
          destruct (in_dec (fun x y : nat * Z * Z => ltac:(repeat decide equality)) (m', 2, Z.of_nat c) tasks) as [Hi|Hi]; auto.
          rewrite (B Hi). destruct Hin as [Heq|Hin]; [|contradiction]. injection Heq as <- ->.
          rewrite Na, Nat2Z.id, !Nat.eqb_refl. reflexivity.
        * intros Hn. rewrite (proj2 (A2 c m')) by (intros Hi; apply Hn; now right). rewrite Na.
          destruct (Nat.eqb_spec c (Z.to_nat iact)); destruct (Nat.eqb_spec m' m); cbn [andb]; auto.
          exfalso. apply Hn. left. f_equal; [f_equal; congruence|lia].
  Qed.

  Lemma reorder_fails : forall tasks G1 G2, rect n1 M G1 -> rect n2 M G2 ->
    Forall task_ok tasks -> Exists (fun t => ~ in_bounds t) tasks ->
    Forall (fun t => snd (fst t) = 1 \/ snd (fst t) = 2) tasks ->
    reorder P tasks (map (fun t => Some (let '(m, idm, iact) := t in resp idm m iact)) tasks) (G1, G2) = Raise IndexError.
  Proof.
    induction tasks as [|[[m idm] iact] tasks IH]; intros G1 G2 R1 R2 HT HE HD; [inversion HE|].
    cbn [reorder map fst snd].
    apply Forall_cons_iff in HT. destruct HT as [[Hm Ha] HT]. apply Forall_cons_iff in HD. destruct HD as [Hd HD].
    cbn in Hd. apply Exists_cons in HE.
    destruct (Z_lt_ge_dec iact (Z.of_nat (bound idm))) as [Hlt|Hge].
    - destruct HE as [HE|HE]; [cbn in HE; contradiction|]. unfold bound in Hlt.
      destruct (Z.eqb_spec idm 1) as [->|Hne].
      + destruct (set_cm_ok n1 M G1 iact m (resp 1 m iact) R1 ltac:(lia) Hm) as (G1a & E & Ra & Na).
        rewrite E. cbn [rbind]. apply IH; auto.
      + destruct (set_cm_ok n2 M G2 iact m (resp idm m iact) R2 ltac:(lia) Hm) as (G2a & E & Ra & Na).
        rewrite E. cbn [rbind]. apply IH; auto.
    - unfold bound in Hge. destruct (Z.eqb_spec idm 1) as [->|Hne].
      + rewrite (set_cm_oob n1 M); auto. lia.
      + rewrite (set_cm_oob n2 M); auto. lia.
  Qed.
End Reorder.

Lemma tasks_of_in idm act M m i a : In (m, i, a) (tasks_of idm act M) <-> i = idm /\ In a act /\ (m < M)%nat.
Proof.
  unfold tasks_of. rewrite in_flat_map. split.
  - intros (x & Hx & H). apply in_map_iff in H. destruct H as (k & E & Hk). apply in_seq in Hk.
    injection E as <- <- <-. repeat split; auto; lia.
  - intros (-> & Ha & Hm). exists a. split; auto. apply in_map_iff. exists m. split; auto. apply in_seq. lia.
Qed.

Lemma nth_zrange_error n j a : nth_error (zrange n) j = Some a -> a = Z.of_nat j /\ (j < Z.to_nat n)%nat.
Proof.
  unfold zrange. rewrite nth_error_map. intros E.
  assert (j < Z.to_nat n)%nat.
  { apply Nat.nle_gt. intros H. rewrite (proj2 (nth_error_None (seq 0 (Z.to_nat n)) j)) in E; [discriminate|rewrite seq_length; lia]. }
  split; auto. rewrite nth_error_nth' with (d := 0%nat) in E by (rewrite seq_length; lia).
  rewrite seq_nth in E by lia. cbn in E. congruence.
Qed.

Lemma jac_parallel_ok {P} (z : P) resp d1 d2 M order :
  0 <= jNele d1 -> 0 <= jNele d2 ->
  jact d1 = zrange (jNele d1) -> jact d2 = zrange (jNele d2) ->
  Permutation order (seq 0 (length (tasks_of 1 (jact d1) M ++ tasks_of 2 (jact d2) M))) ->
  exists G1 G2, jac_parallel P z resp order d1 d2 M = Ok (G1, G2) /\
    filled (resp 1) (jact d1) M G1 /\ filled (resp 2) (jact d2) M G2.
Proof.
  intros N1 N2 A1 A2 HP. unfold jac_parallel.
  destruct (zeros_ok z (jNele d1) M N1) as (Z1 & E1 & R1 & Q1). rewrite E1. cbn [rbind].
  destruct (zeros_ok z (jNele d2) M N2) as (Z2 & E2 & R2 & Q2). rewrite E2. cbn [rbind].
  rewrite pool_map_ok by auto.
  destruct (reorder_ok P resp M (Z.to_nat (jNele d1)) (Z.to_nat (jNele d2))
     (tasks_of 1 (jact d1) M ++ tasks_of 2 (jact d2) M) Z1 Z2 R1 R2) as (G1 & G2 & E & R1' & R2' & I1 & I2).
  - apply Forall_forall. intros [[m i] a] H. apply in_app_iff in H. rewrite !tasks_of_in in H. cbn.
    rewrite A1, A2, !in_zrange in H. intuition lia.
  - apply Forall_forall. intros [[m i] a] H. apply in_app_iff in H. rewrite !tasks_of_in in H. cbn. unfold bound.
    rewrite A1, A2, !in_zrange in H. destruct H as [(-> & H & _)|(-> & H & _)]; cbn; lia.
  - apply Forall_forall. intros [[m i] a] H. apply in_app_iff in H. rewrite !tasks_of_in in H. cbn. intuition.
  - exists G1, G2. split; [exact E|]. split.
    + split; [rewrite A1, zrange_length; auto|]. intros j a m Ha Hm. rewrite A1 in Ha.
      apply nth_zrange_error in Ha. destruct Ha as [-> Hj]. apply I1. apply in_app_iff. left.
      rewrite tasks_of_in, A1, in_zrange. repeat split; auto; lia.
    + split; [rewrite A2, zrange_length; auto|]. intros j a m Ha Hm. rewrite A2 in Ha.
      apply nth_zrange_error in Ha. destruct Ha as [-> Hj]. apply I2. apply in_app_iff. right.
      rewrite tasks_of_in, A2, in_zrange. repeat split; auto; lia.
Qed.

Lemma jac_parallel_fails {P} (z : P) resp d1 d2 M order :
  0 <= jNele d1 -> 0 <= jNele d2 -> (0 < M)%nat ->
  Forall (fun a => 0 <= a) (jact d1) -> Forall (fun a => 0 <= a) (jact d2) ->
  (Exists (fun a => jNele d1 <= a) (jact d1) \/ Exists (fun a => jNele d2 <= a) (jact d2)) ->
  Permutation order (seq 0 (length (tasks_of 1 (jact d1) M ++ tasks_of 2 (jact d2) M))) ->
  jac_parallel P z resp order d1 d2 M = Raise IndexError.
Proof.
  intros N1 N2 HM F1 F2 HE HP. unfold jac_parallel. rewrite Forall_forall in F1, F2.
  destruct (zeros_ok z (jNele d1) M N1) as (Z1 & E1 & R1 & Q1). rewrite E1. cbn [rbind].
  destruct (zeros_ok z (jNele d2) M N2) as (Z2 & E2 & R2 & Q2). rewrite E2. cbn [rbind].
  rewrite pool_map_ok by auto.
  apply (reorder_fails P resp M (Z.to_nat (jNele d1)) (Z.to_nat (jNele d2))); auto.
  - apply Forall_forall. intros [[m i] a] H. apply in_app_iff in H. rewrite !tasks_of_in in H. cbn.
    destruct H as [(_ & H & Hm)|(_ & H & Hm)]; split; auto.
  - apply Exists_exists. rewrite !Exists_exists in HE. destruct HE as [(a & Ha & Hl)|(a & Ha & Hl)].
    + exists (0%nat, 1, a). rewrite in_app_iff, !tasks_of_in. split; [left; auto|]. cbn. lia.
    + exists (0%nat, 2, a). rewrite in_app_iff, !tasks_of_in. split; [right; auto|]. cbn. lia.
  - apply Forall_forall. intros [[m i] a] H. apply in_app_iff in H. rewrite !tasks_of_in in H. cbn. intuition.
Qed.

(* a strictly increasing list of non-negative integers either is 0..n-1 or has an element >= n *)
Lemma increasing_prefix_gen : forall l k, StronglySorted Z.lt l -> Forall (fun a => k <= a) l ->
  (forall a, In a l -> a < k + Z.of_nat (length l)) -> l = map (fun i => k + Z.of_nat i) (seq 0 (length l)).
Proof.
  induction l as [|x l IH]; intros k HS HF HB; [reflexivity|].
  apply StronglySorted_inv in HS. destruct HS as [HS Hx]. apply Forall_cons_iff in HF. destruct HF as [Hk HF].
  assert (x = k).
  { destruct l as [|y l']; [specialize (HB x (or_introl eq_refl)); cbn in HB; lia|].
    (* all of l are > x; if x > k then l is in (k+1, ..) with too many elements *)
    assert (T : forall l k x, StronglySorted Z.lt l -> Forall (Z.lt x) l -> (forall a, In a l -> a < k) -> x + Z.of_nat (length l) < k \/ l = []).
    { clear. induction l as [|y l IH]; intros k x HS HF HB; [now right|]. left.
      apply StronglySorted_inv in HS. destruct HS as [HS Hy]. apply Forall_cons_iff in HF. destruct HF as [Hxy HF].
      destruct (IH k y HS Hy (fun a h => HB a (or_intror h))) as [H| ->].
      - cbn [length]. lia.
      - cbn. specialize (HB y (or_introl eq_refl)). lia. }
    destruct (T (y :: l') (k + Z.of_nat (length (x :: y :: l'))) x HS Hx (fun a h => HB a (or_intror h))) as [H|H]; [|discriminate].
    cbn [length] in H. lia. }
  subst x. cbn [length seq map]. f_equal; [lia|].
  rewrite (IH (k + 1)) at 1; auto.
  - rewrite <- seq_shift, map_map. apply map_ext. intros; lia.
  - eapply Forall_impl; [|exact Hx]. cbn. intros; lia.
  - intros a Ha. specialize (HB a (or_intror Ha)). cbn [length] in HB. lia.
Qed.
Lemma increasing_prefix l : StronglySorted Z.lt l -> Forall (fun a => 0 <= a) l ->
  l = zrange (Z.of_nat (length l)) \/ Exists (fun a => Z.of_nat (length l) <= a) l.
Proof.
  intros HS HF. destruct (Exists_dec (fun a => Z.of_nat (length l) <= a) l) as [H|H]; [intros; apply Z_le_dec|now right|].
  left. rewrite (increasing_prefix_gen l 0) at 1; auto.
  - unfold zrange. rewrite Nat2Z.id. apply map_ext. intros; lia.
  - intros a Ha. apply Z.nle_gt. intros Hle. apply H. apply Exists_exists. exists a. split; auto.
Qed.
