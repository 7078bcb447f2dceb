From Verif Require Import Base CtrlModel CtrlSpec.
Open Scope Z_scope.

Lemma upd_nth_length {X} k (x : X) l : length (upd_nth k x l) = length l.
Proof. revert k; induction l as [|y l IH]; intros [|k]; cbn; auto. Qed.
Lemma nth_error_upd_same {X} k (x : X) l : (k < length l)%nat -> nth_error (upd_nth k x l) k = Some x.
Proof. revert k; induction l as [|y l IH]; intros [|k] H; cbn in *; try lia; auto. apply IH; lia. Qed.
Lemma nth_error_upd_other {X} k j (x : X) l : j <> k -> nth_error (upd_nth k x l) j = nth_error l j.
Proof.
  revert k j; induction l as [|y l IH]; intros [|k] [|j] H; cbn; auto; try congruence.
Qed.

Lemma np_index_ok n k : 0 <= k < n -> np_index n k = Ok (Z.to_nat k).
Proof. intros H. unfold np_index. replace ((0 <=? k) && (k <? n))%bool with true by lia. reflexivity. Qed.

Lemma gather_ok {X} (v : list X) idx : Forall (fun a => 0 <= a < Z.of_nat (length v)) idx ->
  exists u, gather v idx = Ok u /\ length u = length idx /\
    forall j a, nth_error idx j = Some a -> nth_error u j = nth_error v (Z.to_nat a).
Proof.
  induction idx as [|k idx IH]; intros H.
  - exists []. repeat split; auto. intros [|j] a E; discriminate.
  - apply Forall_cons_iff in H. destruct H as [Hk H]. destruct (IH H) as (u & E & L & N).
    cbn [gather]. rewrite np_index_ok by auto. cbn [rbind]. rewrite E. cbn [rbind].
    destruct (nth_error v (Z.to_nat k)) eqn:Ek.
    2:{ apply nth_error_None in Ek. lia. }
    exists (x :: u). split; [reflexivity|]. split; [cbn; lia|].
    intros [|j] a Ha; cbn in *.
    + injection Ha as <-. now rewrite Ek.
    + apply N; auto.
Qed.

Lemma scatter_pairs_ok {X} idx : forall (v vals : list X),
  Forall (fun a => 0 <= a < Z.of_nat (length v)) idx -> NoDup idx -> length vals = length idx ->
  exists w, scatter_pairs v idx vals = Ok w /\ length w = length v /\
    (forall j a, nth_error idx j = Some a -> nth_error w (Z.to_nat a) = nth_error vals j) /\
    (forall i, ~ In (Z.of_nat i) idx -> nth_error w i = nth_error v i).
Proof.
  induction idx as [|k idx IH]; intros v vals HF HN HL.
  - destruct vals; [|discriminate]. exists v. repeat split; auto. intros [|j] a; discriminate.
  - destruct vals as [|x vals]; [discriminate|].
    apply Forall_cons_iff in HF. destruct HF as [Hk HF]. apply NoDup_cons_iff in HN. destruct HN as [Hnin HN].
    cbn [scatter_pairs]. rewrite np_index_ok by auto. cbn [rbind].
    destruct (IH (upd_nth (Z.to_nat k) x v) vals) as (w & E & L & N & O); auto.
    { rewrite upd_nth_length. exact HF. }
    exists w. rewrite upd_nth_length in L. repeat split; auto.
    + intros [|j] a Ha; cbn in Ha.
      * injection Ha as <-. rewrite O by (rewrite Z2Nat.id by lia; auto).
        cbn. apply nth_error_upd_same. lia.
      * cbn. apply N; auto.
    + intros i Hi. rewrite O by (intros Hin; apply Hi; right; auto).
      apply nth_error_upd_other. intros ->. apply Hi. left. lia.
Qed.

Lemma select_false {X} m (v : list X) : Forall (fun b => b = false) m -> select m v = [].
Proof. revert v; induction m as [|b m IH]; intros [|x v] H; auto. apply Forall_cons_iff in H. destruct H as [-> H]. cbn. auto. Qed.
Lemma select_true {X} m (v : list X) : Forall (fun b => b = true) m -> select m v = firstn (length m) v.
Proof. revert v; induction m as [|b m IH]; intros [|x v] H; auto. apply Forall_cons_iff in H. destruct H as [-> H]. cbn. f_equal; auto. Qed.
Lemma select_app {X} m1 m2 (v : list X) : (length m1 <= length v)%nat ->
  select (m1 ++ m2) v = select m1 (firstn (length m1) v) ++ select m2 (skipn (length m1) v).
Proof.
  revert v; induction m1 as [|b m1 IH]; intros v H; [reflexivity|].
  destruct v as [|x v]; [cbn in H; lia|]. cbn in H. cbn. rewrite IH by lia. destruct b; reflexivity.
Qed.
Lemma select_block {X} pre mid suf (v : list X) :
  Forall (fun b => b = false) pre -> Forall (fun b => b = true) mid -> Forall (fun b => b = false) suf ->
  (length pre + length mid + length suf = length v)%nat ->
  select (pre ++ mid ++ suf) v = firstn (length mid) (skipn (length pre) v).
Proof.
  intros Hp Hm Hs HL. rewrite select_app by lia. rewrite (select_false pre) by auto. cbn [app].
  rewrite select_app by (rewrite skipn_length; lia). rewrite (select_false suf) by auto. rewrite app_nil_r.
  rewrite select_true by auto. rewrite firstn_firstn. f_equal. lia.
Qed.

Lemma Forall_repeat_map (k c : Z) (b : bool) n : (c =? k) = b ->
  Forall (fun x => x = b) (map (fun l => l =? k) (repeat c n)).
Proof. intros H. induction n; cbn; constructor; auto. Qed.

Lemma nth_error_skipn' {X} n k (l : list X) : nth_error (skipn n l) k = nth_error l (n + k)%nat.
Proof. revert l; induction n as [|n IH]; intros [|x l]; cbn; auto. now destruct k. Qed.
Lemma nth_error_firstn' {X} n k (l : list X) : (k < n)%nat -> nth_error (firstn n l) k = nth_error l k.
Proof. revert k l; induction n as [|n IH]; intros [|k] [|x l] H; cbn; auto; try lia. apply IH; lia. Qed.
Lemma nth_error_repeat' {X} (x : X) n k : (k < n)%nat -> nth_error (repeat x n) k = Some x.
Proof. revert k; induction n as [|n IH]; intros [|k] H; cbn; auto; try lia. apply IH; lia. Qed.

Section P.
  Context {A : Type}.

  Lemma dm_cases (mp : mp_t A) k d : get_dm mp k = Some d ->
    (k = 1 /\ d = dm1 mp) \/ (k = 2 /\ d = dm2 mp) \/ (k = 8 /\ d = dm8 mp) \/ (k = 9 /\ d = dm9 mp).
  Proof.
    unfold get_dm. destruct (Z.eqb_spec k 1); [intros [= <-]; auto|].
    destruct (Z.eqb_spec k 2); [intros [= <-]; auto|].
    destruct (Z.eqb_spec k 8); [intros [= <-]; auto|].
    destruct (Z.eqb_spec k 9); [intros [= <-]; auto 6|discriminate].
  Qed.

  Lemma legend_length (mp : mp_t A) : length (legend mp) = total mp.
  Proof. unfold legend, total. rewrite !app_length, !repeat_length. lia. Qed.

  Lemma take_ok (b : bool) (v : list A) n act :
    (b = true -> Z.of_nat (length v) = n /\ Forall (fun a => 0 <= a < n) act) ->
    exists u, (if b then (do w <- reshape1 A v n; gather w act) else Ok []) = Ok u /\
      length u = (if b then length act else 0)%nat /\
      (b = true -> forall j a, nth_error act j = Some a -> nth_error u j = nth_error v (Z.to_nat a)).
  Proof.
    destruct b; intros H.
    - destruct (H eq_refl) as [HL HF]. unfold reshape1. rewrite HL, Z.eqb_refl. cbn [rbind].
      rewrite <- HL in HF. destruct (gather_ok v act HF) as (u & E & L & N). eauto.
    - exists []. repeat split; auto. discriminate.
  Qed.
  Lemma label_ok (b : bool) c n (act : list Z) : (b = true -> n = Z.of_nat (length act)) ->
    (if b then label c n else Ok []) = Ok (repeat c (if b then length act else 0)%nat).
  Proof.
    destruct b; intros H; auto. rewrite (H eq_refl). unfold label.
    replace (Z.of_nat (@length Z act) <? 0) with false by lia. now rewrite Nat2Z.id.
  Qed.

  Lemma init_ok (mp : mp_t A) : wf_mp mp ->
    (used mp 8 = true -> Z.of_nat (length (V (dm9 mp))) = NactTotal (dm8 mp)) ->
    exists cv, init mp = Ok cv /\ uLegend cv = legend mp /\ length (uVec cv) = total mp /\
      forall k d j a, used mp k = true -> get_dm mp k = Some d -> nth_error (act_ele d) j = Some a ->
        nth_error (uVec cv) (offset mp k + j) =
        nth_error (if k =? 8 then V (dm9 mp) else V d) (Z.to_nat a).
  Proof.
    intros Hwf H8. unfold init.
    assert (W : forall k d, get_dm mp k = Some d -> used mp k = true -> wf_dm d)
      by (intros k d Hg Hu; exact (Hwf k d Hu Hg)).
    pose proof (W 1 (dm1 mp) eq_refl) as W1. pose proof (W 2 (dm2 mp) eq_refl) as W2.
    pose proof (W 8 (dm8 mp) eq_refl) as W8. pose proof (W 9 (dm9 mp) eq_refl) as W9.
    destruct (take_ok (used mp 1) (V (dm1 mp)) (NactTotal (dm1 mp)) (act_ele (dm1 mp))) as (u1 & E1 & L1 & N1).
    { intros Hu. destruct (W1 Hu) as (? & ? & ? & ?). auto. }
    destruct (take_ok (used mp 2) (V (dm2 mp)) (NactTotal (dm2 mp)) (act_ele (dm2 mp))) as (u2 & E2 & L2 & N2).
    { intros Hu. destruct (W2 Hu) as (? & ? & ? & ?). auto. }
    destruct (take_ok (used mp 8) (V (dm9 mp)) (NactTotal (dm8 mp)) (act_ele (dm8 mp))) as (u8 & E8 & L8 & N8).
    { intros Hu. destruct (W8 Hu) as (? & ? & ? & ?). auto. }
    destruct (take_ok (used mp 9) (V (dm9 mp)) (NactTotal (dm9 mp)) (act_ele (dm9 mp))) as (u9 & E9 & L9 & N9).
    { intros Hu. destruct (W9 Hu) as (? & ? & ? & ?). auto. }
    rewrite E1; cbn [rbind]. rewrite E2; cbn [rbind]. rewrite E8; cbn [rbind]. rewrite E9; cbn [rbind].
    rewrite (label_ok (used mp 1) 1 _ (act_ele (dm1 mp))) by (intros Hu; destruct (W1 Hu) as (? & ? & ? & ?); auto). cbn [rbind].
    rewrite (label_ok (used mp 2) 2 _ (act_ele (dm2 mp))) by (intros Hu; destruct (W2 Hu) as (? & ? & ? & ?); auto). cbn [rbind].
    rewrite (label_ok (used mp 8) 8 _ (act_ele (dm8 mp))) by (intros Hu; destruct (W8 Hu) as (? & ? & ? & ?); auto). cbn [rbind].
    rewrite (label_ok (used mp 9) 9 _ (act_ele (dm9 mp))) by (intros Hu; destruct (W9 Hu) as (? & ? & ? & ?); auto). cbn [rbind].
    change (if used mp 1 then length (act_ele (dm1 mp)) else 0%nat) with (nvars mp 1) in *.
    change (if used mp 2 then length (act_ele (dm2 mp)) else 0%nat) with (nvars mp 2) in *.
    change (if used mp 8 then length (act_ele (dm8 mp)) else 0%nat) with (nvars mp 8) in *.
    change (if used mp 9 then length (act_ele (dm9 mp)) else 0%nat) with (nvars mp 9) in *.
    eexists; split; [reflexivity|]. cbn [uLegend uVec]. split; [reflexivity|].
    split; [rewrite !app_length; unfold total; lia|].
    intros k d j a Hu Hg Hj.
    assert (Hjl : (j < length (act_ele d))%nat) by (apply nth_error_Some; congruence).
    destruct (dm_cases mp k d Hg) as [[-> ->]|[[-> ->]|[[-> ->]|[-> ->]]]]; unfold offset; cbn [Z.ltb Z.eqb Z.compare Pos.eqb Pos.compare Pos.compare_cont].
    - assert (nvars mp 1 = length (act_ele (dm1 mp))) by (unfold nvars; rewrite Hu; reflexivity).
      rewrite nth_error_app1 by lia. apply N1; auto.
    - assert (nvars mp 2 = length (act_ele (dm2 mp))) by (unfold nvars; rewrite Hu; reflexivity).
      rewrite nth_error_app2, nth_error_app1 by lia. rewrite <- (N2 Hu j a Hj). f_equal. lia.
    - assert (nvars mp 8 = length (act_ele (dm8 mp))) by (unfold nvars; rewrite Hu; reflexivity).
      rewrite nth_error_app2, nth_error_app2, nth_error_app1 by lia. rewrite <- (N8 Hu j a Hj). f_equal. lia.
    - assert (nvars mp 9 = length (act_ele (dm9 mp))) by (unfold nvars; rewrite Hu; reflexivity).
      rewrite nth_error_app2, nth_error_app2, nth_error_app2 by lia. rewrite <- (N9 Hu j a Hj). f_equal. lia.
  Qed.

  Lemma legend_split (mp : mp_t A) k d : used mp k = true -> get_dm mp k = Some d ->
    exists pre mid suf, map (fun l => l =? k) (legend mp) = pre ++ mid ++ suf /\
      Forall (fun b => b = false) pre /\ Forall (fun b => b = true) mid /\ Forall (fun b => b = false) suf /\
      length pre = offset mp k /\ length mid = length (act_ele d).
  Proof.
    intros Hu Hg.
    assert (Hn : nvars mp k = length (act_ele d)) by (unfold nvars; now rewrite Hu, Hg).
    unfold legend. rewrite !map_app.
    destruct (dm_cases mp k d Hg) as [[-> ->]|[[-> ->]|[[-> ->]|[-> ->]]]]; unfold offset;
      cbn [Z.ltb Z.compare Pos.compare Pos.compare_cont].
    - exists [], (map (fun l => l =? 1) (repeat 1 (nvars mp 1))), 
        (map (fun l => l =? 1) (repeat 2 (nvars mp 2)) ++ map (fun l => l =? 1) (repeat 8 (nvars mp 8)) ++
         map (fun l => l =? 1) (repeat 9 (nvars mp 9))).
      rewrite !Forall_app. repeat split; auto; try (apply Forall_repeat_map; reflexivity).
      rewrite map_length, repeat_length. auto.
    - exists (map (fun l => l =? 2) (repeat 1 (nvars mp 1))), (map (fun l => l =? 2) (repeat 2 (nvars mp 2))), 
        (map (fun l => l =? 2) (repeat 8 (nvars mp 8)) ++
         map (fun l => l =? 2) (repeat 9 (nvars mp 9))).
      rewrite !Forall_app. repeat split; auto; try (apply Forall_repeat_map; reflexivity);
      rewrite map_length, repeat_length; lia.
    - exists (map (fun l => l =? 8) (repeat 1 (nvars mp 1)) ++ map (fun l => l =? 8) (repeat 2 (nvars mp 2))), 
        (map (fun l => l =? 8) (repeat 8 (nvars mp 8))), (map (fun l => l =? 8) (repeat 9 (nvars mp 9))).
      rewrite !Forall_app, <- !app_assoc. repeat split; auto; try (apply Forall_repeat_map; reflexivity);
      rewrite ?app_length, !map_length, !repeat_length; lia.
    - exists (map (fun l => l =? 9) (repeat 1 (nvars mp 1)) ++ map (fun l => l =? 9) (repeat 2 (nvars mp 2)) ++
         map (fun l => l =? 9) (repeat 8 (nvars mp 8))), (map (fun l => l =? 9) (repeat 9 (nvars mp 9))), [].
      rewrite !Forall_app, app_nil_r, <- !app_assoc. repeat split; auto; try (apply Forall_repeat_map; reflexivity);
      rewrite ?app_length, !map_length, !repeat_length; lia.
  Qed.

  (* ---- positions are a bijection ---- *)
  Lemma position_cover (mp : mp_t A) p : (p < total mp)%nat ->
    exists k d j, used mp k = true /\ get_dm mp k = Some d /\ (j < length (act_ele d))%nat /\
      p = (offset mp k + j)%nat.
  Proof.
    intros Hp. unfold total in Hp.
    assert (Aux : forall k d, get_dm mp k = Some d -> forall j, (j < nvars mp k)%nat ->
        used mp k = true /\ (j < length (act_ele d))%nat).
    { intros k d Hg j Hj. unfold nvars in Hj. destruct (used mp k); [|lia]. rewrite Hg in Hj. auto. }
    destruct (Nat.lt_ge_cases p (nvars mp 1)) as [H1|H1].
    { destruct (Aux 1 (dm1 mp) eq_refl p H1). exists 1, (dm1 mp), p. repeat split; auto. }
    destruct (Nat.lt_ge_cases p (nvars mp 1 + nvars mp 2)) as [H2|H2].
    { destruct (Aux 2 (dm2 mp) eq_refl (p - nvars mp 1)%nat ltac:(lia)). exists 2, (dm2 mp), (p - nvars mp 1)%nat.
      repeat split; auto. unfold offset; cbn; lia. }
    destruct (Nat.lt_ge_cases p (nvars mp 1 + nvars mp 2 + nvars mp 8)) as [H3|H3].
    { destruct (Aux 8 (dm8 mp) eq_refl (p - nvars mp 1 - nvars mp 2)%nat ltac:(lia)).
      exists 8, (dm8 mp), (p - nvars mp 1 - nvars mp 2)%nat. repeat split; auto. unfold offset; cbn; lia. }
    destruct (Aux 9 (dm9 mp) eq_refl (p - nvars mp 1 - nvars mp 2 - nvars mp 8)%nat ltac:(lia)).
    exists 9, (dm9 mp), (p - nvars mp 1 - nvars mp 2 - nvars mp 8)%nat. repeat split; auto. unfold offset; cbn; lia.
  Qed.

  Lemma position_inj (mp : mp_t A) k d j k' d' j' :
    used mp k = true -> get_dm mp k = Some d -> (j < length (act_ele d))%nat ->
    used mp k' = true -> get_dm mp k' = Some d' -> (j' < length (act_ele d'))%nat ->
    (offset mp k + j = offset mp k' + j')%nat -> k = k' /\ j = j'.
  Proof.
    intros Hu Hg Hj Hu' Hg' Hj' E.
    assert (N : nvars mp k = length (act_ele d)) by (unfold nvars; now rewrite Hu, Hg).
    assert (N' : nvars mp k' = length (act_ele d')) by (unfold nvars; now rewrite Hu', Hg').
    unfold offset in E.
    destruct (dm_cases mp k d Hg) as [[-> _]|[[-> _]|[[-> _]|[-> _]]]];
    destruct (dm_cases mp k' d' Hg') as [[-> _]|[[-> _]|[[-> _]|[-> _]]]]; cbn in E; split; lia.
  Qed.

  Lemma legend_at (mp : mp_t A) k d j : used mp k = true -> get_dm mp k = Some d -> (j < length (act_ele d))%nat ->
    nth_error (legend mp) (offset mp k + j) = Some k.
  Proof.
    intros Hu Hg Hj.
    assert (N : nvars mp k = length (act_ele d)) by (unfold nvars; now rewrite Hu, Hg).
    unfold legend, offset.
    destruct (dm_cases mp k d Hg) as [[-> _]|[[-> _]|[[-> _]|[-> _]]]]; cbn [Z.ltb Z.compare Pos.compare Pos.compare_cont].
    - rewrite nth_error_app1 by (rewrite repeat_length; lia). apply nth_error_repeat'; lia.
    - rewrite nth_error_app2, nth_error_app1 by (rewrite ?repeat_length; lia). apply nth_error_repeat'; rewrite ?repeat_length; lia.
    - rewrite nth_error_app2, nth_error_app2, nth_error_app1 by (rewrite ?repeat_length; lia). apply nth_error_repeat'; rewrite ?repeat_length; lia.
    - rewrite nth_error_app2, nth_error_app2, nth_error_app2 by (rewrite ?repeat_length; lia). apply nth_error_repeat'; rewrite ?repeat_length; lia.
  Qed.

End P.

Section Q.
  Context {A : Type} (zero : A) (add mul : A -> A -> A).
  Notation wrapup := (wrapup A zero add mul).
  Notation unpack := (unpack A zero mul).

  Lemma unpack_ok (mp : mp_t A) k d duVec : wf_mp mp -> used mp k = true -> get_dm mp k = Some d ->
    length duVec = total mp ->
    exists x, unpack d k (legend mp) duVec = Ok x /\ Z.of_nat (length x) = NactTotal d /\
      (forall j a, nth_error (act_ele d) j = Some a ->
         exists u, nth_error duVec (offset mp k + j) = Some u /\
                   nth_error x (Z.to_nat a) = Some (mul (weight d) u)) /\
      (forall i, 0 <= i < NactTotal d -> ~ In i (act_ele d) -> nth_error x (Z.to_nat i) = Some zero).
  Proof.
    intros Hwf Hu Hg HL. destruct (Hwf k d Hu Hg) as (W1 & W2 & W3 & W4).
    unfold CtrlModel.unpack. replace (NactTotal d <? 0) with false by lia.
    rewrite legend_length, HL, Nat.eqb_refl. cbn [negb].
    destruct (legend_split mp k d Hu Hg) as (pre & mid & suf & E & P1 & P2 & P3 & L1 & L2).
    assert (HLL : (length pre + length mid + length suf)%nat = length duVec).
    { rewrite HL, <- legend_length, <- (map_length (fun l => l =? k)), E, !app_length. lia. }
    rewrite E, select_block by auto. rewrite L1, L2.
    set (sel := map (mul (weight d)) (firstn (length (act_ele d)) (skipn (offset mp k) duVec))).
    assert (Hsel : length sel = length (act_ele d)).
    { unfold sel. rewrite map_length, firstn_length, skipn_length. lia. }
    unfold scatter. rewrite Hsel, Nat.eqb_refl.
    destruct (scatter_pairs_ok (act_ele d) (repeat zero (Z.to_nat (NactTotal d))) sel) as (w & Ew & Lw & Nw & Ow); auto.
    { rewrite repeat_length, Z2Nat.id by lia. exact W3. }
    exists w. rewrite repeat_length in Lw. split; [exact Ew|]. split; [lia|]. split.
    - intros j a Hj. assert (Hjl : (j < length (act_ele d))%nat) by (apply nth_error_Some; congruence).
      rewrite (Nw j a Hj). unfold sel. rewrite nth_error_map, nth_error_firstn' by lia.
      rewrite nth_error_skipn'.
      destruct (nth_error duVec (offset mp k + j)) eqn:Ed.
      + eexists; split; reflexivity.
      + apply nth_error_None in Ed. lia.
    - intros i Hi Hnin. rewrite Ow by (rewrite Z2Nat.id by lia; auto). apply nth_error_repeat'. lia.
  Qed.

  Notation updated := (updated add).

  Lemma vadd_ok (a b : list A) : length a = length b ->
    exists v, vadd A add a b = Ok v /\ length v = length a /\
      forall i x y, nth_error a i = Some x -> nth_error b i = Some y -> nth_error v i = Some (add x y).
  Proof.
    intros H. unfold vadd. rewrite H, Nat.eqb_refl. eexists; split; [reflexivity|].
    split; [rewrite map_length, combine_length; lia|].
    clear H. revert b. induction a as [|x a IH]; intros [|y b] [|i] p q Hp Hq; try discriminate; cbn in *.
    - now injection Hp as ->; injection Hq as ->.
    - eapply IH; eauto.
  Qed.

  Lemma comb_ok (d : dm A) x : Z.of_nat (length (V d)) = NactTotal d -> Z.of_nat (length x) = NactTotal d ->
    exists d', (do v <- vadd A add (V d) x; Ok (set_V d v)) = Ok d' /\ updated d x d'.
  Proof.
    intros H1 H2. destruct (vadd_ok (V d) x) as (v & E & L & N); [lia|].
    rewrite E. cbn [rbind]. eexists; split; [reflexivity|]. exists v. auto.
  Qed.

  Lemma wrapup_ok (mp : mp_t A) cv duVec : wf_mp mp -> uLegend cv = legend mp ->
    length duVec = total mp ->
    exists mp' dd, wrapup mp cv duVec = Ok (mp', dd) /\ dm_ind mp' = dm_ind mp /\
      forall k d, get_dm mp k = Some d -> exists d', get_dm mp' k = Some d' /\
       (used mp k = false -> get_delta dd k = None /\ d' = d) /\
       (used mp k = true -> exists x, get_delta dd k = Some x /\ Z.of_nat (length x) = NactTotal d /\
         (forall j a, nth_error (act_ele d) j = Some a ->
            exists u, nth_error duVec (offset mp k + j) = Some u /\
                      nth_error x (Z.to_nat a) = Some (mul (weight d) u)) /\
         (forall i, 0 <= i < NactTotal d -> ~ In i (act_ele d) -> nth_error x (Z.to_nat i) = Some zero) /\
         updated d x d').
  Proof.
    intros Hwf HLg HL. unfold CtrlModel.wrapup, un, comb. rewrite HLg.
    assert (Key : forall k d, get_dm mp k = Some d -> exists o d',
      (if used mp k then (do x <- unpack d k (legend mp) duVec; Ok (Some x)) else Ok None) = Ok o /\
      match o with Some x => do v <- vadd A add (V d) x; Ok (set_V d v) | None => Ok d end = Ok d' /\
      (used mp k = false -> o = None /\ d' = d) /\
      (used mp k = true -> exists x, o = Some x /\ Z.of_nat (length x) = NactTotal d /\
         (forall j a, nth_error (act_ele d) j = Some a ->
            exists u, nth_error duVec (offset mp k + j) = Some u /\
                      nth_error x (Z.to_nat a) = Some (mul (weight d) u)) /\
         (forall i, 0 <= i < NactTotal d -> ~ In i (act_ele d) -> nth_error x (Z.to_nat i) = Some zero) /\
         updated d x d')).
    { intros k d Hg. destruct (used mp k) eqn:Hu.
      - destruct (unpack_ok mp k d duVec Hwf Hu Hg HL) as (x & E & Lx & N & Z0).
        rewrite E. cbn [rbind].
        destruct (comb_ok d x) as (d' & Ed & Hup); auto.
        { exact (proj1 (Hwf k d Hu Hg)). }
        exists (Some x), d'. split; [reflexivity|]. split; [exact Ed|].
        split; [discriminate|]. intros _. exists x. repeat split; auto.
      - exists None, d. repeat split; auto. discriminate. }
    destruct (Key 1 (dm1 mp) eq_refl) as (o1 & d1' & A1 & B1 & C1 & D1).
    destruct (Key 2 (dm2 mp) eq_refl) as (o2 & d2' & A2 & B2 & C2 & D2).
    destruct (Key 8 (dm8 mp) eq_refl) as (o8 & d8' & A8 & B8 & C8 & D8).
    destruct (Key 9 (dm9 mp) eq_refl) as (o9 & d9' & A9 & B9 & C9 & D9).
    rewrite A1; cbn [rbind]. rewrite A2; cbn [rbind]. rewrite A8; cbn [rbind]. rewrite A9; cbn [rbind].
    rewrite B1; cbn [rbind]. rewrite B2; cbn [rbind]. rewrite B8; cbn [rbind]. rewrite B9; cbn [rbind].
    eexists; eexists; split; [reflexivity|]. split; [reflexivity|].
    intros k d Hg.
    destruct (dm_cases mp k d Hg) as [[-> ->]|[[-> ->]|[[-> ->]|[-> ->]]]];
      eexists; (split; [reflexivity|]); split; assumption.
  Qed.

  (* ---- one candidate evaluation leaves everything unchanged ---- *)
  Lemma efc_eval_restores {I} (solve : cvar_t A -> list A) (image : mp_t A -> dDM_t A -> I) mp mp' r :
    efc_eval A zero add mul solve image mp = Ok (mp', r) -> mp' = mp.
  Proof.
    unfold efc_eval. destruct (init mp) as [cv|e]; cbn [rbind]; [|discriminate].
    unfold CtrlModel.wrapup. cbv zeta.
    set (un := un A zero mul mp cv (solve cv)).
    assert (HU : forall k d o, un k d = Ok o -> (used mp k = true \/ o = None)).
    { intros k d o. unfold un, CtrlModel.un. destruct (used mp k); auto. intros [= <-]. auto. }
    destruct (un 1 (dm1 mp)) as [o1|e] eqn:U1; cbn [rbind]; [|intros HH; discriminate HH].
    destruct (un 2 (dm2 mp)) as [o2|e] eqn:U2; cbn [rbind]; [|intros HH; discriminate HH].
    destruct (un 8 (dm8 mp)) as [o8|e] eqn:U8; cbn [rbind]; [|intros HH; discriminate HH].
    destruct (un 9 (dm9 mp)) as [o9|e] eqn:U9; cbn [rbind]; [|intros HH; discriminate HH].
    set (comb := comb A add).
    assert (HC : forall d o d', comb d o = Ok d' -> d' = d /\ o = None \/ exists v, d' = set_V d v).
    { intros d [x|] d'; unfold comb, CtrlModel.comb.
      - destruct (vadd A add (V d) x); cbn [rbind]; [|discriminate]. intros [= <-]. eauto.
      - intros [= <-]. auto. }
    destruct (comb (dm1 mp) o1) as [d1|e] eqn:C1; cbn [rbind]; [|intros HH; discriminate HH].
    destruct (comb (dm2 mp) o2) as [d2|e] eqn:C2; cbn [rbind]; [|intros HH; discriminate HH].
    destruct (comb (dm8 mp) o8) as [d8|e] eqn:C8; cbn [rbind]; [|intros HH; discriminate HH].
    destruct (comb (dm9 mp) o9) as [d9|e] eqn:C9; cbn [rbind]; [|intros HH; discriminate HH].
    intros [= <- _]. cbn [dm_ind dm1 dm2 dm8 dm9]. destruct mp as [di m1 m2 m8 m9].
    cbn [dm_ind dm1 dm2 dm8 dm9] in *. unfold used in *; cbn [dm_ind] in *.
    assert (Fin : forall k (d d' : dm A) o, un k d = Ok o -> comb d o = Ok d' ->
       (if existsb (Z.eqb k) di then set_V d' (V d) else d') = d).
    { intros k d d' o Hun Hc. destruct (HC _ _ _ Hc) as [[-> ->]|[v ->]].
      - destruct (existsb (Z.eqb k) di); destruct d; reflexivity.
      - destruct (HU _ _ _ Hun) as [Hx| ->].
        + rewrite Hx. destruct d; reflexivity.
        + cbn in Hc. injection Hc as Hc. rewrite <- Hc. destruct (existsb (Z.eqb k) di); destruct d; reflexivity. }
    f_equal; eapply Fin; eassumption.
  Qed.
End Q.
