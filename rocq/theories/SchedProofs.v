From Verif Require Import Base RBase SchedModel SchedSpec.
Open Scope Z_scope.

(* ---------------- schedule generator ---------------- *)
Lemma nth_error_ext {X} (a b : list X) : (forall k, nth_error a k = nth_error b k) -> a = b.
Proof.
  revert b; induction a as [|x a IH]; intros [|y b] H; auto.
  - specialize (H 0%nat); discriminate.
  - specialize (H 0%nat); discriminate.
  - pose proof (H 0%nat) as H0. cbn in H0. injection H0 as ->. f_equal. apply IH.
    intros k. exact (H (S k)).
Qed.
Lemma nth_error_combine {X Y} (a : list X) (b : list Y) k :
  nth_error (combine a b) k =
  match nth_error a k, nth_error b k with Some x, Some y => Some (x, y) | _, _ => None end.
Proof.
  revert b k; induction a as [|x a IH]; intros [|y b] [|k]; cbn; auto.
  - destruct (nth_error a k); auto.
Qed.
Lemma nth_error_repeat_lt {X} (x : X) n k : (k < n)%nat -> nth_error (repeat x n) k = Some x.
Proof. revert k; induction n as [|n IH]; intros [|k] H; cbn; auto; try lia. apply IH; lia. Qed.
Lemma nth_error_repeat_ge {X} (x : X) n k : (n <= k)%nat -> nth_error (repeat x n) k = None.
Proof. intros. apply nth_error_None. now rewrite repeat_length. Qed.
Lemma nth_error_zrange n k : nth_error (zrange n) k = if Nat.ltb k (Z.to_nat n) then Some (Z.of_nat k) else None.
Proof.
  unfold zrange. rewrite nth_error_map. destruct (Nat.ltb_spec k (Z.to_nat n)).
  - rewrite nth_error_nth' with (d := 0%nat) by (rewrite seq_length; lia). cbn. rewrite seq_nth by lia. reflexivity.
  - rewrite (proj2 (nth_error_None _ _)) by (rewrite seq_length; lia). reflexivity.
Qed.

Lemma set_range_app {X} (l1 : list X) z m d x : (d <= m)%nat ->
  set_range (l1 ++ repeat z m) (Z.of_nat (length l1)) (Z.of_nat (length l1) + Z.of_nat d) x
  = (l1 ++ repeat x d) ++ repeat z (m - d).
Proof.
  intros Hd. unfold set_range.
  set (v := l1 ++ repeat z m).
  assert (Hv : length v = (length l1 + m)%nat) by (unfold v; now rewrite app_length, repeat_length).
  assert (Hb1 : slice_bound (Z.of_nat (length v)) (Z.of_nat (length l1)) = Z.of_nat (length l1)).
  { unfold slice_bound. rewrite Hv. destruct (Z.ltb_spec (Z.of_nat (length l1)) 0); lia. }
  assert (Hb2 : slice_bound (Z.of_nat (length v)) (Z.of_nat (length l1) + Z.of_nat d)
                = Z.of_nat (length l1 + d)).
  { unfold slice_bound. rewrite Hv. destruct (Z.ltb_spec (Z.of_nat (length l1) + Z.of_nat d) 0); lia. }
  rewrite Hb1, Hb2.
  apply nth_error_ext; intros k.
  rewrite nth_error_map, nth_error_combine, nth_error_zrange, Nat2Z.id.
  destruct (Nat.ltb_spec k (length v)) as [Hk|Hk].
  - unfold v. destruct (Nat.lt_ge_cases k (length l1)) as [H1|H1].
    + rewrite nth_error_app1 by auto.
      rewrite (nth_error_app1 (l1 ++ repeat x d)) by (rewrite app_length; lia).
      rewrite nth_error_app1 by auto.
      destruct (nth_error l1 k) eqn:E; cbn; auto.
      replace (Z.of_nat (length l1) <=? Z.of_nat k) with false by lia. reflexivity.
    + rewrite nth_error_app2 by auto.
      rewrite (nth_error_repeat_lt z) by lia. cbn.
      destruct (Nat.lt_ge_cases k (length l1 + d)) as [H2|H2].
      * rewrite (nth_error_app1 (l1 ++ repeat x d)) by (rewrite app_length, repeat_length; lia).
        rewrite nth_error_app2 by auto. rewrite nth_error_repeat_lt by lia.
        replace ((Z.of_nat (length l1) <=? Z.of_nat k) && (Z.of_nat k <? Z.of_nat (length l1 + d)))%bool
          with true by lia. reflexivity.
      * rewrite (nth_error_app2 (l1 ++ repeat x d)) by (rewrite app_length, repeat_length; lia).
        rewrite app_length, repeat_length. rewrite nth_error_repeat_lt by lia.
        replace ((Z.of_nat (length l1) <=? Z.of_nat k) && (Z.of_nat k <? Z.of_nat (length l1 + d)))%bool
          with false by lia. reflexivity.
  - cbn. symmetry. apply nth_error_None. rewrite !app_length, !repeat_length. lia.
Qed.

Lemma set_range_nop {X} (l : list X) a x : 0 <= a -> set_range l a (a + 0) x = l.
Proof.
  intros Ha. unfold set_range. rewrite Z.add_0_r.
  apply nth_error_ext; intros k. rewrite nth_error_map, nth_error_combine, nth_error_zrange, Nat2Z.id.
  destruct (Nat.ltb_spec k (length l)) as [Hk|Hk].
  - destruct (nth_error l k) eqn:E; [|reflexivity]. cbn. f_equal.
    match goal with |- (if ?b then _ else _) = _ => replace b with false by lia end. reflexivity.
  - cbn. symmetry. now apply nth_error_None.
Qed.

Lemma map_repeat {X Y} (f : X -> Y) x n : map f (repeat x n) = repeat (f x) n.
Proof. induction n; cbn; congruence. Qed.

Section Gen.
  Context {C : Type} (czero : C).

  Definition flag_list (flag : row C -> Z) (rows : list (row C)) : list Z :=
    snd (fold_left (fun '(it, l) r =>
        (it + r_count r, if flag r =? 1 then l ++ [it] else l)) rows (0, [])).

  Lemma expand_app (p q : list (row C)) : expand (p ++ q) = expand p ++ expand q.
  Proof. unfold expand. apply flat_map_app. Qed.
  Lemma expand_one (r : row C) : expand [r] = repeat r (Z.to_nat (r_count r)).
  Proof. cbn. apply app_nil_r. Qed.

  Definition flags_of (flag : row C -> Z) : list (row C) -> Z -> list Z :=
    fix go rows it := match rows with
      | [] => []
      | r :: t => (if flag r =? 1 then [it] else []) ++ go t (it + r_count r)
      end.

  Lemma sg_fold rows : forall p relin grid N,
    nonneg_rows rows -> 
    (length (expand p) + length (expand rows) = N)%nat ->
    fold_left sg_row rows
      (Z.of_nat (length (expand p)), relin, grid,
       map r_reg (expand p) ++ repeat czero (N - length (expand p)),
       map r_dms (expand p) ++ repeat 0 (N - length (expand p)))
    = (Z.of_nat (length (expand (p ++ rows))),
       relin ++ flags_of r_relin rows (Z.of_nat (length (expand p))),
       grid ++ flags_of r_grid rows (Z.of_nat (length (expand p))),
       map r_reg (expand (p ++ rows)), map r_dms (expand (p ++ rows))).
  Proof.
    induction rows as [|r rows IH]; intros p relin grid N Hnn HN.
    - cbn [fold_left flags_of]. rewrite !app_nil_r. cbn in HN.
      replace (N - length (expand p))%nat with 0%nat by lia. cbn. now rewrite !app_nil_r.
    - cbn [fold_left]. apply Forall_cons_iff in Hnn. destruct Hnn as [Hr Hnn].
      pose proof (expand_one r) as E1.
      assert (EA : expand (r :: rows) = repeat r (Z.to_nat (r_count r)) ++ expand rows).
      { reflexivity. }
      assert (EP : expand (p ++ [r]) = expand p ++ repeat r (Z.to_nat (r_count r)))
        by (rewrite expand_app, E1; reflexivity).
      rewrite EA, app_length, repeat_length in HN.
      assert (STEP : sg_row (Z.of_nat (length (expand p)), relin, grid,
           map r_reg (expand p) ++ repeat czero (N - length (expand p)),
           map r_dms (expand p) ++ repeat 0 (N - length (expand p))) r =
        (Z.of_nat (length (expand (p ++ [r]))),
         (if r_relin r =? 1 then relin ++ [Z.of_nat (length (expand p))] else relin),
         (if r_grid r =? 1 then grid ++ [Z.of_nat (length (expand p))] else grid),
         map r_reg (expand (p ++ [r])) ++ repeat czero (N - length (expand (p ++ [r]))),
         map r_dms (expand (p ++ [r])) ++ repeat 0 (N - length (expand (p ++ [r]))))).
      { unfold sg_row. rewrite EP, app_length, repeat_length.
        replace (Z.of_nat (length (expand p) + Z.to_nat (r_count r)))
          with (Z.of_nat (length (expand p)) + r_count r) by lia.
        destruct (Z.eqb_spec (r_count r) 0) as [H0|H0]; cbn [negb].
        - rewrite H0. cbn [Z.to_nat repeat]. rewrite app_nil_r, Nat.add_0_r. reflexivity.
        - rewrite !map_app, !map_repeat.
          pose proof (set_range_app (map r_reg (expand p)) czero (N - length (expand p))
                       (Z.to_nat (r_count r)) (r_reg r) ltac:(lia)) as S1.
          pose proof (set_range_app (map r_dms (expand p)) 0 (N - length (expand p))
                       (Z.to_nat (r_count r)) (r_dms r) ltac:(lia)) as S2.
          rewrite map_length, Z2Nat.id in S1, S2 by lia. rewrite S1, S2.
          replace (N - length (expand p) - Z.to_nat (r_count r))%nat
            with (N - (length (expand p) + Z.to_nat (r_count r)))%nat by lia.
          reflexivity. }
      rewrite STEP.
      rewrite (IH (p ++ [r])); auto.
      2:{ rewrite EP, app_length, repeat_length. lia. }
      rewrite <- app_assoc. cbn [app flags_of].
      replace (Z.of_nat (length (expand (p ++ [r]))))
        with (Z.of_nat (length (expand p)) + r_count r)
        by (rewrite EP, app_length, repeat_length; lia).
      destruct (r_relin r =? 1), (r_grid r =? 1); cbn [app]; rewrite <- ?app_assoc; reflexivity.
  Qed.

  Lemma fold_count rows s : nonneg_rows rows ->
    fold_left (fun s (r : row C) => s + r_count r) rows s = s + Z.of_nat (length (expand rows)).
  Proof.
    revert s; induction rows as [|r rows IH]; intros s H; [cbn; lia|].
    apply Forall_cons_iff in H. destruct H as [Hr H]. cbn [fold_left]. rewrite IH by auto.
    assert (EA : expand (r :: rows) = repeat r (Z.to_nat (r_count r)) ++ expand rows) by reflexivity.
    rewrite EA, app_length, repeat_length. lia.
  Qed.

  Lemma flags_of_In flag rows : forall p i, nonneg_rows rows ->
    In i (flags_of flag rows (Z.of_nat (length (expand p)))) <->
    exists a r q, rows = a ++ r :: q /\ flag r = 1 /\ i = Z.of_nat (length (expand (p ++ a))).
  Proof.
    induction rows as [|r rows IH]; intros p i H.
    - cbn. split; [tauto|]. intros (a & r & q & E & _). destruct a; discriminate.
    - apply Forall_cons_iff in H. destruct H as [Hr H]. cbn [flags_of]. rewrite in_app_iff.
      assert (EP : expand (p ++ [r]) = expand p ++ repeat r (Z.to_nat (r_count r)))
        by (rewrite expand_app, expand_one; reflexivity).
      replace (Z.of_nat (length (expand p)) + r_count r) with (Z.of_nat (length (expand (p ++ [r]))))
        by (rewrite EP, app_length, repeat_length; lia).
      rewrite IH by auto. split.
      + intros [H1|(a & r' & q & -> & Hf & ->)].
        * destruct (Z.eqb_spec (flag r) 1) as [Hf|]; [|destruct H1].
          destruct H1 as [<-|[]]. exists [], r, rows. rewrite app_nil_r. auto.
        * exists (r :: a), r', q. rewrite <- app_assoc. auto.
      + intros (a & r' & q & E & Hf & ->). destruct a as [|r0 a].
        * injection E as -> ->. left. rewrite (proj2 (Z.eqb_eq _ _) Hf), app_nil_r. now left.
        * injection E as -> ->. right. exists a, r', q. rewrite <- app_assoc. auto.
  Qed.

  (* digits *)
  Lemma digits_aux_spec f : forall n acc, 0 <= n -> n < 10 ^ (Z.of_nat f) ->
    (f > 0)%nat -> Forall (fun d => 0 <= d <= 9) acc ->
    exists ds, digits_aux f n acc = ds ++ acc /\ ds <> [] /\ Forall (fun d => 0 <= d <= 9) ds /\
      fold_left (fun v d => 10 * v + d) ds 0 = n /\ (hd 0 ds = 0 -> length ds = 1%nat /\ n = 0).
  Proof.
    induction f as [|f IH]; intros n acc Hn Hlt Hf Hacc; [lia|].
    cbn [digits_aux]. destruct (Z.ltb_spec n 10) as [H10|H10].
    - exists [n]. repeat split; auto; try discriminate. constructor; [lia|constructor].
    - assert (Hf' : (f > 0)%nat).
      { destruct f; [|lia]. cbn in Hlt. lia. }
      destruct (IH (n / 10) (n mod 10 :: acc)) as (ds & E & Hne & HF & Hv & Hh); auto; try lia.
      { apply Z.div_lt_upper_bound; [lia|]. rewrite Nat2Z.inj_succ, Z.pow_succ_r in Hlt by lia. lia. }
      { constructor; auto. lia. }
      exists (ds ++ [n mod 10]). rewrite E, <- app_assoc. repeat split; auto.
      + destruct ds; discriminate.
      + apply Forall_app. split; auto. constructor; [lia|constructor].
      + rewrite fold_left_app. cbn [fold_left]. rewrite Hv. lia.
      + destruct ds as [|d ds]; [congruence|]. cbn [hd app] in *. apply Hh in H. lia.
      + destruct ds as [|d ds]; [congruence|]. cbn [hd app] in *. apply Hh in H. lia.
  Qed.

  Lemma str_digits_decimal n : 0 <= n -> exists ds, str_digits n = Ok ds /\ decimal ds n.
  Proof.
    intros Hn. unfold str_digits. replace (n <? 0) with false by lia.
    destruct (digits_aux_spec (S (Z.to_nat (Z.log2 n))) n []) as (ds & E & Hne & HF & Hv & Hh); auto.
    { rewrite Nat2Z.inj_succ, Z2Nat.id by apply Z.log2_nonneg.
      destruct (Z.eq_dec n 0) as [->|Hnz]; [reflexivity|].
      pose proof (Z.log2_spec n ltac:(lia)) as [_ H].
      eapply Z.lt_le_trans; [exact H|]. apply Z.pow_le_mono_l. lia. }
    { lia. }
    rewrite app_nil_r in E. exists ds. rewrite E. split; auto.
    unfold decimal. repeat split; auto. intros H; apply Hh in H; tauto.
  Qed.

  Lemma map_res_digits (l : list Z) : Forall (fun n => 0 <= n) l ->
    exists ds, map_res str_digits l = Ok ds /\ Forall2 decimal ds l.
  Proof.
    induction l as [|n l IH]; intros H; [exists []; split; auto|].
    apply Forall_cons_iff in H. destruct H as [Hn H].
    destruct (str_digits_decimal n Hn) as (d & E & Hd). destruct (IH H) as (ds & E2 & Hds).
    exists (d :: ds). cbn [map_res]. rewrite E. cbn [rbind]. rewrite E2. split; auto.
  Qed.

  Lemma schedule_spec rows : nonneg_rows rows ->
    Forall (fun r => 0 < r_count r -> 0 <= r_dms r) rows ->
    exists s, efc_schedule_generator czero rows = Ok s /\
      s_Nitr s = Z.of_nat (length (expand rows)) /\
      s_reg s = map r_reg (expand rows) /\
      Forall2 (fun ds r => decimal ds (r_dms r)) (s_dms s) (expand rows) /\
      (forall i, In i (s_relin s) <-> starts_flagged r_relin rows i) /\
      (forall i, In i (s_grid s) <-> starts_flagged r_grid rows i).
  Proof.
    intros Hnn Hd. unfold efc_schedule_generator. rewrite fold_count, Z.add_0_l by auto.
    replace (Z.of_nat (length (expand rows)) <? 0) with false by lia. rewrite Nat2Z.id.
    pose proof (sg_fold rows [] [] [] (length (expand rows)) Hnn eq_refl) as HF.
    replace (length (expand (@nil (row C)))) with 0%nat in HF by reflexivity.
    replace (expand (@nil (row C))) with (@nil (row C)) in HF by reflexivity.
    rewrite Nat.sub_0_r in HF.
    cbn [map app Z.of_nat] in HF.
    rewrite HF.
    destruct (map_res_digits (map r_dms (expand rows))) as (ds & E & Hds).
    { apply Forall_forall. intros n Hn. apply in_map_iff in Hn. destruct Hn as (r & <- & Hr).
      unfold expand in Hr. apply in_flat_map in Hr. destruct Hr as (r' & Hin & Hrep).
      pose proof (repeat_spec _ _ _ Hrep) as ->. rewrite Forall_forall in Hd. apply Hd; auto.
      destruct (Z.to_nat (r_count r')) eqn:En; [destruct Hrep|lia]. }
    rewrite E. cbn [rbind]. eexists; split; [reflexivity|]. cbn [s_Nitr s_reg s_dms s_relin s_grid].
    repeat split; auto.
    - clear E. revert Hds. generalize (expand rows) as l. intros l; revert ds.
      induction l as [|r l IH]; intros ds H; inversion H; subst; constructor; auto.
    - intros H. apply (flags_of_In r_relin rows []) in H; auto.
    - intros H. apply (flags_of_In r_relin rows []); auto.
    - intros H. apply (flags_of_In r_grid rows []) in H; auto.
    - intros H. apply (flags_of_In r_grid rows []); auto.
  Qed.
End Gen.

(* ---------------- argmin / grid search ---------------- *)
Lemma argmin_from_spec l : forall pre best bv k m,
  length pre = k -> first_min pre best bv ->
  argmin_from best bv k l = m -> first_min (pre ++ l) (fst m) (snd m).
Proof.
  induction l as [|x l IH]; intros pre best bv k m Hk Hf E; cbn in E.
  - subst m. rewrite app_nil_r. exact Hf.
  - assert (HA : (pre ++ [x]) ++ l = pre ++ x :: l) by (rewrite <- app_assoc; reflexivity).
    assert (HL : length (pre ++ [x]) = S k) by (rewrite app_length; cbn; lia).
    destruct Hf as (F1 & F2 & F3).
    assert (Hlt : (best < k)%nat) by (subst k; apply nth_error_Some; congruence).
    destruct (Rlt_dec x bv) as [Hx|Hx]; rewrite <- HA; eapply IH; eauto; clear IH E.
    + split; [|split].
      * rewrite nth_error_app2 by lia. replace (k - length pre)%nat with 0%nat by lia. reflexivity.
      * intros j y Hj. destruct (Nat.lt_ge_cases j k) as [Hlt2|Hge].
        { rewrite nth_error_app1 in Hj by lia. apply F2 in Hj. lra. }
        rewrite nth_error_app2 in Hj by lia. destruct (j - length pre)%nat as [|[|]]; cbn in Hj; inversion Hj; lra.
      * intros j y Hj Hjk. rewrite nth_error_app1 in Hj by lia. apply F2 in Hj. lra.
    + split; [|split].
      * rewrite nth_error_app1 by lia. exact F1.
      * intros j y Hj. destruct (Nat.lt_ge_cases j k) as [Hlt2|Hge].
        { rewrite nth_error_app1 in Hj by lia. eauto. }
        rewrite nth_error_app2 in Hj by lia. destruct (j - length pre)%nat as [|[|]]; cbn in Hj; inversion Hj; lra.
      * intros j y Hj Hjk. rewrite nth_error_app1 in Hj by lia. eauto.
Qed.

Lemma argmin_spec l : l <> [] -> exists k m, argmin l = Ok (k, m) /\ first_min l k m.
Proof.
  destruct l as [|x l]; [congruence|]. intros _. cbn [argmin].
  destruct (argmin_from 0 x 1 l) as [k m] eqn:E. exists k, m. split; auto.
  apply (argmin_from_spec l [x] 0%nat x 1%nat (k, m)) in E; auto.
  split; [reflexivity|]. split.
  - intros [|[|j]] y Hj; cbn in Hj; inversion Hj; lra.
  - intros j y Hj Hlt. lia.
Qed.

Lemma vals_list_In regs facs x y : In (x, y) (vals_list regs facs) <-> In x regs /\ In y facs.
Proof.
  unfold vals_list. rewrite in_flat_map. split.
  - intros (y' & Hy & Hin). apply in_map_iff in Hin. destruct Hin as (x' & E & Hx). injection E as -> ->. auto.
  - intros [Hx Hy]. exists y. split; auto. apply in_map_iff. eauto.
Qed.
Lemma vals_list_length regs facs : length (vals_list regs facs) = (length regs * length facs)%nat.
Proof.
  unfold vals_list. induction facs as [|y facs IH]; [cbn; lia|]. cbn [flat_map length].
  rewrite app_length, map_length, IH. lia.
Qed.

Section SearchProofs.
  Context {cmd img : Type} (zero_img : img).
  Notation grid_search := (grid_search cmd img zero_img).
  Notation planned_efc := (planned_efc cmd img zero_img).
  Notation planned_run := (planned_run cmd img zero_img).

  Notation evaluation := (evaluation cmd img).

  Lemma nth_error_outs {Y} (f : nat -> R * R -> Y) (vals : list (R * R)) k :
    nth_error (map (fun '(ni, v) => f ni v) (combine (seq 0 (length vals)) vals)) k
    = option_map (f k) (nth_error vals k).
  Proof.
    rewrite nth_error_map, nth_error_combine.
    destruct (nth_error vals k) eqn:E.
    - assert (k < length vals)%nat by (apply nth_error_Some; congruence).
      rewrite nth_error_nth' with (d := 0%nat) by (rewrite seq_length; lia).
      rewrite seq_nth by lia. reflexivity.
    - destruct (nth_error (seq 0 (length vals)) k); reflexivity.
  Qed.

  Lemma grid_search_spec efc par regs facs : regs <> [] -> facs <> [] ->
    exists g k v o, grid_search efc par regs facs = Ok g /\
      evaluation efc regs facs k v o /\
      gs_cmd g = snd (fst o) /\ gs_reg g = fst v /\ gs_fac g = snd v /\ gs_min g = fst (fst o) /\
      gs_im g = (if par then zero_img else snd o) /\
      (forall j v' o', evaluation efc regs facs j v' o' ->
         (gs_min g <= fst (fst o'))%R /\ ((j < k)%nat -> (gs_min g < fst (fst o'))%R)).
  Proof.
    intros Hr Hf. unfold SchedModel.grid_search.
    set (vals := vals_list regs facs).
    set (outs := map (fun '(ni, v) => efc ni v) (combine (seq 0 (length vals)) vals)).
    assert (HNE : map (fun o => fst (fst o)) outs <> []).
    { intros E. apply map_eq_nil in E. unfold outs in E. apply map_eq_nil in E.
      assert (L : length (combine (seq 0 (length vals)) vals) = 0%nat) by now rewrite E.
      rewrite combine_length, seq_length in L. unfold vals in L. rewrite vals_list_length in L.
      destruct regs, facs; try congruence. cbn in L. lia. }
    destruct (argmin_spec _ HNE) as (k & m & E & F1 & F2 & F3). rewrite E. cbn [rbind].
    rewrite nth_error_map in F1. unfold outs in *. rewrite nth_error_outs in *.
    destruct (nth_error vals k) as [v|] eqn:Ev; [|discriminate]. cbn [option_map] in *.
    rewrite nth_error_map, nth_error_outs, Ev. cbn [option_map].
    injection F1 as <-.
    eexists; exists k, v, (efc k v). split; [reflexivity|]. cbn [gs_cmd gs_reg gs_fac gs_min gs_im].
    split; [split; auto|]. repeat split; auto.
    - apply (F2 j). destruct H as [Hj ->]. rewrite nth_error_map, nth_error_outs.
      unfold vals. rewrite Hj. reflexivity.
    - intros Hlt. apply (F3 j); auto. destruct H as [Hj ->]. rewrite nth_error_map, nth_error_outs.
      unfold vals. rewrite Hj. reflexivity.
  Qed.

  Lemma every_pair_evaluated efc regs facs x y : In x regs -> In y facs ->
    exists j o, evaluation efc regs facs j (x, y) o.
  Proof.
    intros Hx Hy. assert (H : In (x, y) (vals_list regs facs)) by now apply vals_list_In.
    apply In_nth_error in H. destruct H as [j Hj]. exists j, (efc j (x, y)). split; auto.
  Qed.

  Lemma grid_search_empty efc par regs facs : regs = [] \/ facs = [] ->
    grid_search efc par regs facs = Raise ValueError.
  Proof.
    intros H. unfold SchedModel.grid_search.
    assert (E : vals_list regs facs = []).
    { apply length_zero_iff_nil. rewrite vals_list_length. destruct H as [-> | ->]; cbn; lia. }
    rewrite E. reflexivity.
  Qed.

  (* ---- planned ---- *)
  (* most recent grid search result at or before the k-th entry of l, [h] if none *)
  Fixpoint latest (grid : nat -> nat -> R * R -> R * cmd * img) regs facs
      (base : nat) (l : list pin) (h : option (@gs_out cmd img)) (k : nat) : option (@gs_out cmd img) :=
    match l with
    | [] => h
    | i :: t =>
      let h' := if i_grid i then
                  match grid_search (grid base) false regs facs with Ok g => Some g | Raise _ => None end
                else h in
      match k with O => h' | S k' => latest grid regs facs (S base) t h' k' end
    end.

  Definition st_matches (st : pstate) (h : option (@gs_out cmd img)) : Prop :=
    match h with
    | Some g => p_best st = Some (gs_reg g) /\ p_fac st = Some (gs_fac g)
    | None => p_best st = None /\ (p_fac st = None \/ p_fac st = Some 1%R)
    end.

  (* what the user expects of iteration k, given the latest grid search h *)
  Definition good_out (grid : nat -> R * R -> R * cmd * img) (single : R * R -> R * cmd * img)
      regs facs (h : option (@gs_out cmd img)) (i : pin) (o : @pout cmd img) : Prop :=
    (i_im i = 0%R -> o_reg o = i_re i) /\
    (i_im i <> 0%R -> exists g, h = Some g /\ o_reg o = (gs_reg g + i_re i)%R) /\
    (let fac := match h with Some g => gs_fac g | None => 1%R end in
     (single (o_reg o, fac) = (o_min o, o_cmd o, o_im o)) \/
     (i_grid i = true /\ i_im i <> 0%R /\ i_re i = 0%R /\
      exists n, evaluation grid regs facs n (o_reg o, fac) (o_min o, o_cmd o, o_im o))).

  Lemma planned_step grid single regs facs st h i :
    regs <> [] -> facs <> [] -> st_matches st h ->
    let h' := if i_grid i then
                match grid_search grid false regs facs with Ok g => Some g | Raise _ => None end
              else h in
    (i_im i <> 0%R -> h' = None -> planned_efc grid single regs facs st i = Raise AttributeError) /\
    ((i_im i = 0%R \/ h' <> None) -> exists st' o, planned_efc grid single regs facs st i = Ok (st', o) /\
       st_matches st' h' /\ good_out grid single regs facs h' i o).
  Proof.
    intros Hr Hf Hst. unfold SchedModel.planned_efc.
    destruct (i_grid i) eqn:EG.
    - destruct (grid_search_spec grid false regs facs Hr Hf) as
        (g & k & v & o & E & Hev & G1 & G2 & G3 & G4 & G5 & _).
      rewrite E. cbn [rbind]. split; [intros; discriminate|]. intros _.
      destruct (Req_EM_T (i_im i) 0) as [Him|Him]; cbn [andb p_best p_fac rbind].
      + destruct (single (i_re i, gs_fac g)) as [[m c] im] eqn:Es.
        eexists; eexists; split; [reflexivity|]. split; [cbn; auto|].
        unfold good_out. cbn [o_reg o_min o_cmd o_im]. repeat split; auto; try contradiction.
      + destruct (Req_EM_T (i_re i) 0) as [Hre|Hre]; cbn [rbind].
        * eexists; eexists; split; [reflexivity|]. split; [cbn; auto|].
          unfold good_out. cbn [o_reg o_min o_cmd o_im]. repeat split; auto; try contradiction.
          { intros _. exists g. split; auto. rewrite Hre. ring. }
          right. repeat split; auto. exists k. rewrite G1, G2, G3, G4, G5.
          destruct Hev as [Hv ->]. destruct v as [v1 v2]; cbn [fst snd] in *. split; auto.
          destruct (grid k (v1, v2)) as [[? ?] ?]; reflexivity.
        * destruct (single ((gs_reg g + i_re i)%R, gs_fac g)) as [[m c] im] eqn:Es.
          eexists; eexists; split; [reflexivity|]. split; [cbn; auto|].
          unfold good_out. cbn [o_reg o_min o_cmd o_im]. repeat split; auto; try contradiction.
          intros _. exists g. auto.
    - cbn [rbind]. destruct (Req_EM_T (i_im i) 0) as [Him|Him]; cbn [rbind].
      + split; [contradiction|]. intros _.
        set (fac := match p_fac st with Some f => f | None => 1%R end).
        destruct (single (i_re i, fac)) as [[m c] im] eqn:Es.
        eexists; eexists; split; [reflexivity|].
        assert (Hfac : fac = match h with Some g => gs_fac g | None => 1%R end).
        { unfold fac. destruct h as [g|]; cbn in Hst; destruct Hst as [H1 H2].
          - now rewrite H2.
          - destruct H2 as [-> | ->]; reflexivity. }
        split.
        { destruct h as [g|]; cbn in *; destruct Hst as [H1 H2]; split; auto.
          - now rewrite Hfac.
          - right. now rewrite Hfac. }
        unfold good_out. cbn [o_reg o_min o_cmd o_im]. rewrite <- Hfac.
        repeat split; auto; try contradiction.
      + split.
        * intros _ Hn. subst h. cbn in Hst. destruct Hst as [H1 _]. rewrite H1. reflexivity.
        * intros [Hc|Hn]; [contradiction|]. destruct h as [g|]; [|congruence].
          cbn in Hst. destruct Hst as [H1 H2]. rewrite H1. cbn [rbind]. rewrite H2.
          destruct (single ((gs_reg g + i_re i)%R, gs_fac g)) as [[m c] im] eqn:Es.
          eexists; eexists; split; [reflexivity|]. split; [cbn; auto|].
          unfold good_out. cbn [o_reg o_min o_cmd o_im]. repeat split; auto; try contradiction.
          intros _. exists g. auto.
  Qed.

  Lemma planned_run_gen grid single regs facs l : forall base st h,
    regs <> [] -> facs <> [] -> st_matches st h ->
    ((forall k i, nth_error l k = Some i -> i_im i <> 0%R -> latest grid regs facs base l h k <> None) ->
      exists st' os, planned_run grid single regs facs base st l = Ok (st', os) /\
        length os = length l /\
        forall k i, nth_error l k = Some i -> exists o, nth_error os k = Some o /\
          good_out (grid (base + k)%nat) (single (base + k)%nat) regs facs
            (latest grid regs facs base l h k) i o) /\
    ((exists k i, nth_error l k = Some i /\ i_im i <> 0%R /\ latest grid regs facs base l h k = None) ->
      planned_run grid single regs facs base st l = Raise AttributeError).
  Proof.
    induction l as [|i l IH]; intros base st h Hr Hf Hst.
    - split.
      + intros _. exists st, []. repeat split; auto. intros [|k] i Hk; discriminate.
      + intros ([|k] & i & Hk & _); discriminate.
    - destruct (planned_step (grid base) (single base) regs facs st h i Hr Hf Hst) as [Hbad Hgood].
      cbn [SchedModel.planned_run latest].
      set (h' := if i_grid i then
                match grid_search (grid base) false regs facs with Ok g => Some g | Raise _ => None end
              else h) in *.
      destruct (Req_EM_T (i_im i) 0) as [Him|Him].
      + destruct (Hgood (or_introl Him)) as (st' & o & E & Hst' & Ho). rewrite E. cbn [rbind].
        destruct (IH (S base) st' h' Hr Hf Hst') as [IHg IHb]. split.
        * intros H. destruct IHg as (st2 & os & E2 & HL & HO).
          { intros k i' Hk Hi'. exact (H (S k) i' Hk Hi'). }
          rewrite E2. cbn [rbind]. exists st2, (o :: os). repeat split; auto.
          { cbn; lia. }
          intros [|k] i' Hk; cbn in Hk.
          { injection Hk as <-. exists o. rewrite Nat.add_0_r. auto. }
          destruct (HO k i' Hk) as (o' & H1 & H2). exists o'. split; auto.
          rewrite Nat.add_succ_r. exact H2.
        * intros ([|k] & i' & Hk & Hi' & HN); cbn in Hk.
          { injection Hk as <-. contradiction. }
          rewrite IHb; [reflexivity|]. exists k, i'. auto.
      + destruct h' as [g|] eqn:Eh.
        * assert (Hne : Some g <> None) by (intro Hx; inversion Hx).
          destruct (Hgood (or_intror Hne)) as (st' & o & E & Hst' & Ho). rewrite E. cbn [rbind].
          destruct (IH (S base) st' (Some g) Hr Hf Hst') as [IHg IHb]. split.
          { intros H. destruct IHg as (st2 & os & E2 & HL & HO).
            { intros k i' Hk Hi'. exact (H (S k) i' Hk Hi'). }
            rewrite E2. cbn [rbind]. exists st2, (o :: os). repeat split; auto.
            { cbn; lia. }
            intros [|k] i' Hk; cbn in Hk.
            { injection Hk as <-. exists o. rewrite Nat.add_0_r. auto. }
            destruct (HO k i' Hk) as (o' & H1 & H2). exists o'. split; auto.
            rewrite Nat.add_succ_r. exact H2. }
          { intros ([|k] & i' & Hk & Hi' & HN); cbn in Hk; [discriminate|].
            rewrite IHb; [reflexivity|]. exists k, i'. auto. }
        * split.
          { intros H. exfalso. apply (H 0%nat i eq_refl Him). reflexivity. }
          { intros _. rewrite Hbad; auto. }
  Qed.

  Lemma latest_last_grid grid regs facs l : forall base h k g, regs <> [] -> facs <> [] ->
    (k < length l)%nat ->
    latest grid regs facs base l h k = Some g ->
    (exists j, last_grid l k j /\ grid_search (grid (base + j)%nat) false regs facs = Ok g) \/
    (h = Some g /\ forall m i, (m <= k)%nat -> nth_error l m = Some i -> i_grid i = false).
  Proof.
    induction l as [|i l IH]; intros base h k g Hr Hf Hk HL; [cbn in Hk; lia|]. cbn [latest] in HL.
    destruct (grid_search_spec (grid base) false regs facs Hr Hf) as (g0 & _ & _ & _ & E & _).
    destruct k as [|k].
    - destruct (i_grid i) eqn:EG.
      + rewrite E in HL. injection HL as <-. left. exists 0%nat. rewrite Nat.add_0_r.
        split; [|exact E]. split; [lia|]. split; [exists i; split; [reflexivity|exact EG]|].
        intros m i' Hm; exfalso; lia.
      + right. split; auto. intros [|m] i' Hm Hi'; [|lia]. cbn in Hi'. congruence.
    - apply IH in HL; auto; [|cbn in Hk; lia]. destruct HL as [(j & (J1 & J2 & J3) & HJ)|[Hh Hno]].
      + left. exists (S j). rewrite Nat.add_succ_r. split; [|exact HJ]. split; [lia|]. split; [exact J2|].
        intros [|m] i' Hm Hi'; [lia|]. cbn in Hi'. apply (J3 m); auto; lia.
      + destruct (i_grid i) eqn:EG.
        * left. rewrite E in Hh. injection Hh as <-. exists 0%nat. rewrite Nat.add_0_r.
          split; [|exact E]. split; [lia|]. split; [exists i; split; [reflexivity|exact EG]|].
          intros [|m] i' Hm Hi'; [lia|]. cbn in Hi'. apply (Hno m); auto; lia.
        * right. split; auto. intros [|m] i' Hm Hi'; cbn in Hi'; [congruence|]. apply (Hno m); auto; lia.
  Qed.

  Lemma latest_some grid regs facs l : forall base g k, regs <> [] -> facs <> [] ->
    latest grid regs facs base l (Some g) k <> None.
  Proof.
    induction l as [|i l IH]; intros base g k Hr Hf; [discriminate|]. cbn [latest].
    destruct (grid_search_spec (grid base) false regs facs Hr Hf) as (g0 & _ & _ & _ & E & _).
    rewrite E. destruct k as [|k]; destruct (i_grid i); try discriminate; apply IH; auto.
  Qed.

  Lemma latest_none grid regs facs l : forall base h k, regs <> [] -> facs <> [] ->
    latest grid regs facs base l h k = None ->
    forall m i, (m <= k)%nat -> nth_error l m = Some i -> i_grid i = false.
  Proof.
    induction l as [|i l IH]; intros base h k Hr Hf HL m i' Hm Hi'; [destruct m; discriminate|].
    cbn [latest] in HL.
    destruct (grid_search_spec (grid base) false regs facs Hr Hf) as (g0 & _ & _ & _ & E & _).
    rewrite E in HL.
    destruct k as [|k].
    - destruct m; [|lia]. cbn in Hi'. injection Hi' as <-. destruct (i_grid i); [discriminate|reflexivity].
    - destruct m as [|m]; cbn in Hi'.
      + injection Hi' as <-. destruct (i_grid i) eqn:EG; auto. exfalso.
        exact (latest_some grid regs facs l (S base) g0 k Hr Hf HL).
      + apply (IH (S base) _ k Hr Hf HL m i'); [lia|exact Hi'].
  
  Qed.

  Lemma latest_none_intro grid regs facs l : forall base k, (k < length l)%nat ->
    (forall m i, (m <= k)%nat -> nth_error l m = Some i -> i_grid i = false) ->
    latest grid regs facs base l None k = None.
  Proof.
    induction l as [|i l IH]; intros base k Hk H; [cbn in Hk; lia|]. cbn [latest].
    rewrite (H 0%nat i) by (auto; lia). destruct k as [|k]; [reflexivity|].
    apply IH; [cbn in Hk; lia|]. intros m i' Hm Hi'. apply (H (S m) i'); auto. lia.
  Qed.

  Lemma planned_run_spec grid single regs facs l : regs <> [] -> facs <> [] ->
    (forall k i, nth_error l k = Some i -> i_im i <> 0%R -> exists j, last_grid l k j) ->
    exists st' os, planned_run grid single regs facs 0 (mkps None None) l = Ok (st', os) /\
      length os = length l /\
      forall k i o, nth_error l k = Some i -> nth_error os k = Some o ->
        (forall j g, last_grid l k j -> grid_search (grid j) false regs facs = Ok g ->
           planned_as_scheduled cmd img (grid k) (single k) regs facs (Some (gs_reg g, gs_fac g)) i o) /\
        ((forall j, ~ last_grid l k j) ->
           planned_as_scheduled cmd img (grid k) (single k) regs facs None i o).
  Proof.
    intros Hr Hf H.
    destruct (planned_run_gen grid single regs facs l 0%nat (mkps None None) None Hr Hf) as [HG _].
    { cbn. auto. }
    destruct HG as (st' & os & E & HL & HO).
    { intros k i Hk Hi HN. destruct (H k i Hk Hi) as (j & J1 & (ij & J2 & J3) & _).
      pose proof (latest_none grid regs facs l _ _ _ Hr Hf HN j ij J1 J2). congruence. }
    exists st', os. split; [exact E|]. split; [exact HL|].
    intros k i o Hk Ho. destruct (HO k i Hk) as (o' & Ho' & HGood). rewrite Ho in Ho'. injection Ho' as <-.
    cbn [Nat.add] in HGood.
    assert (Hlen : (k < length l)%nat) by (apply nth_error_Some; congruence).
    destruct (latest grid regs facs 0 l None k) as [g'|] eqn:EL.
    - apply latest_last_grid in EL; auto. destruct EL as [(j' & HJ & EJ)|[Hn _]]; [|discriminate].
      cbn [Nat.add] in EJ. split.
      + intros j g Hj Eg. assert (j = j') as ->.
        { destruct Hj as (A1 & (ia & A2 & A3) & A4), HJ as (B1 & (ib & B2 & B3) & B4).
          destruct (Nat.lt_total j j') as [Hlt|[Heq|Hgt]]; auto; exfalso.
          - specialize (A4 j' ib ltac:(lia) B2). congruence.
          - specialize (B4 j ia ltac:(lia) A2). congruence. }
        rewrite EJ in Eg. injection Eg as <-.
        destruct HGood as (G1 & G2 & G3). unfold planned_as_scheduled. split; [exact G1|]. split.
        * intros Hi. destruct (G2 Hi) as (g1 & Hg1 & Hreg). injection Hg1 as <-. eauto.
        * exact G3.
      + intros HN. exfalso. eapply HN; eauto.
    - split.
      + intros j g (A1 & (ia & A2 & A3) & A4) _.
        pose proof (latest_none grid regs facs l _ _ _ Hr Hf EL j ia A1 A2). congruence.
      + intros _. destruct HGood as (G1 & G2 & G3). unfold planned_as_scheduled. split; [exact G1|]. split.
        * intros Hi. destruct (G2 Hi) as (g1 & Hg1 & _). discriminate.
        * exact G3.
  Qed.

  Lemma planned_run_fails grid single regs facs l k i : regs <> [] -> facs <> [] ->
    nth_error l k = Some i -> i_im i <> 0%R ->
    (forall m i', (m <= k)%nat -> nth_error l m = Some i' -> i_grid i' = false) ->
    planned_run grid single regs facs 0 (mkps None None) l = Raise AttributeError.
  Proof.
    intros Hr Hf Hk Hi HN.
    destruct (planned_run_gen grid single regs facs l 0%nat (mkps None None) None Hr Hf) as [_ HB].
    { cbn. auto. }
    apply HB. exists k, i. repeat split; auto. apply latest_none_intro; auto.
    apply nth_error_Some. congruence.
  Qed.
End SearchProofs.
