From Coq Require Import Sorted Permutation.
From Verif Require Import Base RBase EfcProofs JacModel CullProofs SpectModel.
Open Scope R_scope.

(* ---- np.unique ---- *)
Lemma adjacent_uniq_In l x : In x (adjacent_uniq l) <-> In x l.
Proof.
  induction l as [|a l IH]; [reflexivity|]. cbn [adjacent_uniq].
  destruct l as [|b l']; [reflexivity|].
  destruct (Z.eqb_spec a b) as [->|Hn].
  - rewrite IH. cbn. tauto.
  - cbn [In] in *. rewrite IH. reflexivity.
Qed.
Lemma adjacent_uniq_sorted l : StronglySorted Z.le l -> StronglySorted Z.lt (adjacent_uniq l).
Proof.
  induction l as [|a l IH]; intros H; [constructor|]. cbn [adjacent_uniq].
  apply StronglySorted_inv in H. destruct H as [Hs Hf]. specialize (IH Hs).
  destruct l as [|b l']; [constructor; constructor|].
  destruct (Z.eqb_spec a b) as [->|Hn]; [exact IH|].
  constructor; [exact IH|]. apply Forall_forall. intros x Hx. rewrite adjacent_uniq_In in Hx.
  rewrite Forall_forall in Hf. apply StronglySorted_inv in Hs. destruct Hs as [_ Hb]. rewrite Forall_forall in Hb.
  assert (a <= b)%Z by (apply Hf; now left).
  destruct Hx as [<-|Hx]; [lia|]. specialize (Hb x Hx). lia.
Qed.
Lemma uniq_keys_In keys x : In x (adjacent_uniq (isort keys)) <-> In x keys.
Proof.
  rewrite adjacent_uniq_In. split; apply Permutation_in; [apply Permutation_sym|]; apply isort_perm.
Qed.
Lemma uniq_keys_sorted keys : StronglySorted Z.lt (adjacent_uniq (isort keys)).
Proof. apply adjacent_uniq_sorted, isort_sorted. Qed.
Lemma sorted_lt_nodup l : StronglySorted Z.lt l -> NoDup l.
Proof.
  induction l as [|x l IH]; intros H; constructor; apply StronglySorted_inv in H; destruct H as [H1 H2]; auto.
  rewrite Forall_forall in H2. intros Hx. specialize (H2 x Hx). lia.
Qed.
Lemma first_index_spec x l : In x l -> nth_error l (first_index x l) = Some x /\
  forall j, (j < first_index x l)%nat -> nth_error l j <> Some x.
Proof.
  induction l as [|y l IH]; intros H; [destruct H|]. cbn [first_index]. destruct (Z.eqb_spec y x) as [->|Hn].
  - split; auto. intros j Hj. lia.
  - destruct H as [H|H]; [congruence|]. destruct (IH H) as [A B]. split; auto.
    intros [|j] Hj; cbn; [congruence|]. apply B. lia.
Qed.

Lemma NoDup_app_intro {X} (a b : list X) : NoDup a -> NoDup b -> (forall x, In x a -> ~ In x b) -> NoDup (a ++ b).
Proof.
  induction a as [|x a IH]; intros Ha Hb Hd; [auto|]. cbn. apply NoDup_cons_iff in Ha. destruct Ha as [H1 H2]. constructor.
  - rewrite in_app_iff. intros [H|H]; [auto|]. exact (Hd x (or_introl eq_refl) H).
  - apply IH; auto. intros y Hy. apply Hd. now right.
Qed.

Section Uniq.
  Variable n : nat.
  Variable key : nat -> Z.
  Let keys := map key (seq 0 n).
  Let u := np_unique_index keys.

  Lemma keys_nth k : (k < n)%nat -> nth_error keys k = Some (key k).
  Proof.
    intros H. unfold keys. rewrite nth_error_map. rewrite nth_error_nth' with (d := 0%nat) by now rewrite seq_length.
    cbn. now rewrite seq_nth.
  Qed.
  Lemma keys_lt k x : nth_error keys k = Some x -> (k < n)%nat.
  Proof. intros H. assert (k < length keys)%nat by (apply nth_error_Some; congruence). unfold keys in *. now rewrite map_length, seq_length in *. Qed.
  Lemma in_keys x : In x keys <-> exists k, (k < n)%nat /\ key k = x.
  Proof.
    unfold keys. rewrite in_map_iff. split; intros (k & A & B); exists k; [rewrite in_seq in B; split; auto; lia|split; auto; apply in_seq; lia].
  Qed.

  (* [u] lists, in increasing order of key, the first index of each key *)
  Lemma unique_in j : In j u <-> (j < n)%nat /\ forall i, (i < j)%nat -> key i <> key j.
  Proof.
    unfold u, np_unique_index. rewrite in_map_iff. split.
    - intros (x & <- & Hx). rewrite uniq_keys_In in Hx. destruct (first_index_spec x keys Hx) as [A B].
      assert (L := keys_lt _ _ A). split; auto. rewrite keys_nth in A by auto. injection A as A.
      intros i Hi E. apply (B i Hi). rewrite keys_nth by lia. congruence.
    - intros [Hj Hi]. exists (key j).
      assert (Hin : In (key j) keys) by (apply in_keys; eauto).
      split; [|now apply uniq_keys_In].
      destruct (first_index_spec (key j) keys Hin) as [A B]. assert (L := keys_lt _ _ A).
      rewrite keys_nth in A by auto. injection A as A.
      destruct (lt_eq_lt_dec (first_index (key j) keys) j) as [[C|C]|C]; auto.
      + exfalso. exact (Hi _ C A).
      + exfalso. apply (B j C). now rewrite keys_nth.
  Qed.
  Lemma unique_key_inj i j : In i u -> In j u -> key i = key j -> i = j.
  Proof.
    rewrite !unique_in. intros [A B] [C D] E. destruct (lt_eq_lt_dec i j) as [[H|H]|H]; auto; exfalso.
    - exact (D i H E).
    - exact (B j H (eq_sym E)).
  Qed.
  Lemma unique_map_key : map key u = adjacent_uniq (isort keys).
  Proof.
    unfold u, np_unique_index. rewrite map_map. rewrite <- map_id. apply map_ext_in. intros x Hx.
    rewrite uniq_keys_In in Hx. destruct (first_index_spec x keys Hx) as [A _]. assert (L := keys_lt _ _ A).
    rewrite keys_nth in A by auto. now injection A.
  Qed.
  Lemma unique_nodup : NoDup u.
  Proof.
    apply (NoDup_map_inv key). rewrite unique_map_key. apply sorted_lt_nodup, uniq_keys_sorted.
  Qed.
  (* every index has a representative with the same key *)
  Lemma unique_rep k : (k < n)%nat -> exists j, In j u /\ key j = key k.
  Proof.
    intros Hk. assert (Hin : In (key k) (map key u)).
    { rewrite unique_map_key. apply uniq_keys_In, in_keys. eauto. }
    apply in_map_iff in Hin. destruct Hin as (j & A & B). eauto.
  Qed.
  Lemma dup_spec k : In k (duplicate_inds n u) <-> (k < n)%nat /\ ~ In k u.
  Proof.
    unfold duplicate_inds. rewrite filter_In, in_seq. split.
    - intros [A B]. split; [lia|]. intros H. rewrite (proj2 (existsb_exists _ _)) in B; [discriminate|].
      exists k. split; auto. apply Nat.eqb_refl.
    - intros [A B]. split; [lia|]. destruct (existsb (Nat.eqb k) u) eqn:E; auto.
      apply existsb_exists in E. destruct E as (x & Hx & E). apply Nat.eqb_eq in E. subst. contradiction.
  Qed.
  Lemma unique_dup_perm : Permutation (u ++ duplicate_inds n u) (seq 0 n).
  Proof.
    apply NoDup_Permutation.
    - apply NoDup_app_intro; [apply unique_nodup|unfold duplicate_inds; apply NoDup_filter, seq_NoDup|].
      intros x A B. apply dup_spec in B. tauto.
    - apply seq_NoDup.
    - intros x. rewrite in_app_iff, dup_spec, in_seq, unique_in. split; [lia|].
      intros H. destruct (in_dec Nat.eq_dec x u) as [A|A]; [left; now apply unique_in|right]. split; [lia|].
      intros H'. apply A, unique_in; auto.
  Qed.
End Uniq.

(* ---- merging duplicate weights ---- *)
Definition close (lam : nat -> R) (j d : nat) : bool := Rleb (Rabs (lam j - lam d)) (/ 10 ^ 11).
Lemma Rleb_iff x y : Rleb x y = true <-> x <= y.
Proof. unfold Rleb. destruct (Rle_dec x y); split; intros; auto; discriminate. Qed.
Lemma combine_map_r {X Y Z'} (f : X * Y -> Z') (u : list X) (acc : list Y) :
  length u = length acc -> combine u (map f (combine u acc)) = map (fun '(j, x) => (j, f (j, x))) (combine u acc).
Proof. revert acc. induction u as [|j u IH]; intros [|x acc] H; try discriminate; auto. cbn. rewrite IH; auto. Qed.
Lemma merge_fold lam w u : forall ds acc, length acc = length u ->
  fold_left (merge_dup lam w u) ds acc =
  map (fun '(j, x) => x + rsuml (map (fun d => if close lam j d then w d else 0) ds)) (combine u acc).
Proof.
  induction ds as [|d ds IH]; intros acc L.
  - cbn. clear -L. revert u L. induction acc as [|x acc IH]; intros [|j u] L; try discriminate; auto. cbn in *. f_equal; [ring|]. apply IH. lia.
  - cbn [fold_left]. rewrite IH.
    + unfold merge_dup. rewrite combine_map_r by auto. rewrite map_map. apply map_ext. intros [j x]. cbn [map rsuml].
      unfold close at 2. destruct (Rleb (Rabs (lam j - lam d)) (/ 10 ^ 11)); ring.
    + unfold merge_dup. rewrite map_length, combine_length. lia.
Qed.

Lemma rsuml_perm a b : Permutation a b -> rsuml a = rsuml b.
Proof. induction 1; cbn; lra. Qed.
Lemma rsuml_map_perm {X} (f : X -> R) a b : Permutation a b -> rsuml (map f a) = rsuml (map f b).
Proof. intros H. apply rsuml_perm. now apply Permutation_map. Qed.
Lemma rsuml_map_plus {X} (f g : X -> R) l : rsuml (map (fun x => f x + g x) l) = rsuml (map f l) + rsuml (map g l).
Proof. induction l; cbn; [ring|]. rewrite IHl. ring. Qed.
Lemma rsuml_map_zero {X} (f : X -> R) l : (forall x, In x l -> f x = 0) -> rsuml (map f l) = 0.
Proof. intros H. induction l as [|x l IH]; cbn; [auto|]. rewrite H by now left. rewrite IH by (intros; apply H; now right). ring. Qed.
Lemma rsuml_swap {X Y} (f : X -> Y -> R) a b :
  rsuml (map (fun x => rsuml (map (f x) b)) a) = rsuml (map (fun y => rsuml (map (fun x => f x y) a)) b).
Proof.
  induction a as [|x a IH]; cbn; [symmetry; apply rsuml_map_zero; auto|]. rewrite IH, <- rsuml_map_plus. reflexivity.
Qed.
Lemma rsuml_map_ext {X} (f g : X -> R) l : (forall x, In x l -> f x = g x) -> rsuml (map f l) = rsuml (map g l).
Proof. intros H. f_equal. now apply map_ext_in. Qed.
Lemma rsuml_map_le {X} (f g : X -> R) l : (forall x, In x l -> f x <= g x) -> rsuml (map f l) <= rsuml (map g l).
Proof. induction l as [|x l IH]; intros H; cbn; [lra|]. assert (f x <= g x) by (apply H; now left). assert (rsuml (map f l) <= rsuml (map g l)) by (apply IH; intros; apply H; now right). lra. Qed.

Lemma rsuml_pick (P : nat -> bool) c l j : NoDup l -> In j l -> P j = true -> (forall i, In i l -> P i = true -> i = j) ->
  rsuml (map (fun i => if P i then c else 0) l) = c.
Proof.
  induction l as [|x l IH]; intros ND Hin Hj Hu; [destruct Hin|]. apply NoDup_cons_iff in ND. destruct ND as [N1 N2]. cbn.
  destruct Hin as [->|Hin].
  - rewrite Hj. rewrite rsuml_map_zero; [ring|]. intros i Hi. destruct (P i) eqn:E; auto.
    assert (i = j) by (apply Hu; [now right|auto]). subst. contradiction.
  - destruct (P x) eqn:E.
    + assert (x = j) by (apply Hu; [now left|auto]). subst. contradiction.
    + rewrite IH; auto; [ring|]. intros i Hi. apply Hu. now right.
Qed.
Lemma rsuml_atleast (P : nat -> bool) c l j : 0 <= c -> In j l -> P j = true ->
  c <= rsuml (map (fun i => if P i then c else 0) l).
Proof.
  intros Hc. induction l as [|x l IH]; intros Hin Hj; [destruct Hin|]. cbn.
  assert (0 <= rsuml (map (fun i => if P i then c else 0) l)).
  { clear -Hc. assert (A : rsuml (map (fun _ : nat => 0) l) = 0) by (apply rsuml_map_zero; auto).
    eapply Rle_trans; [apply Req_le, eq_sym, A|]. apply rsuml_map_le. intros x _. destruct (P x); lra. }
  destruct Hin as [->|Hin]; [rewrite Hj; lra|]. specialize (IH Hin Hj). destruct (P x); lra.
Qed.

(* same rounded picometre value: within 1 pm *)
Lemma same_key_close lam i j : pm_key (lam i) = pm_key (lam j) -> close lam i j = true.
Proof.
  intros H. unfold close. apply Rleb_iff. unfold pm_key in H.
  assert (A := Znearest_half (fun x => negb (Z.even x)) (10 ^ 12 * lam i)).
  assert (B := Znearest_half (fun x => negb (Z.even x)) (10 ^ 12 * lam j)). rewrite H in A.
  set (k := IZR (ZnearestE (10 ^ 12 * lam j))) in *.
  apply Rabs_le_inv in A. apply Rabs_le_inv in B.
  replace (lam i - lam j) with ((10 ^ 12 * lam i - k - (10 ^ 12 * lam j - k)) / 10 ^ 12) by field.
  apply Rabs_le. lra.
Qed.

Section Merge.
  Variable n : nat.
  Variables lam w : nat -> R.
  Hypothesis w_pos : forall k, (k < n)%nat -> 0 <= w k.
  Let key k := pm_key (lam k).
  Let u := inds_unique n lam.
  Let ds := duplicate_inds n u.

  Lemma merged_form : merged_weights n lam w = map (fun j => w j + rsuml (map (fun d => if close lam j d then w d else 0) ds)) u.
  Proof.
    unfold merged_weights. fold u. fold ds. rewrite merge_fold by now rewrite map_length.
    generalize ds as D. generalize u as l. induction l as [|j l IH]; intros D; auto. cbn. now rewrite IH.
  Qed.
  Lemma total_split : rsum n w = rsuml (map w u) + rsuml (map w ds).
  Proof.
    rewrite <- rsuml_map_seq. rewrite <- rsuml_app, <- map_app. apply rsuml_map_perm, Permutation_sym.
    apply (unique_dup_perm n key).
  Qed.
  Lemma merged_total : rsuml (merged_weights n lam w) =
    rsuml (map w u) + rsuml (map (fun d => rsuml (map (fun j => if close lam j d then w d else 0) u)) ds).
  Proof. rewrite merged_form, rsuml_map_plus, rsuml_swap. reflexivity. Qed.

  Lemma merged_at_least : rsum n w <= rsuml (merged_weights n lam w).
  Proof.
    rewrite total_split, merged_total. apply Rplus_le_compat_l. apply rsuml_map_le. intros d Hd.
    apply (dup_spec n key) in Hd. destruct Hd as [Hd _].
    destruct (unique_rep n key d Hd) as (j & Hj & E).
    apply (rsuml_atleast (fun j => close lam j d) (w d) u j); auto. now apply same_key_close.
  Qed.

  (* distinct picometre values are more than 10 pm apart *)
  Hypothesis sep : forall i j, (i < n)%nat -> (j < n)%nat -> key i <> key j -> / 10 ^ 11 < Rabs (lam i - lam j).
  Lemma close_iff i j : (i < n)%nat -> (j < n)%nat -> close lam i j = true <-> key i = key j.
  Proof.
    intros Hi Hj. split; [|apply same_key_close]. intros H. destruct (Z.eq_dec (key i) (key j)); auto.
    exfalso. apply Rleb_iff in H. specialize (sep i j Hi Hj n0). lra.
  Qed.
  Lemma in_u j : In j u -> (j < n)%nat.
  Proof. intros H. now apply (unique_in n key) in H. Qed.
  Lemma merged_exact : rsuml (merged_weights n lam w) = rsum n w.
  Proof.
    rewrite total_split, merged_total. f_equal. apply rsuml_map_ext. intros d Hd.
    apply (dup_spec n key) in Hd. destruct Hd as [Hd _]. destruct (unique_rep n key d Hd) as (j & Hj & E).
    apply (rsuml_pick (fun j => close lam j d) (w d) u j); auto.
    - apply (unique_nodup n key).
    - now apply same_key_close.
    - intros i Hi Hc. apply close_iff in Hc; [|now apply in_u|auto]. apply (unique_key_inj n key); auto. congruence.
  Qed.
  (* the weight kept for a wavelength is the total weight of all simulated wavelengths equal to it *)
  Lemma merged_entry p j : nth_error u p = Some j ->
    nth_error (merged_weights n lam w) p = Some (rsum n (fun k => if (key k =? key j)%Z then w k else 0)).
  Proof.
    intros Hp. rewrite merged_form, nth_error_map, Hp. cbn. f_equal.
    assert (Hj : In j u) by (apply nth_error_In in Hp; auto). assert (Hjn := in_u j Hj).
    rewrite <- rsuml_map_seq. rewrite <- (rsuml_map_perm _ _ _ (unique_dup_perm n key)), map_app, rsuml_app.
    f_equal.
    - symmetry. transitivity (rsuml (map (fun k => if (key k =? key j)%Z then w j else 0) u)).
      + apply rsuml_map_ext. intros k Hk. destruct (Z.eqb_spec (key k) (key j)) as [E|E]; auto.
        f_equal. apply (unique_key_inj n key); auto.
      + apply (rsuml_pick (fun k => key k =? key j)%Z (w j) u j); auto.
        * apply (unique_nodup n key).
        * apply Z.eqb_refl.
        * intros i Hi Hc. apply Z.eqb_eq in Hc. apply (unique_key_inj n key); auto.
    - apply rsuml_map_ext. intros d Hd. apply (dup_spec n key) in Hd. destruct Hd as [Hd _].
      destruct (Z.eqb_spec (key d) (key j)) as [E|E].
      + rewrite (proj2 (close_iff j d Hjn Hd)); auto.
      + destruct (close lam j d) eqn:C; auto. apply close_iff in C; auto. congruence.
  Qed.
End Merge.
