(* Lemmas about the Zernike sensitivities *)
From Verif Require Import Base RBase StrBase UtilModel MaskModel HoleModel CBase PropModel OptModel ZsnModel.
Open Scope R_scope.
Lemma traverse_ok {A B} (f : A -> res B) l R : traverse f l = Ok R <-> Forall2 (fun x y => f x = Ok y) l R.
Proof.
  revert R. induction l as [|x t IH]; intros R; cbn [traverse].
  - split; intros H; [injection H as <-; constructor|inversion H; reflexivity].
  - split; intros H.
    + destruct (f x) as [y|e] eqn:F; [|discriminate]. cbn [rbind] in H. destruct (traverse f t) as [r|e]; [|discriminate]. cbn [rbind] in H. injection H as <-.
      constructor; [exact F|]. now apply IH.
    + inversion H; subst. rewrite H2. cbn [rbind]. apply IH in H4. now rewrite H4.
Qed.
Lemma traverse_ext {A B} (f g : A -> res B) l : (forall x, In x l -> f x = g x) -> traverse f l = traverse g l.
Proof.
  induction l as [|x t IH]; intros H; cbn [traverse]; [reflexivity|]. rewrite (H x) by now left. rewrite IH by (intros y Hy; apply H; now right). reflexivity.
Qed.
Lemma forall2_app_inv {A B} (P : A -> B -> Prop) a b r : Forall2 P (a ++ b)%list r -> exists u v, r = (u ++ v)%list /\ Forall2 P a u /\ Forall2 P b v.
Proof.
  revert r. induction a as [|x t IH]; intros r H; cbn in *.
  - exists [], r. auto.
  - inversion H; subst. destruct (IH _ H4) as (u & v & -> & U & V). exists (y :: u), v. auto.
Qed.
Lemma traverse_concat {A B} (f : A -> res B) (ls : list (list A)) R : (exists Rs, traverse (traverse f) ls = Ok Rs /\ concat Rs = R) <-> traverse f (concat ls) = Ok R.
Proof.
  rewrite traverse_ok. revert R. induction ls as [|l t IH]; intros R; cbn [concat traverse].
  - split; [intros (Rs & H & E); injection H as <-; cbn in E; subst; constructor|intros H; inversion H; subst; exists []; auto].
  - split.
    + intros (Rs & H & E). destruct (traverse f l) as [r|e] eqn:F; [|discriminate]. cbn [rbind] in H. destruct (traverse (traverse f) t) as [r2|e]; [|discriminate].
      cbn [rbind] in H. injection H as <-. cbn in E. subst R. apply Forall2_app; [now apply traverse_ok|]. apply IH. eauto.
    + intros H. destruct (forall2_app_inv _ _ _ _ H) as (u & v & -> & U & V). apply IH in V as (Rs & V1 & V2). apply traverse_ok in U.
      exists (u :: Rs). rewrite U. cbn [rbind]. rewrite V1. cbn [rbind concat]. now rewrite V2.
Qed.
Lemma cut_concat {T} k : (0 < k)%nat -> forall fuel (l : list T), (length l <= fuel)%nat -> concat (cut fuel k l) = l.
Proof.
  intros K. induction fuel as [|f IH]; intros l H.
  - destruct l; [reflexivity|cbn in H; lia].
  - destruct l as [|x t]; [reflexivity|]. cbn [cut concat]. rewrite IH; [apply firstn_skipn|]. rewrite skipn_length. assert (L := H). cbn [length] in L |- *. lia.
Qed.
Lemma chunk_size_pos n k : (0 < n)%nat -> (0 < k)%nat -> (0 < chunk_size n k)%nat.
Proof.
  intros N K. unfold chunk_size. cbv zeta. destruct (Nat.eqb_spec (n mod (k * 4)) 0) as [E|E]; [|apply Nat.lt_0_succ].
  assert (D := Nat.div_mod n (k * 4) ltac:(lia)). rewrite E in D. destruct (n / (k * 4))%nat; [|apply Nat.lt_0_succ]. rewrite Nat.mul_0_r in D. lia.
Qed.
Lemma cut_tasks {T} k (l : list T) : (0 < k)%nat -> concat (cut (length l) (chunk_size (length l) k) l) = l.
Proof.
  intros K. destruct l as [|x t]; [reflexivity|]. apply cut_concat; [|lia]. apply chunk_size_pos; cbn; lia.
Qed.

(* tasks whose result does not depend on what earlier tasks leave behind *)
Section Tasks.
  Context {T : Type} (f : T -> zst -> res (field C) * zst) (g : T -> res (field C)) (inv : zst -> Prop).
  Hypothesis Hg : forall t s, inv s -> fst (f t s) = g t.
  Hypothesis Hi : forall t s E s', inv s -> f t s = (Ok E, s') -> inv s'.
  Lemma in_turn_iff fit l s R : inv s -> (fst (in_turn f fit l s) = Ok R <-> traverse g l = Ok R /\ forallb fit R = true).
  Proof.
    revert s R. induction l as [|t r IH]; intros s R I0; cbn [in_turn traverse].
    - cbn [fst]. split; [intros H; injection H as <-; auto|now intros [H _]].
    - assert (G := Hg t s I0). destruct (f t s) as [[E|e] s1] eqn:F; cbn [fst] in G; rewrite <- G; cbn [rbind fst].
      + assert (I1 := Hi _ _ _ _ I0 F). destruct (fit E) eqn:FE.
        * specialize (IH s1). destruct (in_turn f fit r s1) as [[R1|e] s2] eqn:Q; cbn [fst] in *.
          -- destruct (proj1 (IH R1 I1) eq_refl) as [A B]. rewrite A. cbn [rbind]. split.
             ++ intros H. injection H as <-. cbn [forallb]. now rewrite FE, B.
             ++ intros [H _]. exact H.
          -- split; [discriminate|]. intros [H K]. destruct (traverse g r) as [R2|e2]; [|discriminate]. cbn [rbind] in H. injection H as <-. cbn [forallb] in K.
             apply andb_true_iff in K as [_ K]. assert (X := proj2 (IH R2 I1) (conj eq_refl K)). discriminate.
        * split; [discriminate|]. intros [H K]. destruct (traverse g r) as [R2|e2]; [|discriminate]. cbn [rbind] in H. injection H as <-. cbn [forallb] in K. now rewrite FE in K.
      + split; [discriminate|]. now intros [H _].
  Qed.
  Lemma in_turn_inv fit l s R s' : inv s -> in_turn f fit l s = (Ok R, s') -> inv s'.
  Proof.
    revert s R. induction l as [|t r IH]; intros s R I0; cbn [in_turn]; intros H.
    - now injection H as <- <-.
    - destruct (f t s) as [[E|e] s1] eqn:F; [|discriminate]. destruct (fit E); [|discriminate].
      destruct (in_turn f fit r s1) as [[R1|e] s2] eqn:Q; [|discriminate]. injection H as <- <-. eapply IH; [|exact Q]. eapply Hi; eauto.
  Qed.
  Lemma forallb_true {X} (l : list X) : forallb (fun _ => true) l = true.
  Proof. induction l; auto. Qed.
  Lemma in_pool_iff fit k l s R : inv s -> (0 < k)%nat -> (in_pool f fit k l s = Ok R <-> traverse g l = Ok R /\ forallb fit R = true).
  Proof.
    intros I0 K. unfold in_pool. destruct (Nat.eqb_spec k 0) as [->|_]; [lia|].
    replace (traverse g l) with (traverse g (concat (cut (length l) (chunk_size (length l) k) l))) by now rewrite cut_tasks. rewrite <- traverse_concat.
    assert (X : forall ls, match traverse (fun ch => fst (in_turn f (fun _ => true) ch s)) ls, traverse (traverse g) ls with Ok a, Ok b => a = b | Raise _, Raise _ => True | _, _ => False end).
    { induction ls as [|ch r IH]; [reflexivity|]. cbn [traverse].
      assert (Y := fun R0 => in_turn_iff (fun _ => true) ch s R0 I0).
      destruct (fst (in_turn f (fun _ => true) ch s)) as [u|e] eqn:U.
      - destruct (proj1 (Y u) eq_refl) as [V _]. rewrite V. cbn [rbind].
        destruct (traverse (fun ch0 => fst (in_turn f (fun _ => true) ch0 s)) r) as [a|e]; destruct (traverse (traverse g) r) as [b|e2]; cbn [rbind]; try tauto. now subst.
      - destruct (traverse g ch) as [v|e2] eqn:V; [|exact Logic.I]. assert (Z0 := proj2 (Y v) (conj eq_refl (forallb_true v))). discriminate. }
    specialize (X (cut (length l) (chunk_size (length l) k) l)).
    destruct (traverse (fun ch => fst (in_turn f (fun _ => true) ch s)) (cut (length l) (chunk_size (length l) k) l)) as [a|e];
      destruct (traverse (traverse g) (cut (length l) (chunk_size (length l) k) l)) as [b|e2]; try contradiction; cbn [rbind].
    - subst b. destruct (forallb fit (concat a)) eqn:FA.
      + split; [intros H; injection H as <-; split; [eauto|exact FA]|]. intros [(Rs & H & E) _]. injection H as <-. now rewrite E.
      + split; [discriminate|]. intros [(Rs & H & E) Q]. injection H as <-. rewrite E in FA. congruence.
    - split; [discriminate|]. now intros [(Rs & H & _) _].
  Qed.
  Lemma run_iff c l s R : inv s -> (s_par c = true -> (0 < s_threads c)%nat) -> (fst (run_tasks f c l s) = Ok R <-> traverse g l = Ok R /\ forallb (fits c) R = true).
  Proof.
    intros I0 K. unfold run_tasks. destruct (s_par c) eqn:P; cbn [fst]; [now apply in_pool_iff; auto|now apply in_turn_iff].
  Qed.
  Lemma run_inv c l s R s' : inv s -> run_tasks f c l s = (Ok R, s') -> inv s'.
  Proof.
    intros I0. unfold run_tasks. destruct (s_par c) eqn:P; intros H; [injection H as _ <-; exact I0|eapply in_turn_inv; eauto].
  Qed.
  Lemma run_par c l s R s' : s_par c = true -> run_tasks f c l s = (Ok R, s') -> s' = s.
  Proof. intros P. unfold run_tasks. rewrite P. intros H. now injection H. Qed.
  Lemma run_threads c l s R s' : run_tasks f c l s = (Ok R, s') -> s_par c = true -> (0 < s_threads c)%nat.
  Proof. clear Hg Hi g inv. unfold run_tasks, in_pool. intros H P. rewrite P in H. destruct (Nat.eqb_spec (s_threads c) 0); [discriminate|lia]. Qed.
End Tasks.

(* what the two kinds of task leave behind *)
Definition inv0 (s s1 : zst) : Prop := z_E s1 = z_E s /\ z_ind s1 = z_ind s /\ z_val s1 = z_val s.
Definition dind (s : zst) : list Z * list R := match z_ind s with Some x => x | None => ([], []) end.
Definition inv1 (c : scfg) (s s1 : zst) : Prop := z_E s1 = z_E s /\ (z_ind s1 = z_ind s \/ z_ind s1 = Some (dind s)) /\ (s_proper c = false -> z_val s1 = z_val s).
Lemma inv0_result full c s t s1 : inv0 s s1 -> fst (field_nominal full c t s1) = fst (field_nominal full c t s).
Proof.
  intros (A & B & D). unfold field_nominal. destruct (task_env c (fst t) (snd t)) as [[[si wi] p]|e]; [|reflexivity]. unfold set_pol. rewrite A, B, D. reflexivity.
Qed.
Lemma inv0_state full c s t s1 E s2 : inv0 s s1 -> field_nominal full c t s1 = (Ok E, s2) -> inv0 s s2.
Proof.
  intros (A & B & D). unfold field_nominal. destruct (task_env c (fst t) (snd t)) as [[[si wi] p]|e]; [|discriminate]. intros H. injection H as _ <-.
  unfold set_pol, inv0. cbn. auto.
Qed.
Lemma inv1_dind c s s1 : inv1 c s s1 -> match z_ind s1 with Some x => x | None => ([], []) end = dind s.
Proof. intros (_ & [B|B] & _); rewrite B; reflexivity. Qed.
Lemma inv1_result full c s t s1 : inv1 c s s1 -> fst (field_zern full c t s1) = fst (field_zern full c t s).
Proof.
  intros H. assert (DI := inv1_dind c s s1 H). destruct H as (A & B & D). unfold field_zern. destruct (task_env c (fst (fst t)) (snd (fst t))) as [[[si wi] p]|e]; [|reflexivity].
  rewrite DI. fold (dind s). cbv zeta. destruct (idx (s_zern c) (snd t)) as [z|e]; [|reflexivity].
  unfold disturb, set_pol. cbn [z_E z_ind z_val z_pol]. rewrite A. destruct (s_proper c).
  - destruct (existsb (Z.eqb z) (fst (dind s))).
    + destruct (bump (fst (dind s)) (snd (dind s)) z (s_rms c)) as [v|e]; cbn [rbind]; [|reflexivity]. destruct (full _ si wi); reflexivity.
    + destruct (full _ si wi); reflexivity.
  - rewrite (D eq_refl). destruct (s_map c z) as [m|e]; cbn [rbind]; [|reflexivity]. destruct (aberrate _ _ m _) as [F|e]; cbn [rbind]; [|reflexivity]. destruct (full _ si wi); reflexivity.
Qed.
Lemma inv1_state full c s t s1 E s2 : inv1 c s s1 -> field_zern full c t s1 = (Ok E, s2) -> inv1 c s s2.
Proof.
  intros H. assert (DI := inv1_dind c s s1 H). destruct H as (A & B & D). unfold field_zern. destruct (task_env c (fst (fst t)) (snd (fst t))) as [[[si wi] p]|e]; [|discriminate].
  rewrite DI. fold (dind s). cbv zeta. destruct (idx (s_zern c) (snd t)) as [z|e]; [|discriminate].
  unfold disturb, set_pol. cbn [z_E z_ind z_val z_pol]. intros H. unfold inv1. destruct (s_proper c).
  - destruct (existsb (Z.eqb z) (fst (dind s))).
    + destruct (bump (fst (dind s)) (snd (dind s)) z (s_rms c)) as [v|e]; cbn [rbind] in H; [|discriminate]. destruct (full _ si wi); [|discriminate]. injection H as _ <-. cbn. split; [exact A|]. split; [now right|discriminate].
    + destruct (full _ si wi); [|discriminate]. injection H as _ <-. cbn. split; [exact A|]. split; [now right|discriminate].
  - destruct (s_map c z) as [m|e]; cbn [rbind] in H; [|discriminate]. destruct (aberrate _ _ m _) as [F|e]; cbn [rbind] in H; [|discriminate]. destruct (full _ si wi); [|discriminate].
    injection H as _ <-. cbn. split; [exact A|]. split; [now right|]. intros _. now apply D.
Qed.
Lemma inv0_inv1 c s s1 : inv0 s s1 -> inv1 c s s1.
Proof. intros (A & B & D). split; [exact A|]. split; [now left|auto]. Qed.

(* the arrays of fields *)
Lemma pair_dec (x y : nat * nat) : {x = y} + {x <> y}. Proof. repeat decide equality. Qed.
Lemma triple_dec (x y : nat * nat * nat) : {x = y} + {x <> y}. Proof. repeat decide equality. Qed.
Lemma e0_get g ts R i j E : Forall2 (fun t E => g t = Ok E) ts R -> In (i, j) ts -> g (i, j) = Ok E -> e0_array ts R i j = E.
Proof.
  intros F HIn G. unfold e0_array.
  assert (X : forall a, (In (i, j) ts \/ a i j = E) -> fold_left (fun a x => put2 a (fst (fst x)) (snd (fst x)) (snd x)) (List.combine ts R) a i j = E).
  { clear HIn. induction F as [|t E' ts R Ht F IH]; intros a HI.
    - destruct HI as [[]|HI]. exact HI.
    - cbn [List.combine fold_left fst snd]. apply IH. destruct (in_dec pair_dec (i, j) ts) as [J|J]; [now left|right].
      unfold put2. destruct t as [p q]. cbn [fst snd]. destruct (Nat.eqb_spec i p) as [->|N1]; destruct (Nat.eqb_spec j q) as [->|N2]; cbn [andb];
        try (destruct HI as [[HI|HI]|HI]; [congruence|contradiction|exact HI]). congruence. }
  apply X. now left.
Qed.
Lemma de_get g ts R E0 il ip iz E : Forall2 (fun t E => g t = Ok E) ts R -> In (il, ip, iz) ts -> g (il, ip, iz) = Ok E ->
  forall i j, de_array ts R E0 il ip iz i j = Cminus (fpx E i j) (fpx (E0 il ip) i j).
Proof.
  intros F HIn G i j. unfold de_array.
  match goal with |- fold_left ?h _ _ _ _ _ _ _ = _ => set (step := h) end.
  assert (X : forall a, (In (il, ip, iz) ts \/ a il ip iz i j = Cminus (fpx E i j) (fpx (E0 il ip) i j)) -> fold_left step (List.combine ts R) a il ip iz i j = Cminus (fpx E i j) (fpx (E0 il ip) i j)).
  { clear HIn. induction F as [|t E' ts R Ht F IH]; intros a HI.
    - destruct HI as [[]|HI]. exact HI.
    - cbn [List.combine fold_left]. apply IH. destruct (in_dec triple_dec (il, ip, iz) ts) as [J|J]; [now left|right].
      unfold step at 1. destruct t as [[p q] r]. destruct (Nat.eqb_spec il p) as [->|N1]; destruct (Nat.eqb_spec ip q) as [->|N2]; destruct (Nat.eqb_spec iz r) as [->|N3]; cbn [andb];
        try (destruct HI as [[HI|HI]|HI]; [congruence|contradiction|exact HI]). assert (E' = E) by congruence. now subst. }
  apply X. now left.
Qed.

(* the averages *)
Lemma omean_some l : l <> [] -> omean (map Some l) = Some (rsuml l / INR (length l)).
Proof.
  intros H. unfold omean. replace (forallb _ (map Some l)) with true by (symmetry; apply forallb_forall; intros x Hx; apply in_map_iff in Hx as (y & <- & _); reflexivity).
  rewrite map_map, map_id. destruct l; [easy|reflexivity].
Qed.
Lemma de2_value c D iz i j : (0 < length (s_lam c))%nat -> (0 < npol c)%nat ->
  de2 c D iz i j = Some (rsum (length (s_lam c)) (fun il => rsum (npol c) (fun ip => abs2 (D il ip iz i j)) / INR (npol c)) / INR (length (s_lam c))).
Proof.
  intros L P. unfold de2.
  erewrite map_ext with (g := fun il => Some (rsum (npol c) (fun ip => abs2 (D il ip iz i j)) / INR (npol c))).
  2:{ intros il. unfold np_mean. rewrite <- rsuml_map_seq. destruct (npol c) as [|n] eqn:E; [lia|]. cbn [seq map]. f_equal. f_equal. cbn [length]. rewrite map_length, seq_length. reflexivity. }
  rewrite <- (map_map (fun il => rsum (npol c) (fun ip => abs2 (D il ip iz i j)) / INR (npol c)) Some). rewrite omean_some.
  - rewrite rsuml_map_seq, map_length, seq_length. reflexivity.
  - destruct (length (s_lam c)); [lia|discriminate].
Qed.
Lemma calc_iff full c s M : (s_par c = true -> (0 < s_threads c)%nat) ->
  fst (calc_zern_sens full c s) = Ok M <->
  exists ms R0 R1, traverse (zone_mask c) (s_rsens c) = Ok ms /\ (s_proper c = false -> exists q, traverse (s_map c) (s_zern c) = Ok q) /\
    traverse (fun t => fst (field_nominal full c t s)) (inds c) = Ok R0 /\ forallb (fits c) R0 = true /\
    traverse (fun t => fst (field_zern full c t s)) (inds_zern c) = Ok R1 /\ forallb (fits c) R1 = true /\
    sens_mat c (de_array (inds_zern c) R1 (e0_array (inds c) R0)) ms = Ok M.
Proof.
  intros K. unfold calc_zern_sens.
  destruct (traverse (zone_mask c) (s_rsens c)) as [ms|e] eqn:EM; cbn [rbind]; [|split; [discriminate|intros (? & ? & ? & H & _); discriminate]].
  assert (KM : (exists q, (if s_proper c then Ok [] else traverse (s_map c) (s_zern c)) = Ok q) <-> (s_proper c = false -> exists q, traverse (s_map c) (s_zern c) = Ok q)).
  { destruct (s_proper c); split; intros H; [discriminate|now exists []|auto|auto]. }
  destruct (if s_proper c then Ok [] else traverse (s_map c) (s_zern c)) as [q|e] eqn:EQ; cbn [rbind].
  2:{ split; [discriminate|]. intros (? & ? & ? & _ & H & _). apply KM in H as (q & H). discriminate. }
  assert (KQ := proj1 KM (ex_intro _ q eq_refl)).
  assert (I0 : inv0 s s) by (split; [|split]; reflexivity).
  assert (R0iff := fun R0 => run_iff (field_nominal full c) (fun t => fst (field_nominal full c t s)) (inv0 s)
    (fun t s1 H => inv0_result full c s t s1 H) (fun t s1 E s2 H H2 => inv0_state full c s t s1 E s2 H H2) c (inds c) s R0 I0 K).
  assert (S0 := fun R0 s1 => run_inv (field_nominal full c) (inv0 s) (fun t s1 E s2 H H2 => inv0_state full c s t s1 E s2 H H2) c (inds c) s R0 s1 I0).
  destruct (run_tasks (field_nominal full c) c (inds c) s) as [[R0|e] s1] eqn:ER; cbn [fst] in *.
  2:{ split; [discriminate|]. intros (? & R0 & ? & _ & _ & H1 & H2 & _). assert (X := proj2 (R0iff R0) (conj H1 H2)). discriminate. }
  destruct (proj1 (R0iff R0) eq_refl) as [A1 A2]. assert (I1 : inv1 c s s1) by (apply inv0_inv1; eapply S0; reflexivity).
  assert (R1iff := fun R1 => run_iff (field_zern full c) (fun t => fst (field_zern full c t s)) (inv1 c s)
    (fun t s1 H => inv1_result full c s t s1 H) (fun t s1 E s2 H H2 => inv1_state full c s t s1 E s2 H H2) c (inds_zern c) s1 R1 I1 K).
  destruct (run_tasks (field_zern full c) c (inds_zern c) s1) as [[R1|e] s2] eqn:ER1; cbn [fst] in *.
  2:{ split; [discriminate|]. intros (? & ? & R1 & _ & _ & _ & _ & H1 & H2 & _). assert (X := proj2 (R1iff R1) (conj H1 H2)). discriminate. }
  destruct (proj1 (R1iff R1) eq_refl) as [B1 B2]. split.
  - intros H. exists ms, R0, R1. auto 10.
  - intros (ms' & R0' & R1' & H1 & _ & H2 & _ & H3 & _ & H4). congruence.
Qed.
Lemma calc_threads full c s M s' : calc_zern_sens full c s = (Ok M, s') -> s_par c = true -> (0 < s_threads c)%nat.
Proof.
  unfold calc_zern_sens. destruct (do ms <- _; _) as [ms|e]; [|discriminate]. destruct (run_tasks (field_nominal full c) c (inds c) s) as [[R0|e] s1] eqn:E; [|discriminate].
  intros _. exact (run_threads _ c _ _ _ _ E).
Qed.
Lemma calc_state full c s M s' : calc_zern_sens full c s = (Ok M, s') -> inv1 c s s' /\ (s_par c = true -> s' = s).
Proof.
  unfold calc_zern_sens. destruct (do ms <- _; _) as [ms|e]; [|discriminate]. destruct (run_tasks (field_nominal full c) c (inds c) s) as [[R0|e] s1] eqn:E0; [|discriminate].
  destruct (run_tasks (field_zern full c) c (inds_zern c) s1) as [[R1|e] s2] eqn:E1; [|discriminate]. intros H. injection H as _ <-.
  assert (I0 : inv0 s s) by (split; [|split]; reflexivity).
  assert (I1 := run_inv _ _ (fun t s1 E s2 H H2 => inv0_state full c s t s1 E s2 H H2) c _ s R0 s1 I0 E0). split.
  - exact (run_inv _ _ (fun t s1 E s2 H H2 => inv1_state full c s t s1 E s2 H H2) c _ s1 R1 s2 (inv0_inv1 c s s1 I1) E1).
  - intros P. apply (run_par _ c _ _ _ _ P) in E1. apply (run_par _ c _ _ _ _ P) in E0. congruence.
Qed.
Lemma idx_some {A} (l : list A) k x : idx l k = Ok x <-> nth_error l k = Some x.
Proof. unfold idx. destruct (nth_error l k); split; intros H; congruence. Qed.
Lemma in_inds c il ip : In (il, ip) (inds c) <-> (il < length (s_lam c))%nat /\ (ip < npol c)%nat.
Proof. unfold inds. rewrite in_prod_iff, !in_seq. lia. Qed.
Lemma in_inds_zern c il ip iz : In (il, ip, iz) (inds_zern c) <-> (il < length (s_lam c))%nat /\ (ip < npol c)%nat /\ (iz < length (s_zern c))%nat.
Proof. unfold inds_zern. rewrite in_prod_iff, in_prod_iff, !in_seq. lia. Qed.
Lemma forall2_get {A B} (f : A -> res B) l R t : Forall2 (fun x y => f x = Ok y) l R -> In t l -> exists y, f t = Ok y.
Proof. intros F H. induction F; [easy|]. destruct H as [->|H]; eauto. Qed.
Lemma rsuml_filter {X} (v : X -> R) p l : rsuml (map v (filter p l)) = rsuml (map (fun x => if p x then v x else 0) l).
Proof. induction l as [|x t IH]; [reflexivity|]. cbn [filter map rsuml]. destruct (p x); cbn [map rsuml]; rewrite IH; ring. Qed.
Lemma cells_sum c (v : nat -> nat -> R) : rsuml (map (fun q => v (fst q) (snd q)) (cells c)) = rsum (s_ne c) (fun i => rsum (s_nx c) (fun j => v i j)).
Proof.
  unfold cells. assert (G : forall a, rsuml (map (fun q => v (fst q) (snd q)) (list_prod a (seq 0 (s_nx c)))) = rsuml (map (fun i => rsum (s_nx c) (v i)) a)).
  { induction a as [|x a IH]; [reflexivity|]. cbn [list_prod map rsuml]. rewrite map_app, rsuml_app, IH, map_map. cbn [fst snd]. now rewrite rsuml_map_seq. }
  rewrite G, rsuml_map_seq. reflexivity.
Qed.
Lemma length_filter {X} p (l : list X) : INR (length (filter p l)) = rsuml (map (fun x => if p x then 1 else 0) l).
Proof. induction l as [|x t IH]; [reflexivity|]. cbn [filter map rsuml]. destruct (p x); [cbn [length]; rewrite S_INR, IH; ring|rewrite IH; ring]. Qed.
Lemma forall2_length {A B} (P : A -> B -> Prop) l r : Forall2 P l r -> length l = length r.
Proof. induction 1; cbn; congruence. Qed.
