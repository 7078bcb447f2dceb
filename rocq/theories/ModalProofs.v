From Coq Require Import Sorted.
From Verif Require Import Base RBase EfcProofs JacModel SpectModel SpectSpec SpectProofs SpectProofs2.
Open Scope R_scope.

Section Modal.
  Variables (Nsbp : nat) (perfect : bool).
  Hypothesis HN : (1 <= Nsbp)%nat.

  Notation special := (SpectSpec.special Nsbp).
  Notation active := (SpectSpec.active Nsbp).

  Lemma mat_step_other m iz z a b : b <> 0%nat -> b <> iz -> mat_step Nsbp m iz z a b = m a b.
  Proof.
    intros H1 H2. unfold mat_step, m_set. destruct (z =? 1)%Z.
    - destruct (Nat.eqb_spec b 0); [contradiction|reflexivity].
    - destruct (Nat.eqb_spec b iz); [contradiction|]. rewrite !andb_false_r. reflexivity.
  Qed.
  Lemma mat_step_self m iz z a : iz <> 0%nat -> mat_step Nsbp m iz z a iz = if (z =? 1)%Z then m a iz else if special a then 1 else m a iz.
  Proof.
    intros H. unfold mat_step, m_set, SpectSpec.special, si_ref. destruct (z =? 1)%Z.
    - destruct (Nat.eqb_spec iz 0); [contradiction|reflexivity].
    - rewrite Nat.eqb_refl, !andb_true_r. destruct (Nat.eqb a (Nsbp - 1)), (Nat.eqb a (Nsbp / 2)), (Nat.eqb a 0); reflexivity.
  Qed.
  Lemma mat_loop_before : forall zs m iz a b, b <> 0%nat -> (b < iz)%nat -> mat_loop Nsbp m iz zs a b = m a b.
  Proof.
    induction zs as [|z zs IH]; intros m iz a b H1 H2; [reflexivity|]. cbn [mat_loop]. rewrite IH by lia. apply mat_step_other; lia.
  Qed.
  Lemma mat_loop_col : forall zs m iz a b, b <> 0%nat -> (iz <= b)%nat ->
    mat_loop Nsbp m iz zs a b = match nth_error zs (b - iz) with
      | Some z => if (z =? 1)%Z then m a b else if special a then 1 else m a b
      | None => m a b end.
  Proof.
    induction zs as [|z zs IH]; intros m iz a b H1 H2; [now destruct (b - iz)%nat|]. cbn [mat_loop].
    destruct (Nat.eq_dec b iz) as [->|Hn].
    - rewrite mat_loop_before by lia. rewrite Nat.sub_diag. cbn [nth_error]. now apply mat_step_self.
    - rewrite IH by lia. replace (b - iz)%nat with (S (b - S iz)) by lia. cbn [nth_error]. rewrite mat_step_other by lia. reflexivity.
  Qed.
  Lemma mat_step_col0 m iz z a : iz <> 0%nat -> mat_step Nsbp m iz z a 0 = if (z =? 1)%Z then 1 else m a 0%nat.
  Proof.
    intros H. unfold mat_step, m_set. destruct (z =? 1)%Z; [reflexivity|]. destruct (Nat.eqb_spec 0 iz); [lia|]. now rewrite !andb_false_r.
  Qed.
  Lemma mat_loop_col0 : forall zs m iz a, iz <> 0%nat -> mat_loop Nsbp m iz zs a 0 = if existsb (Z.eqb 1) zs then 1 else m a 0%nat.
  Proof.
    induction zs as [|z zs IH]; intros m iz a H; [reflexivity|]. cbn [mat_loop existsb]. rewrite IH by lia. rewrite mat_step_col0 by auto.
    rewrite (Z.eqb_sym 1 z). destruct (z =? 1)%Z; cbn; [|reflexivity]. now destruct (existsb (Z.eqb 1) zs).
  Qed.
  Lemma base_col0 zs a : existsb (Z.eqb 1) zs = true -> mat_loop Nsbp (fun _ _ => 0) 0 zs a 0 = 1.
  Proof.
    destruct zs as [|z zs]; [discriminate|]. cbn [mat_loop existsb]. intros H. rewrite mat_loop_col0 by lia.
    destruct (existsb (Z.eqb 1) zs); [reflexivity|]. rewrite orb_false_r in H. rewrite Z.eqb_sym in H.
    unfold mat_step. rewrite H. reflexivity.
  Qed.

  (* the weight before normalisation: half at the band ends for the 'perfect' estimator (applied to both
     ends; a single sub-band gets it twice) *)
  Definition end_factor (a : nat) : R :=
    if perfect then (if Nat.eqb a (Nsbp - 1) then 1/2 else 1) * (if Nat.eqb a 0 then 1/2 else 1) else 1.
  Lemma end_factor_pos a : 0 < end_factor a.
  Proof. unfold end_factor. destruct perfect, (Nat.eqb a (Nsbp - 1)), (Nat.eqb a 0); lra. Qed.
  Lemma raw_mat_eq zs a b : raw_mat Nsbp perfect zs a b = end_factor a * mat_loop Nsbp (fun _ _ => 0) 0 zs a b.
  Proof.
    unfold raw_mat, end_factor, half_row. destruct perfect; [|ring].
    destruct (Nat.eqb a (Nsbp - 1)), (Nat.eqb a 0); lra.
  Qed.

  Lemma raw_piston_first zs a b z : nth_error zs 0 = Some 1%Z -> NoDup zs -> nth_error zs b = Some z ->
    raw_mat Nsbp perfect zs a b = if active z a then end_factor a else 0.
  Proof.
    intros H0 ND Hb. rewrite raw_mat_eq. destruct b as [|b].
    - assert (z = 1%Z) by congruence. subst z. rewrite base_col0; [cbn; ring|].
      destruct zs; [discriminate|]. cbn in H0. injection H0 as ->. reflexivity.
    - rewrite mat_loop_col by lia. rewrite Nat.sub_0_r, Hb. unfold SpectSpec.active.
      destruct (Z.eqb_spec z 1) as [->|]; [|destruct (special a); ring].
      exfalso. rewrite NoDup_nth_error in ND. assert (0 = S b)%nat; [|lia]. apply ND; [|congruence].
      apply nth_error_Some. congruence.
  Qed.
  Lemma special0 : special 0 = true.
  Proof. reflexivity. Qed.
  Lemma raw_sum_pos zs b z : nth_error zs 0 = Some 1%Z -> NoDup zs -> nth_error zs b = Some z ->
    0 < rsum Nsbp (fun i => raw_mat Nsbp perfect zs i b).
  Proof.
    intros H0 ND Hb. rewrite (rsum_ext _ _ (fun i => if active z i then end_factor i else 0)).
    2:{ intros; now apply raw_piston_first. }
    assert (G : forall n, 0 < rsum (S n) (fun i => if active z i then end_factor i else 0)).
    { induction n as [|n IH].
      - cbn [rsum]. assert (A : active z 0 = true) by (unfold SpectSpec.active; destruct (z =? 1)%Z; reflexivity). rewrite A. assert (H := end_factor_pos 0). lra.
      - cbn [rsum] in *. assert (H := end_factor_pos (S n)). destruct (active z (S n)); lra. }
    replace Nsbp with (S (Nsbp - 1)) at 1 by lia. apply G.
  Qed.

  Section Final.
    Variables (zs : list Z) (zc : list R).
    Hypothesis H0 : nth_error zs 0 = Some 1%Z.
    Hypothesis ND : NoDup zs.
    Let mat := final_mat Nsbp perfect zs zc.

    Lemma final_active b z : nth_error zs b = Some z -> nth b zc 0 <> 0 -> exists v : nat -> R,
      (forall a, mat a b = Some (v a)) /\ rsum Nsbp v = 1 /\
      (forall a, active z a = true -> 0 < v a) /\ (forall a, active z a = false -> v a = 0).
    Proof.
      intros Hb Hc. assert (P := raw_sum_pos zs b z H0 ND Hb).
      exists (fun a => raw_mat Nsbp perfect zs a b / rsum Nsbp (fun i => raw_mat Nsbp perfect zs i b)). repeat split.
      - intros a. unfold mat, final_mat, fdiv. destruct (Req_EM_T (rsum Nsbp (fun i => raw_mat Nsbp perfect zs i b)) 0); [lra|].
        destruct (Req_EM_T (nth b zc 0) 0); [contradiction|reflexivity].
      - unfold Rdiv. rewrite rsum_scal_r. apply Rinv_r. lra.
      - intros a Ha. apply Rdiv_lt_0_compat; auto. rewrite (raw_piston_first zs a b z), Ha by auto. apply end_factor_pos.
      - intros a Ha. rewrite (raw_piston_first zs a b z), Ha by auto. unfold Rdiv. ring.
    Qed.
    Lemma final_inactive b z a : nth_error zs b = Some z -> nth b zc 0 = 0 -> mat a b = Some 0.
    Proof.
      intros Hb Hc. assert (P := raw_sum_pos zs b z H0 ND Hb). unfold mat, final_mat, fdiv.
      destruct (Req_EM_T (rsum Nsbp (fun i => raw_mat Nsbp perfect zs i b)) 0); [lra|].
      destruct (Req_EM_T (nth b zc 0) 0); [|contradiction]. cbn. f_equal. ring.
    Qed.
    Lemma positive_iff a b z : nth_error zs b = Some z ->
      positive (mat a b) = true <-> nth b zc 0 <> 0 /\ active z a = true.
    Proof.
      intros Hb. destruct (Req_dec (nth b zc 0) 0) as [E|E].
      - rewrite (final_inactive b z a Hb E). cbn. destruct (Rlt_dec 0 0); [lra|]. split; [discriminate|intros [H _]; contradiction].
      - destruct (final_active b z Hb E) as (v & V1 & _ & V3 & V4). rewrite V1. cbn.
        destruct (active z a) eqn:A.
        + specialize (V3 a A). destruct (Rlt_dec 0 (v a)); [tauto|contradiction].
        + specialize (V4 a A). rewrite V4. destruct (Rlt_dec 0 0); [lra|]. split; [discriminate|intros [_ H]; discriminate].
    Qed.
  End Final.
End Modal.

(* ---- tiling ---- *)
Lemma nth_error_tile {X} : forall n (v : list X) k, (0 < length v)%nat ->
  nth_error (tile n v) k = if Nat.ltb k (n * length v) then nth_error v (k mod length v) else None.
Proof.
  unfold tile. induction n as [|n IH]; intros v k Hv; cbn [repeat concat]; [destruct k; reflexivity|].
  destruct (lt_dec k (length v)) as [H|H].
  - rewrite nth_error_app1 by auto. rewrite Nat.mod_small by auto. destruct (Nat.ltb_spec k (S n * length v)); [auto|nia].
  - rewrite nth_error_app2 by lia. rewrite IH by auto.
    assert (E : (k mod length v = (k - length v) mod length v)%nat).
    { replace k with (k - length v + 1 * length v)%nat at 1 by lia. now rewrite Nat.mod_add by lia. }
    rewrite E. destruct (Nat.ltb_spec (k - length v) (n * length v)), (Nat.ltb_spec k (S n * length v)); auto; nia.
Qed.
Lemma tile_length {X} n (v : list X) : length (tile n v) = (n * length v)%nat.
Proof. unfold tile. induction n; cbn; [auto|]. rewrite app_length. lia. Qed.
Lemma nth_error_stars : forall n per k s0, (0 < per)%nat ->
  nth_error (concat (map (fun s => repeat s per) (seq s0 n))) k = if Nat.ltb k (n * per) then Some (s0 + k / per)%nat else None.
Proof.
  induction n as [|n IH]; intros per k s0 Hp; cbn [seq map concat]; [destruct k; reflexivity|].
  destruct (lt_dec k per) as [H|H].
  - rewrite nth_error_app1 by (rewrite repeat_length; auto). rewrite Nat.div_small by auto.
    destruct (Nat.ltb_spec k (S n * per)); [|nia]. rewrite nth_error_repeat by auto. f_equal. lia.
  - rewrite nth_error_app2 by (rewrite repeat_length; lia). rewrite repeat_length, IH by auto.
    assert (E : (k / per = S ((k - per) / per))%nat).
    { replace k with (k - per + 1 * per)%nat at 1 by lia. rewrite Nat.div_add by lia. lia. }
    rewrite E. destruct (Nat.ltb_spec (k - per) (n * per)), (Nat.ltb_spec k (S n * per)); auto; try nia. f_equal. lia.
Qed.

(* ---- counting modes ---- *)
Lemma list_prod_sum (f : nat -> nat -> R) la lb :
  rsuml (map (fun '(a, b) => f a b) (list_prod la lb)) = rsuml (map (fun a => rsuml (map (f a) lb)) la).
Proof.
  induction la as [|a la IH]; [reflexivity|]. cbn [list_prod]. rewrite map_app, rsuml_app, IH. cbn [map rsuml]. f_equal.
  now rewrite map_map.
Qed.
Lemma filter_sum {X} (p : X -> bool) (f : X -> R) l : rsuml (map f (filter p l)) = rsuml (map (fun x => if p x then f x else 0) l).
Proof. induction l as [|x l IH]; [reflexivity|]. cbn. destruct (p x); cbn; rewrite IH; ring. Qed.

Lemma lex_app (A B : list (nat * nat)) : StronglySorted lex_lt A -> StronglySorted lex_lt B ->
  (forall x y, In x A -> In y B -> (fst x < fst y)%nat) -> StronglySorted lex_lt (A ++ B).
Proof.
  induction A as [|x A IHA]; intros SA SB HAB; [auto|]. cbn. apply StronglySorted_inv in SA. destruct SA as [S1 S2].
  constructor; [apply IHA; auto; intros; apply HAB; auto; now right|]. apply Forall_app. split; auto.
  apply Forall_forall. intros y Hy. left. apply HAB; auto. now left.
Qed.
Lemma row_sorted s k : forall t, StronglySorted lex_lt (map (fun y : nat => (s, y)) (seq t k)).
Proof.
  induction k as [|k IHk]; intros t; cbn; [constructor|]. constructor; [apply IHk|].
  apply Forall_forall. intros y Hy. apply in_map_iff in Hy. destruct Hy as (q & <- & Hq). apply in_seq in Hq. right. cbn. lia.
Qed.
Lemma prod_sorted n k t : forall s, StronglySorted lex_lt (list_prod (seq s n) (seq t k)).
Proof.
  induction n as [|n IH]; intros s; cbn [seq list_prod]; [constructor|]. apply lex_app.
  - apply row_sorted.
  - apply IH.
  - intros x y Hx Hy. apply in_map_iff in Hx. destruct Hx as (q & <- & Hq). destruct y as [c d].
    apply in_prod_iff in Hy. destruct Hy as [Hy _]. apply in_seq in Hy. cbn. lia.
Qed.
