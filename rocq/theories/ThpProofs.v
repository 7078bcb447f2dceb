From Verif Require Import StrBase Base RBase CtrlModel CBase PropModel PropSpec OptModel SrcModel ThpModel.
Open Scope R_scope.
Lemma abs2_pos z : 0 <= abs2 z. Proof. unfold abs2. nra. Qed.
Lemma rsuml_prod (n m : nat) (f : nat -> nat -> R) : rsuml (map (fun p => f (fst p) (snd p)) (list_prod (seq 0 n) (seq 0 m))) = rsum n (fun k => rsum m (fun s => f k s)).
Proof.
  rewrite <- (rsuml_map_seq n). generalize (seq 0 n). induction l as [|k l IH]; [reflexivity|]. cbn [list_prod map rsuml]. rewrite map_app, rsuml_app, IH. f_equal.
  rewrite map_map. cbn [fst snd]. rewrite <- (rsuml_map_seq m). reflexivity.
Qed.
(* the loop adds one intensity after another *)
Lemma off_loop_ok cmp w x y ev (E : nat -> nat -> field C) r c l : (forall k si, In (k, si) l -> cmp (off_var x y k si) ev = Ok (E k si) /\ frows (E k si) = r /\ fcols (E k si) = c) ->
  forall B, frows B = r -> fcols B = c -> exists A, off_loop cmp w x y ev l (Some B) = Ok (Some A) /\ frows A = r /\ fcols A = c /\
    forall i j, fpx A i j = fpx B i j + rsuml (map (fun p => abs2 (fpx (E (fst p) (snd p)) i j) * w (snd p)) l).
Proof.
  induction l as [|[k si] l IH]; intros H B Br Bc.
  - exists B. cbn. repeat split; auto. intros. ring.
  - destruct (H k si) as (H1 & H2 & H3); [now left|]. cbn [off_loop]. rewrite H1. cbn [rbind]. unfold iadd, intensity at 1 2. cbn [frows fcols fpx]. rewrite H2, H3, Br, Bc, !Nat.eqb_refl. cbn [andb rbind].
    destruct (IH (fun k0 s0 h => H k0 s0 (or_intror h)) (mkf r c (fun i j => fpx B i j + fpx (intensity (w si) (E k si)) i j))) as (A & A1 & A2 & A3 & A4); [reflexivity|reflexivity|].
    exists A. repeat split; auto. intros i j. rewrite A4. cbn [fpx intensity map rsuml fst snd]. cbn [fold_right]. ring.
Qed.
Lemma off_ok cmp s x y ev (E : nat -> nat -> field C) r c : (1 <= sc_stars s)%nat -> (1 <= sc_nsbp s)%nat ->
  (forall k si, (k < sc_stars s)%nat -> (si < sc_nsbp s)%nat -> cmp (off_var x y k si) ev = Ok (E k si) /\ frows (E k si) = r /\ fcols (E k si) = c) ->
  exists A, offaxis_image cmp s x y ev = Ok (Some A) /\ frows A = r /\ fcols A = c /\
    forall i j, fpx A i j = rsum (sc_stars s) (fun k => rsum (sc_nsbp s) (fun si => abs2 (fpx (E k si) i j) * sc_w s si)).
Proof.
  intros Hs Hn H. unfold offaxis_image.
  assert (HI : forall k si, In (k, si) (off_terms s) -> cmp (off_var x y k si) ev = Ok (E k si) /\ frows (E k si) = r /\ fcols (E k si) = c).
  { intros k si I1. apply in_prod_iff in I1. destruct I1 as [I1 I2]. apply in_seq in I1. apply in_seq in I2. apply H; lia. }
  assert (V : forall i j, rsum (sc_stars s) (fun k => rsum (sc_nsbp s) (fun si => abs2 (fpx (E k si) i j) * sc_w s si)) = rsuml (map (fun p => abs2 (fpx (E (fst p) (snd p)) i j) * sc_w s (snd p)) (off_terms s))).
  { intros i j. unfold off_terms. now rewrite (rsuml_prod _ _ (fun k si => abs2 (fpx (E k si) i j) * sc_w s si)). }
  setoid_rewrite V. clear V.
  assert (NE : off_terms s <> []).
  { intros E0. assert (I0 : In (0%nat, 0%nat) (off_terms s)) by (apply in_prod_iff; split; apply in_seq; lia). rewrite E0 in I0. destruct I0. }
  destruct (off_terms s) as [|[k si] l]; [congruence|]. cbn [off_loop]. destruct (HI k si) as (H1 & H2 & H3); [now left|]. rewrite H1. cbn [rbind iadd].
  destruct (off_loop_ok cmp (sc_w s) x y ev E r c l (fun k0 s0 h => HI k0 s0 (or_intror h)) (intensity (sc_w s si) (E k si)) H2 H3) as (A & A1 & A2 & A3 & A4).
  exists A. repeat split; auto.
Qed.
(* the loop fails when a term does *)
Lemma off_loop_fails cmp w x y ev l k si : In (k, si) l -> (forall F, cmp (off_var x y k si) ev <> Ok F) -> forall acc A, off_loop cmp w x y ev l acc <> Ok A.
Proof.
  induction l as [|[k0 s0] l IH]; intros I1 N acc A; [destruct I1|]. cbn [off_loop]. destruct (cmp (off_var x y k0 s0) ev) as [F|] eqn:Ec; cbn [rbind]; [|discriminate].
  destruct I1 as [E0|I1]. { injection E0 as -> ->. now apply N in Ec. }
  destruct (iadd acc _); cbn [rbind]; [now apply IH|discriminate].
Qed.
(* maximum *)
Lemma fold_max l : forall a, (In (fold_left Rmax l a) (a :: l)) /\ forall v, In v (a :: l) -> v <= fold_left Rmax l a.
Proof.
  induction l as [|b l IH]; intros a. { cbn. split; [now left|]. intros v [ -> |[]]. lra. }
  cbn [fold_left]. destruct (IH (Rmax a b)) as [I1 I2]. split.
  - destruct I1 as [E0|I1]; [|now right; right]. rewrite <- E0. unfold Rmax. destruct (Rle_dec a b); [right; now left|now left].
  - intros v [ -> |[ -> |Iv]].
    + eapply Rle_trans; [apply Rmax_l|]. apply I2. now left.
    + eapply Rle_trans; [apply Rmax_r|]. apply I2. now left.
    + apply I2. now right.
Qed.
Lemma in_pixels A v : In v (pixels A) <-> exists i j, (i < frows A)%nat /\ (j < fcols A)%nat /\ v = fpx A i j.
Proof.
  unfold pixels. rewrite in_flat_map. split.
  - intros (i & Hi & H). apply in_map_iff in H. destruct H as (j & <- & Hj). apply in_seq in Hi. apply in_seq in Hj. exists i, j. repeat split; lia.
  - intros (i & j & Hi & Hj & ->). exists i. split; [apply in_seq; lia|]. apply in_map_iff. exists j. split; auto. apply in_seq; lia.
Qed.
Definition is_max (A : field R) (M : R) : Prop :=
  (exists i j, (i < frows A)%nat /\ (j < fcols A)%nat /\ fpx A i j = M) /\ forall i j, (i < frows A)%nat -> (j < fcols A)%nat -> fpx A i j <= M.
Lemma np_max_spec A M : np_max A = Ok M <-> is_max A M.
Proof.
  assert (U : forall M', np_max A = Ok M' -> is_max A M').
  { intros M'. unfold np_max. destruct (pixels A) as [|a l] eqn:Ep; [discriminate|]. intros [= <-]. destruct (fold_max l a) as [I1 I2]. rewrite <- Ep in I1, I2. split.
    - apply in_pixels in I1. destruct I1 as (i & j & Hi & Hj & ->). now exists i, j.
    - intros i j Hi Hj. apply I2. apply in_pixels. now exists i, j. }
  split; [apply U|]. intros ((i & j & Hi & Hj & E0) & L). destruct (np_max A) as [M'|e] eqn:Em.
  - destruct (U _ eq_refl) as ((i' & j' & Hi' & Hj' & E0') & L'). f_equal. apply Rle_antisym; [rewrite <- E0'; auto|rewrite <- E0; auto].
  - unfold np_max in Em. destruct (pixels A) as [|a l] eqn:Ep; [|discriminate]. assert (I0 : In (fpx A i j) (pixels A)) by (apply in_pixels; now exists i, j). rewrite Ep in I0. destruct I0.
Qed.
Lemma np_max_exists A : (1 <= frows A)%nat -> (1 <= fcols A)%nat -> exists M, np_max A = Ok M.
Proof.
  intros H1 H2. unfold np_max. destruct (pixels A) as [|a l] eqn:Ep; [|eauto]. assert (I0 : In (fpx A 0 0) (pixels A)) by (apply in_pixels; exists 0%nat, 0%nat; repeat split; lia). rewrite Ep in I0. destruct I0.
Qed.
Lemma rsum_le n f g : (forall k, (k < n)%nat -> f k <= g k) -> rsum n f <= rsum n g.
Proof. induction n; intros H; [apply Rle_refl|]. cbn [rsum]. apply Rplus_le_compat; [apply IHn; intros; apply H; lia|apply H; lia]. Qed.
Lemma rsum_ge1 n f k : (k < n)%nat -> (forall i, (i < n)%nat -> 0 <= f i) -> f k <= rsum n f.
Proof.
  intros Hk P. apply (Rle_trans _ (rsum n (fun i => if Nat.eqb i k then f k else 0))).
  - rewrite (rsum_single n k); [rewrite Nat.eqb_refl; lra|auto|intros i Hi Hn; destruct (Nat.eqb_spec i k); [lia|reflexivity]].
  - apply rsum_le. intros i Hi. destruct (Nat.eqb_spec i k); [subst; lra|]. now apply P.
Qed.
Lemma masked_le A m m' : (forall i j, (i < frows A)%nat -> (j < fcols A)%nat -> 0 <= fpx A i j) -> (forall i j, (i < frows A)%nat -> (j < fcols A)%nat -> m i j = true -> m' i j = true) -> masked_sum A m <= masked_sum A m'.
Proof.
  intros P S. unfold masked_sum. apply rsum_le. intros i Hi. apply rsum_le. intros j Hj. specialize (S i j Hi Hj). specialize (P i j Hi Hj). destruct (m i j); [rewrite S by auto; lra|]. destruct (m' i j); lra.
Qed.
Lemma leb_iff a b : leb a b = true <-> a <= b. Proof. unfold leb. destruct (Rle_dec a b); intuition; try discriminate; contradiction. Qed.
