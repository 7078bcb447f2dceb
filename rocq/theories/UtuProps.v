(* C93: the scale of AD-EFC's voltage penalty (set_utu_scale_fac) *)
From Coq Require Import Sorted Permutation.
From Verif Require Import Base RBase CtrlModel DmModel DmProofs EfcSpec JacModel JacSpec JacProofs CullProofs JacProps UtuModel UtuProofs.
Open Scope R_scope.

(* ---- specification ---- *)
(* the mask selects actuator a *)
Definition selects (mask : list bool) (a : Z) : Prop := (0 <= a)%Z /\ nth_error mask (Z.to_nat a) = Some true.
Definition mask_of (c : ucfg) (k : Z) : list bool := if (k =? 1)%Z then c_mask1 c else c_mask2 c.
(* actuator a of DM k is among those chosen for the normalisation *)
Definition chosen (c : ucfg) (k a : Z) : Prop := (k = 1%Z \/ k = 2%Z) /\ In k (c_dm_ind c) /\ selects (mask_of c k) a.
(* mode-weighted squared response of an actuator *)
Definition influence (c : ucfg) (k a : Z) : R :=
  rsum (c_nmode c) (fun m => c_w c m * rsum (c_npix c) (fun p => fst (c_resp c k m a p) ^ 2 + snd (c_resp c k m a p) ^ 2)).
Definition count_true (l : list bool) : nat := length (filter (fun b => b) l).
(* a DM and its mask that the function can handle *)
Definition good_dm (c : ucfg) (k : Z) (d : jdm) : Prop :=
  (0 <= jNele d)%Z /\
  (In k (c_dm_ind c) -> Z.of_nat (length (mask_of c k)) = jNact d /\ count_true (mask_of c k) <> 1%nat /\ jtied d = []).
Definition largest_influence (c : ucfg) (M : R) : Prop :=
  (exists k a, chosen c k a /\ M = influence c k a) /\ forall k a, chosen c k a -> influence c k a <= M.

(* ---- helpers ---- *)
Lemma usedb_iff l k : usedb l k = true <-> In k l.
Proof. unfold usedb. rewrite existsb_exists. split; [intros (x & H & E); apply Z.eqb_eq in E; now subst|intros H; exists k; split; [auto|apply Z.eqb_refl]]. Qed.
Lemma nonzero_count (l : list bool) : forall k, length (nonzero_from (fun b => b) k l) = count_true l.
Proof. unfold count_true. induction l as [|[] l IH]; intros k; cbn; auto. Qed.
Lemma rsuml_rsum f : forall n, rsuml (map f (seq 0 n)) = rsum n f.
Proof. induction n as [|n IH]; [reflexivity|]. rewrite seq_S, map_app. cbn [map rsum Nat.add]. rewrite <- IH.
  generalize (map f (seq 0 n)). induction l as [|x l IHl]; cbn [app rsuml]; [cbn; lra|]. rewrite IHl. lra. Qed.
Lemma infl_influence c k a : infl c (seq 0 (c_nmode c)) (k, a) = influence c k a.
Proof. unfold infl, influence. rewrite rsuml_rsum. apply rsum_ext. intros m _. f_equal. apply rsum_ext. intros p _. cbn [fst snd]. unfold sqmod. ring. Qed.
Definition sub (d : jdm) (mask : list bool) : jdm :=
  mkjdm (jNact d) (nonzero (fun b => b) mask) false (Z.of_nat (count_true mask)) (jtied d).
Lemma choose_ok d mask : Z.of_nat (length mask) = jNact d -> choose d mask = Ok (sub d mask).
Proof. intros H. unfold choose, sub. apply Z.eqb_eq in H. rewrite H. unfold nonzero. now rewrite nonzero_count. Qed.
Lemma put_back_id d mask : put_back (sub d mask) d = d.
Proof. destruct d. reflexivity. Qed.
Lemma taken_in c k a : In (k, a) (taken c (nonzero (fun b => b) (c_mask1 c)) (nonzero (fun b => b) (c_mask2 c))) <-> chosen c k a.
Proof.
  unfold taken, chosen, mask_of. rewrite in_app_iff, <- usedb_iff. split.
  - intros [H|H].
    + destruct (usedb (c_dm_ind c) 1) eqn:E; [|destruct H]. apply in_map_iff in H. destruct H as (x & Ex & H). inversion Ex; subst.
      apply nonzero_in in H. repeat split; auto; tauto.
    + destruct (usedb (c_dm_ind c) 2) eqn:E; [|destruct H]. apply in_map_iff in H. destruct H as (x & Ex & H). inversion Ex; subst.
      apply nonzero_in in H. repeat split; auto; tauto.
  - intros ([->| ->] & HU & HS); rewrite HU; [left|right]; apply in_map; now apply nonzero_in.
Qed.

(* ---- C93 ---- *)
(* on success both DMs are exactly as before the call and the scale is the largest influence of a chosen actuator *)
Theorem C93_scale : forall c s, c_par c = false -> c_npix c <> 1%nat ->
  good_dm c 1 (u_d1 s) -> good_dm c 2 (u_d2 s) -> (exists k a, chosen c k a) ->
  exists M, set_utu c (Ok tt) s = (Ok tt, mku (u_d1 s) (u_d2 s) (Some M)) /\ largest_influence c M.
Proof.
  intros c [d1 d2 fac] HPar HPix [N1 H1] [N2 H2] (k0 & a0 & HC). cbn [u_d1 u_d2 u_fac] in *. unfold set_utu. cbn [u_d1 u_d2 u_fac].
  unfold mask_of in H1, H2. cbn [Z.eqb] in H1, H2. change ((2 =? 1)%Z) with false in H2. cbv iota in H1, H2.
  rewrite <- usedb_iff in H1. rewrite <- usedb_iff in H2.
  set (e1 := if usedb (c_dm_ind c) 1 then sub d1 (c_mask1 c) else d1).
  set (e2 := if usedb (c_dm_ind c) 2 then sub d2 (c_mask2 c) else d2).
  replace (if usedb (c_dm_ind c) 1 then choose d1 (c_mask1 c) else Ok d1) with (Ok e1)
    by (subst e1; destruct (usedb (c_dm_ind c) 1); [|reflexivity]; now rewrite choose_ok by (now apply H1)).
  replace (if usedb (c_dm_ind c) 2 then choose d2 (c_mask2 c) else Ok d2) with (Ok e2)
    by (subst e2; destruct (usedb (c_dm_ind c) 2); [|reflexivity]; now rewrite choose_ok by (now apply H2)).
  rewrite HPar.
  set (a1 := nonzero (fun b => b) (c_mask1 c)). set (a2 := nonzero (fun b => b) (c_mask2 c)).
  assert (E1 : usedb (c_dm_ind c) 1 = true -> jact e1 = a1 /\ jNele e1 = Z.of_nat (length a1) /\ length a1 <> 1%nat /\ jtied e1 = []).
  { intros E. subst e1. rewrite E. destruct (H1 E) as (A & B & T). unfold sub. cbn. subst a1. unfold nonzero. rewrite nonzero_count. auto. }
  assert (E2 : usedb (c_dm_ind c) 2 = true -> jact e2 = a2 /\ jNele e2 = Z.of_nat (length a2) /\ length a2 <> 1%nat /\ jtied e2 = []).
  { intros E. subst e2. rewrite E. destruct (H2 E) as (A & B & T). unfold sub. cbn. subst a2. unfold nonzero. rewrite nonzero_count. auto. }
  destruct (jac_serial_ok vzero (c_resp c) (c_dm_ind c) e1 e2 (c_nmode c)) as (G1 & G2 & EG & F1 & F2 & _).
  { subst e1. destruct (usedb (c_dm_ind c) 1); cbn; lia. }
  { subst e2. destruct (usedb (c_dm_ind c) 2); cbn; lia. }
  { intros E. destruct (E1 E) as (-> & -> & _). reflexivity. }
  { intros E. destruct (E2 E) as (-> & -> & _). reflexivity. }
  assert (EJ : jacobian pixv vzero vadd2 (c_resp c) false (c_order c) (c_dm_ind c) e1 e2 (c_nmode c) = Ok (G1, G2)).
  { unfold jacobian. cbv iota. rewrite EG. cbn [rbind]. unfold apply_ties. cbn [fst snd].
    destruct (usedb (c_dm_ind c) 1); [destruct (E1 eq_refl) as (_ & _ & _ & ->)|]; cbn [ties_loop rbind];
    (destruct (usedb (c_dm_ind c) 2); [destruct (E2 eq_refl) as (_ & _ & _ & ->)|]); reflexivity. }
  cbv zeta. rewrite EJ. cbn [rbind].
  set (n := ((if usedb (c_dm_ind c) 1 then length (jact e1) else 0) + (if usedb (c_dm_ind c) 2 then length (jact e2) else 0))%nat).
  assert (EN : repeat 0 n = map (fun _ => 0) (taken c a1 a2)).
  { transitivity (repeat 0 (length (taken c a1 a2))).
    - f_equal. unfold n, taken. rewrite app_length.
      destruct (usedb (c_dm_ind c) 1); [destruct (E1 eq_refl) as (-> & _)|];
      (destruct (usedb (c_dm_ind c) 2); [destruct (E2 eq_refl) as (-> & _)|]); cbn [length]; now rewrite ?map_length.
    - generalize (taken c a1 a2). induction l; cbn; congruence. }
  rewrite EN. rewrite (utu_diag_ok c (G1, G2) (taken c a1 a2)).
  2:{ intros m Hm. apply in_seq in Hm. apply utu_stack_ok; auto; [lia| |].
      - intros E. destruct (E1 E) as (EA & _ & EL & _). split; [|auto]. rewrite <- EA. auto.
      - intros E. destruct (E2 E) as (EA & _ & EL & _). split; [|auto]. rewrite <- EA. auto. }
  cbn [rbind].
  set (l := map (fun x => 0 + infl c (seq 0 (c_nmode c)) x) (taken c a1 a2)).
  assert (HI : forall k a, chosen c k a -> In (influence c k a) l).
  { intros k a H. apply taken_in in H. apply in_map_iff. exists (k, a). split; [|exact H]. rewrite infl_influence. lra. }
  destruct (lmax_ok l) as (M & EM & HIn & HM).
  { specialize (HI _ _ HC). intros E. rewrite E in HI. destruct HI. }
  rewrite EM. exists M. split.
  - f_equal. f_equal; [subst e1|subst e2]; match goal with |- context [usedb ?a ?b] => destruct (usedb a b) end; auto using put_back_id.
  - split.
    + subst l. apply in_map_iff in HIn. destruct HIn as ([k a] & E & H). apply taken_in in H. exists k, a. split; [exact H|].
      rewrite infl_influence in E. lra.
    + intros k a H. apply HM, HI, H.
Qed.
Print Assumptions C93_scale.

(* choosing more actuators can only increase the scale; rescaling all weights rescales it *)
Theorem C93_more_actuators : forall c c' M M',
  c_nmode c' = c_nmode c -> c_npix c' = c_npix c -> (forall m, c_w c' m = c_w c m) -> (forall k m a p, c_resp c' k m a p = c_resp c k m a p) ->
  (forall k a, chosen c k a -> chosen c' k a) -> largest_influence c M -> largest_influence c' M' -> M <= M'.
Proof.
  intros c c' M M' En Ep Ew Er HC [(k & a & Hk & ->) _] [_ HM].
  replace (influence c k a) with (influence c' k a); [now apply HM, HC|].
  unfold influence. rewrite En. apply rsum_ext. intros m _. rewrite Ew, Ep. f_equal. apply rsum_ext. intros p _. now rewrite Er.
Qed.
Print Assumptions C93_more_actuators.
Theorem C93_unique : forall c M M', largest_influence c M -> largest_influence c M' -> M = M'.
Proof. intros c M M' [(k & a & Hk & ->) H1] [(k' & a' & Hk' & ->) H2]. apply Rle_antisym; auto. Qed.
Print Assumptions C93_unique.

(* Refutation: with the parallel Jacobian, a mask that is not a leading block of actuators ends in IndexError, and both DMs are left with
   the masked actuator lists: every later control step silently uses only those *)
Theorem C93_parallel_leaves_subset_refuted : forall c s i j, c_par c = true -> (0 < c_nmode c)%nat ->
  In 1%Z (c_dm_ind c) -> In 2%Z (c_dm_ind c) ->
  Z.of_nat (length (c_mask1 c)) = jNact (u_d1 s) -> Z.of_nat (length (c_mask2 c)) = jNact (u_d2 s) ->
  (i < j)%nat -> nth_error (c_mask1 c) i = Some false -> nth_error (c_mask1 c) j = Some true ->
  Permutation (c_order c) (seq 0 ((count_true (c_mask1 c) + count_true (c_mask2 c)) * c_nmode c)) ->
  exists s', set_utu c (Ok tt) s = (Raise IndexError, s') /\ u_fac s' = u_fac s /\
    (forall a, In a (jact (u_d1 s')) <-> selects (c_mask1 c) a) /\ (forall a, In a (jact (u_d2 s')) <-> selects (c_mask2 c) a).
Proof.
  intros c [d1 d2 fac] i j HPar HM U1 U2 L1 L2 Hij Hi Hj HP. cbn [u_d1 u_d2 u_fac] in *.
  apply usedb_iff in U1. apply usedb_iff in U2. unfold set_utu. cbn [u_d1 u_d2 u_fac]. rewrite U1, U2, !choose_ok by assumption.
  rewrite HPar. cbv zeta. unfold jacobian.
  assert (NN : forall mask, Forall (fun a => (0 <= a)%Z) (nonzero (fun b : bool => b) mask)).
  { intros mask. apply Forall_forall. intros a H. apply nonzero_in in H. tauto. }
  assert (TL : forall k act, length (tasks_of k act (c_nmode c)) = (length act * c_nmode c)%nat).
  { intros k. unfold tasks_of. induction act as [|x t IH]; [reflexivity|]. cbn [flat_map length]. rewrite app_length, map_length, seq_length, IH. lia. }
  rewrite (jac_parallel_fails vzero (c_resp c) _ _ _ (c_order c)).
  - cbn [rbind]. eexists. split; [reflexivity|]. cbn [u_fac u_d1 u_d2 sub jact]. split; [reflexivity|]. split; intros a; apply nonzero_in.
  - cbn. lia.
  - cbn. lia.
  - exact HM.
  - cbn. apply NN.
  - cbn. apply NN.
  - left. cbn [sub jNele jact].
    destruct (increasing_prefix (nonzero (fun b : bool => b) (c_mask1 c)) (nonzero_sorted _ _) (NN _)) as [E|E].
    + exfalso. assert (HIn : In (Z.of_nat j) (nonzero (fun b : bool => b) (c_mask1 c))) by (apply nonzero_in; rewrite Nat2Z.id; split; [lia|auto]).
      assert (HNi : ~ In (Z.of_nat i) (nonzero (fun b : bool => b) (c_mask1 c))) by (rewrite nonzero_in, Nat2Z.id, Hi; intros [_ H]; discriminate).
      rewrite E in HIn, HNi. rewrite in_zrange in HIn. rewrite in_zrange in HNi. lia.
    + revert E. unfold nonzero at 1. rewrite nonzero_count. auto.
  - rewrite app_length, !TL. cbn [sub jact]. unfold nonzero. rewrite !nonzero_count. rewrite <- Nat.mul_add_distr_r. exact HP.
Qed.
Print Assumptions C93_parallel_leaves_subset_refuted.

(* a mask of the wrong length for DM 2: IndexError, and DM 1 keeps the masked list *)
Theorem C93_wrong_length_refuted : forall c s, In 1%Z (c_dm_ind c) -> In 2%Z (c_dm_ind c) ->
  Z.of_nat (length (c_mask1 c)) = jNact (u_d1 s) -> Z.of_nat (length (c_mask2 c)) <> jNact (u_d2 s) ->
  exists s', set_utu c (Ok tt) s = (Raise IndexError, s') /\ u_fac s' = u_fac s /\ u_d2 s' = u_d2 s /\
    forall a, In a (jact (u_d1 s')) <-> selects (c_mask1 c) a.
Proof.
  intros c [d1 d2 fac] U1 U2 L1 L2. cbn [u_d1 u_d2 u_fac] in *. apply usedb_iff in U1. apply usedb_iff in U2.
  unfold set_utu. cbn [u_d1 u_d2 u_fac]. rewrite U1, U2, choose_ok by assumption. unfold choose. apply Z.eqb_neq in L2. rewrite L2.
  eexists. split; [reflexivity|]. cbn [u_fac u_d1 u_d2 sub jact]. split; [reflexivity|]. split; [reflexivity|]. intros a. apply nonzero_in.
Qed.
Print Assumptions C93_wrong_length_refuted.

(* a mask choosing a single actuator on DM 1 (the cheapest choice): ValueError, and the controller is left with that one actuator *)
Theorem C93_single_actuator_refuted : forall c s, c_par c = false -> (0 < c_nmode c)%nat -> In 1%Z (c_dm_ind c) ->
  Z.of_nat (length (c_mask1 c)) = jNact (u_d1 s) -> count_true (c_mask1 c) = 1%nat -> jtied (u_d1 s) = [] -> good_dm c 2 (u_d2 s) ->
  exists s', set_utu c (Ok tt) s = (Raise ValueError, s') /\ u_fac s' = u_fac s /\ jNele (u_d1 s') = 1%Z /\
    forall a, In a (jact (u_d1 s')) <-> selects (c_mask1 c) a.
Proof.
  intros c [d1 d2 fac] HPar HM U1 L1 C1 T1 [N2 H2]. cbn [u_d1 u_d2 u_fac] in *. apply usedb_iff in U1.
  unfold mask_of in H2. change ((2 =? 1)%Z) with false in H2. cbv iota in H2. rewrite <- usedb_iff in H2.
  unfold set_utu. cbn [u_d1 u_d2 u_fac]. rewrite U1, choose_ok by assumption. cbv zeta.
  set (e2 := if usedb (c_dm_ind c) 2 then sub d2 (c_mask2 c) else d2).
  replace (if usedb (c_dm_ind c) 2 then choose d2 (c_mask2 c) else Ok d2) with (Ok e2)
    by (subst e2; destruct (usedb (c_dm_ind c) 2); [|reflexivity]; now rewrite choose_ok by (now apply H2)).
  destruct (jac_serial_ok vzero (c_resp c) (c_dm_ind c) (sub d1 (c_mask1 c)) e2 (c_nmode c)) as (G1 & G2 & EG & F1 & F2 & _).
  { cbn. lia. } { subst e2. destruct (usedb (c_dm_ind c) 2); cbn; lia. }
  { intros _. cbn [sub jact jNele]. unfold nonzero. now rewrite nonzero_count. }
  { intros E. subst e2. rewrite E. cbn [sub jact jNele]. unfold nonzero. now rewrite nonzero_count. }
  rewrite HPar. unfold jacobian. rewrite EG. cbn [rbind]. unfold apply_ties. cbn [fst snd sub jtied]. rewrite U1, T1. cbn [ties_loop rbind].
  assert (ET : (if usedb (c_dm_ind c) 2 then ties_loop pixv vzero vadd2 e2 (jtied e2) G2 else Ok G2) = Ok G2).
  { destruct (usedb (c_dm_ind c) 2) eqn:E; [|reflexivity]. subst e2. cbn [sub jtied]. destruct (H2 eq_refl) as (_ & _ & ->). reflexivity. }
  rewrite ET. cbn [rbind].
  destruct (c_nmode c) as [|nm] eqn:EM; [lia|]. cbn [seq utu_diag]. unfold utu_stack at 1. rewrite U1. unfold hstack_block at 1. cbn [fst].
  destruct (F1 U1) as [[LG _] _]. cbn [sub jact] in LG. unfold nonzero in LG. rewrite nonzero_count in LG.
  unfold mode_cols at 1. rewrite map_length, LG, C1. change (Nat.eqb 1 1) with true. rewrite Bool.orb_true_r. cbn [rbind].
  eexists. split; [reflexivity|]. cbn [u_fac u_d1 sub jNele jact]. rewrite C1. split; [reflexivity|]. split; [reflexivity|]. intros a. apply nonzero_in.
Qed.
Print Assumptions C93_single_actuator_refuted.

(* neither DM 1 nor DM 2 in use (or nothing chosen on either): ValueError *)
Theorem C93_nothing_chosen : forall c s, c_par c = false -> c_npix c <> 1%nat -> good_dm c 1 (u_d1 s) -> good_dm c 2 (u_d2 s) ->
  (forall k a, ~ chosen c k a) -> fst (set_utu c (Ok tt) s) = Raise ValueError.
Proof.
  intros c [d1 d2 fac] HPar HPix [N1 H1] [N2 H2] HC. cbn [u_d1 u_d2 u_fac] in *. unfold set_utu. cbn [u_d1 u_d2 u_fac].
  unfold mask_of in H1, H2. cbn [Z.eqb] in H1, H2. change ((2 =? 1)%Z) with false in H2. cbv iota in H1, H2.
  rewrite <- usedb_iff in H1. rewrite <- usedb_iff in H2.
  set (e1 := if usedb (c_dm_ind c) 1 then sub d1 (c_mask1 c) else d1).
  set (e2 := if usedb (c_dm_ind c) 2 then sub d2 (c_mask2 c) else d2).
  replace (if usedb (c_dm_ind c) 1 then choose d1 (c_mask1 c) else Ok d1) with (Ok e1)
    by (subst e1; destruct (usedb (c_dm_ind c) 1); [|reflexivity]; now rewrite choose_ok by (now apply H1)).
  replace (if usedb (c_dm_ind c) 2 then choose d2 (c_mask2 c) else Ok d2) with (Ok e2)
    by (subst e2; destruct (usedb (c_dm_ind c) 2); [|reflexivity]; now rewrite choose_ok by (now apply H2)).
  rewrite HPar.
  assert (EL : forall mask k, (k = 1 \/ k = 2)%Z -> usedb (c_dm_ind c) k = true -> mask = mask_of c k -> nonzero (fun b : bool => b) mask = []).
  { intros mask k Hk HU ->. destruct (nonzero (fun b : bool => b) (mask_of c k)) as [|a t] eqn:E; [reflexivity|]. exfalso.
    apply (HC k a). split; [auto|]. split; [now apply usedb_iff|]. apply nonzero_in. rewrite E. now left. }
  assert (E1 : usedb (c_dm_ind c) 1 = true -> jact e1 = [] /\ jNele e1 = 0%Z /\ jtied e1 = []).
  { intros E. subst e1. rewrite E. destruct (H1 E) as (A & B & T). cbn [sub jact jNele jtied]. rewrite <- (nonzero_count _ 0%Z).
    fold (nonzero (fun b : bool => b) (c_mask1 c)). rewrite (EL (c_mask1 c) 1%Z); auto. }
  assert (E2 : usedb (c_dm_ind c) 2 = true -> jact e2 = [] /\ jNele e2 = 0%Z /\ jtied e2 = []).
  { intros E. subst e2. rewrite E. destruct (H2 E) as (A & B & T). cbn [sub jact jNele jtied]. rewrite <- (nonzero_count _ 0%Z).
    fold (nonzero (fun b : bool => b) (c_mask2 c)). rewrite (EL (c_mask2 c) 2%Z); auto. }
  destruct (jac_serial_ok vzero (c_resp c) (c_dm_ind c) e1 e2 (c_nmode c)) as (G1 & G2 & EG & F1 & F2 & _).
  { subst e1. destruct (usedb (c_dm_ind c) 1); cbn; lia. }
  { subst e2. destruct (usedb (c_dm_ind c) 2); cbn; lia. }
  { intros E. destruct (E1 E) as (-> & -> & _). reflexivity. }
  { intros E. destruct (E2 E) as (-> & -> & _). reflexivity. }
  assert (EJ : jacobian pixv vzero vadd2 (c_resp c) false (c_order c) (c_dm_ind c) e1 e2 (c_nmode c) = Ok (G1, G2)).
  { unfold jacobian. cbv iota. rewrite EG. cbn [rbind]. unfold apply_ties. cbn [fst snd].
    destruct (usedb (c_dm_ind c) 1); [destruct (E1 eq_refl) as (_ & _ & ->)|]; cbn [ties_loop rbind];
    (destruct (usedb (c_dm_ind c) 2); [destruct (E2 eq_refl) as (_ & _ & ->)|]); reflexivity. }
  cbv zeta. rewrite EJ. cbn [rbind].
  replace ((if usedb (c_dm_ind c) 1 then length (jact e1) else 0) + (if usedb (c_dm_ind c) 2 then length (jact e2) else 0))%nat with 0%nat
    by (destruct (usedb (c_dm_ind c) 1); [destruct (E1 eq_refl) as (-> & _)|]; (destruct (usedb (c_dm_ind c) 2); [destruct (E2 eq_refl) as (-> & _)|]); reflexivity).
  change (repeat 0 0) with (map (fun _ : Z * Z => 0) []).
  rewrite (utu_diag_ok c (G1, G2) []); [reflexivity|].
  intros m Hm. apply in_seq in Hm. replace (@nil (Z * Z)) with (taken c [] []) by (unfold taken; destruct (usedb (c_dm_ind c) 1), (usedb (c_dm_ind c) 2); reflexivity).
  apply utu_stack_ok; auto; [lia| |]; intros E.
  - destruct (E1 E) as (EA & _). rewrite EA in F1. split; [auto|discriminate].
  - destruct (E2 E) as (EA & _). rewrite EA in F2. split; [auto|discriminate].
Qed.
Print Assumptions C93_nothing_chosen.

(* a tied pair of which only the first actuator is chosen: an exception, with the masked lists left in place *)
Theorem C93_tie_cut_refuted : exists c s s', c_par c = false /\ jNele (u_d1 s) = 4%Z /\ jtied (u_d1 s) = [(0, 3)]%Z /\
  set_utu c (Ok tt) s = (Raise ValueError, s') /\ jact (u_d1 s') = [0; 1]%Z /\ jact (u_d1 s) = [0; 1; 2; 3]%Z.
Proof.
  exists (mkuc [1%Z] 1 2 (fun _ => 1) [true; true; false; false] [] false [] (fun _ _ a p => (IZR a, 0))).
  exists (mku (mkjdm 4 [0; 1; 2; 3]%Z false 4 [(0, 3)]%Z) (mkjdm 0 [] false 0 []) None).
  eexists. repeat split.
Qed.
Print Assumptions C93_tie_cut_refuted.

(* hypotheses are met: a 2 x 2 DM with responses 1..4, actuators 1 and 2 of DM 1 and 0 and 1 of DM 2 chosen; the largest is 2 * (4^2 + 4^2) *)
Definition ex_c := mkuc [1; 2]%Z 1 2 (fun _ => 2) [false; true; true; false] [true; true; false; false] false [] (fun k _ a _ => (IZR (k * (a + 1)), 0)).
Definition ex_u := mku (mkjdm 4 [0; 1; 2; 3]%Z false 4 []) (mkjdm 4 [0; 1; 2; 3]%Z false 4 []) None.
Example C93_example : set_utu ex_c (Ok tt) ex_u = (Ok tt, mku (u_d1 ex_u) (u_d2 ex_u) (Some 64)).
Proof.
  destruct (C93_scale ex_c ex_u) as (M & E & HM); try reflexivity; try discriminate.
  - split; [cbn; lia|]. intros _. repeat split; try reflexivity; discriminate.
  - split; [cbn; lia|]. intros _. repeat split; try reflexivity; discriminate.
  - exists 1%Z, 1%Z. repeat split; cbn; auto; lia.
  - rewrite E. do 3 f_equal. apply (C93_unique ex_c); [exact HM|]. split.
    + exists 2%Z, 1%Z. split; [repeat split; cbn; auto; lia|]. unfold influence; cbn. lra.
    + intros k a (Hk & _ & Ha & HN). unfold mask_of in HN. destruct Hk as [-> | ->]; cbn in HN.
      * destruct (Z.to_nat a) as [|[|[|[|n]]]] eqn:Ea; cbn in HN; try discriminate; try (destruct n; discriminate).
        -- replace a with 1%Z by lia. unfold influence; cbn. lra.
        -- replace a with 2%Z by lia. unfold influence; cbn. lra.
      * destruct (Z.to_nat a) as [|[|[|[|n]]]] eqn:Ea; cbn in HN; try discriminate; try (destruct n; discriminate).
        -- replace a with 0%Z by lia. unfold influence; cbn. lra.
        -- replace a with 1%Z by lia. unfold influence; cbn. lra.
Qed.
Print Assumptions C93_example.
