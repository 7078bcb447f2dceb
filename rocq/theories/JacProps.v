(* Property theorems C18, C40, C41, C54: control Jacobian assembly, ties, culling, stacking. *)
From Coq Require Import Sorted Permutation.
From Verif Require Import Base RBase CtrlModel CtrlSpec CtrlProofs DmModel DmSpec EfcSpec JacModel JacSpec JacProofs JacProofs2 CullProofs.
Open Scope Z_scope.

(* ---------------- C41 ---------------- *)
(* Serial assembly: column j of each DM in use is the response of its j-th active actuator, every
   mode; a DM not in use gets zeros. *)
Theorem C41_serial : forall (P : Type) (z : P) resp dm_ind d1 d2 Nmode,
  0 <= jNele d1 -> 0 <= jNele d2 ->
  (usedb dm_ind 1 = true -> jNele d1 = Z.of_nat (length (jact d1))) ->
  (usedb dm_ind 2 = true -> jNele d2 = Z.of_nat (length (jact d2))) ->
  exists G1 G2, jac_serial P z resp dm_ind d1 d2 Nmode = Ok (G1, G2) /\
    (usedb dm_ind 1 = true -> filled (resp 1) (jact d1) Nmode G1) /\
    (usedb dm_ind 2 = true -> filled (resp 2) (jact d2) Nmode G2) /\
    (usedb dm_ind 1 = false -> G1 = repeat (repeat z Nmode) (Z.to_nat (jNele d1))) /\
    (usedb dm_ind 2 = false -> G2 = repeat (repeat z Nmode) (Z.to_nat (jNele d2))).
Proof. exact (@jac_serial_ok). Qed.
Print Assumptions C41_serial.

(* [filled] determines the matrix, so two assemblies satisfying it are equal *)
Theorem C41_filled_unique : forall (P : Type) (resp : nat -> Z -> P) act Nmode G G',
  filled resp act Nmode G -> filled resp act Nmode G' -> G = G'.
Proof.
  intros P resp act M G G' [R N] [R' N']. apply (ent_eq (length act) M); auto.
  intros c m Hc Hm. destruct (nth_error act c) as [a|] eqn:E; [|apply nth_error_None in E; lia].
  rewrite (N c a m E Hm), (N' c a m E Hm). reflexivity.
Qed.
Print Assumptions C41_filled_unique.

(* Parallel assembly with all actuators of both DMs active: same matrices as the serial code,
   whatever order the workers finish in. *)
Theorem C41_parallel_full : forall (P : Type) (z : P) resp d1 d2 Nmode order,
  0 <= jNele d1 -> 0 <= jNele d2 ->
  jact d1 = zrange (jNele d1) -> jact d2 = zrange (jNele d2) ->
  Permutation order (seq 0 (length (tasks_of 1 (jact d1) Nmode ++ tasks_of 2 (jact d2) Nmode))) ->
  jac_parallel P z resp order d1 d2 Nmode = jac_serial P z resp [1; 2] d1 d2 Nmode.
Proof.
  intros P z resp d1 d2 M order N1 N2 A1 A2 HP.
  destruct (jac_parallel_ok z resp d1 d2 M order N1 N2 A1 A2 HP) as (G1 & G2 & E & F1 & F2).
  destruct (jac_serial_ok z resp [1; 2] d1 d2 M N1 N2) as (H1 & H2 & E' & K1 & K2 & _).
  - intros _. rewrite A1, zrange_length. lia.
  - intros _. rewrite A2, zrange_length. lia.
  - rewrite E, E'. do 2 f_equal.
    + eapply C41_filled_unique; [exact F1|apply K1; reflexivity].
    + eapply C41_filled_unique; [exact F2|apply K2; reflexivity].
Qed.
Print Assumptions C41_parallel_full.

(* every completion order gives the same outcome, in all cases *)
Theorem C41_parallel_order_irrelevant : forall (P : Type) (z : P) resp d1 d2 Nmode o1 o2,
  let n := length (tasks_of 1 (jact d1) Nmode ++ tasks_of 2 (jact d2) Nmode) in
  Permutation o1 (seq 0 n) -> Permutation o2 (seq 0 n) ->
  jac_parallel P z resp o1 d1 d2 Nmode = jac_parallel P z resp o2 d1 d2 Nmode.
Proof. intros P z resp d1 d2 M o1 o2 n H1 H2. unfold jac_parallel. now rewrite !pool_map_ok by auto. Qed.
Print Assumptions C41_parallel_order_irrelevant.

(* Refutation of the unrestricted claim: after any cull that removes an actuator other than from
   the end of the list, and whenever one DM is unused (Nele = 0) but has active actuators, the
   parallel assembly raises IndexError where the serial one succeeds. *)
Theorem C41_parallel_fails_on_culled_list_refuted : forall (P : Type) (z : P) resp d1 d2 Nmode order,
  (0 < Nmode)%nat ->
  jNele d1 = Z.of_nat (length (jact d1)) -> jNele d2 = Z.of_nat (length (jact d2)) ->
  StronglySorted Z.lt (jact d1) -> StronglySorted Z.lt (jact d2) ->
  Forall (fun a => 0 <= a) (jact d1) -> Forall (fun a => 0 <= a) (jact d2) ->
  jact d1 <> zrange (jNele d1) \/ jact d2 <> zrange (jNele d2) ->
  Permutation order (seq 0 (length (tasks_of 1 (jact d1) Nmode ++ tasks_of 2 (jact d2) Nmode))) ->
  jac_parallel P z resp order d1 d2 Nmode = Raise IndexError /\
  exists G, jac_serial P z resp [1; 2] d1 d2 Nmode = Ok G.
Proof.
  intros P z resp d1 d2 M order HM L1 L2 S1 S2 F1 F2 HN HP. split.
  - apply jac_parallel_fails; auto; try lia. rewrite L1, L2 in *.
    destruct HN as [HN|HN]; [left|right].
    + destruct (increasing_prefix (jact d1) S1 F1); [contradiction|auto].
    + destruct (increasing_prefix (jact d2) S2 F2); [contradiction|auto].
  - destruct (jac_serial_ok z resp [1; 2] d1 d2 M) as (G1 & G2 & E & _); eauto; lia.
Qed.
Print Assumptions C41_parallel_fails_on_culled_list_refuted.
Theorem C41_parallel_fails_single_dm_refuted : forall (P : Type) (z : P) resp d1 d2 Nmode order,
  (0 < Nmode)%nat -> jNele d1 = Z.of_nat (length (jact d1)) -> jNele d2 = 0 ->
  Forall (fun a => 0 <= a) (jact d1) -> Forall (fun a => 0 <= a) (jact d2) -> jact d2 <> [] ->
  Permutation order (seq 0 (length (tasks_of 1 (jact d1) Nmode ++ tasks_of 2 (jact d2) Nmode))) ->
  jac_parallel P z resp order d1 d2 Nmode = Raise IndexError /\
  exists G, jac_serial P z resp [1] d1 d2 Nmode = Ok G.
Proof.
  intros P z resp d1 d2 M order HM L1 L2 F1 F2 HN HP. split.
  - apply jac_parallel_fails; auto; try lia. right. destruct (jact d2) as [|a t]; [congruence|].
    apply Forall_cons_iff in F2. left. lia.
  - destruct (jac_serial_ok z resp [1] d1 d2 M) as (G1 & G2 & E & _); eauto; try lia; discriminate.
Qed.
Print Assumptions C41_parallel_fails_single_dm_refuted.

(* two mirrors, two and three actuators, two modes, workers finishing in a scrambled order *)
Definition ex_resp (idm : Z) (m : nat) (a : Z) : Z := 100 * idm + 10 * Z.of_nat m + a.
Definition ex_d1 := mkjdm 2 [0; 1] false 2 [].
Definition ex_d2 := mkjdm 3 [0; 1; 2] false 3 [].
Example C41_ex : jac_parallel Z 0 ex_resp [9; 3; 0; 7; 1; 2; 8; 4; 6; 5]%nat ex_d1 ex_d2 2
  = Ok ([[100; 110]; [101; 111]], [[200; 210]; [201; 211]; [202; 212]]).
Proof. reflexivity. Qed.
Example C41_ex_serial_culled : jac_serial Z 0 ex_resp [1] (mkjdm 5 [1; 4] false 2 []) (mkjdm 3 [0; 1; 2] false 0 []) 2
  = Ok ([[101; 111]; [104; 114]], []).
Proof. reflexivity. Qed.
Example C41_ex_fails : jac_parallel Z 0 ex_resp [0; 1; 2; 3]%nat (mkjdm 5 [1; 4] false 2 []) (mkjdm 3 [] false 0 []) 2
  = Raise IndexError.
Proof. reflexivity. Qed.

(* ---------------- C40 ---------------- *)
(* For every command that respects the ties, the response predicted with the tied Jacobian is the
   response predicted with the original one. *)
Theorem C40_tied_response_conserved : forall Nmode (d : jdm) (G : jacc),
  NoDup (jact d) -> jlist d = false -> rect (length (jact d)) Nmode G ->
  Forall (fun '(a, b) => In a (jact d) /\ In b (jact d) /\ a <> b) (jtied d) ->
  exists G', ties_loop pixv vzero vadd2 d (jtied d) G = Ok G' /\ rect (length (jact d)) Nmode G' /\
    forall u, (forall a b, In (a, b) (jtied d) -> u a = u b) ->
      forall m p, (m < Nmode)%nat -> predict (jact d) G' u m p = predict (jact d) G u m p.
Proof. exact (fun M d G ND Hl HR HF => ties_conserve M (jact d) ND d eq_refl Hl (jtied d) G HR HF). Qed.
Print Assumptions C40_tied_response_conserved.

(* Column by column, for ties without chains: a second member's column becomes zero, any other
   column gains the columns of the actuators tied to it, and is otherwise unchanged. *)
Theorem C40_tied_columns : forall Nmode (d : jdm) (G G' : jacc),
  NoDup (jact d) -> jlist d = false -> rect (length (jact d)) Nmode G ->
  Forall (fun '(a, b) => In a (jact d) /\ In b (jact d) /\ a <> b) (jtied d) ->
  (forall a b, In (a, b) (jtied d) -> ~ In a (map snd (jtied d))) -> NoDup (map snd (jtied d)) ->
  ties_loop pixv vzero vadd2 d (jtied d) G = Ok G' ->
  forall x m p, In x (jact d) -> (m < Nmode)%nat ->
    (In x (map snd (jtied d)) -> av (jact d) G' x m p = (0, 0)%R) /\
    (~ In x (map snd (jtied d)) -> av (jact d) G' x m p =
       cadd (av (jact d) G x m p) (csum (map (fun b => av (jact d) G b m p) (followers (jtied d) x)))).
Proof.
  intros M d G G' ND Hl HR HF HC HN E x m p Hx Hm.
  rewrite (ties_columns M (jact d) ND d eq_refl Hl (jtied d) G G' HR HF HC HN E x m p Hx Hm).
  destruct (in_dec Z.eq_dec x (map snd (jtied d))); tauto.
Qed.
Print Assumptions C40_tied_columns.

(* an actuator tied to itself loses its whole response *)
Theorem C40_self_tie_refuted : exists (d : jdm) (G G' : jac Z), NoDup (jact d) /\ jlist d = false /\
  rect (length (jact d)) 1 G /\ In (0, 0) (jtied d) /\
  ties_loop Z 0 Z.add d (jtied d) G = Ok G' /\ G = [[5]; [7]] /\ G' = [[0]; [7]].
Proof.
  exists (mkjdm 2 [0; 1] false 2 [(0, 0)]). eexists; eexists. cbn.
  repeat split; auto; repeat constructor; cbn; intuition lia.
Qed.
Print Assumptions C40_self_tie_refuted.
(* a pair whose first member is not active: the second member's response is dropped *)
Theorem C40_inactive_first_member_refuted : ties_loop Z 0 Z.add (mkjdm 3 [1; 2] false 2 [(0, 1)]) [(0, 1)] [[5]; [7]]
  = Ok [[0]; [7]].
Proof. reflexivity. Qed.
Print Assumptions C40_inactive_first_member_refuted.
(* ... whose second member is not active: an exception *)
Theorem C40_inactive_second_member_refuted : ties_loop Z 0 Z.add (mkjdm 3 [1; 2] false 2 [(1, 0)]) [(1, 0)] [[5]; [7]]
  = Raise ValueError.
Proof. reflexivity. Qed.
Print Assumptions C40_inactive_second_member_refuted.
(* after a cull that did not relinearise, act_ele is a Python list: any tie raises *)
Theorem C40_list_act_ele_refuted : forall (P : Type) (z : P) add d a b t G,
  jlist d = true -> ties_loop P z add d ((a, b) :: t) G = Raise ValueError.
Proof. intros P z add d a b t G H. cbn. unfold positions. now rewrite H. Qed.
Print Assumptions C40_list_act_ele_refuted.

Example C40_ex : ties_loop Z 0 Z.add (mkjdm 6 [1; 3; 4; 5] false 4 [(1, 4); (1, 5)]) [(1, 4); (1, 5)]
    [[1; 10]; [2; 20]; [3; 30]; [4; 40]] = Ok [[8; 80]; [2; 20]; [0; 0]; [0; 0]].
Proof. reflexivity. Qed.

(* ---------------- C18 ---------------- *)
(* When a cull happens: at iteration 0, or when the (unordered) DM list changed *)
Theorem C18_when : forall Itr sched, 0 <= Itr -> (forall s, sched = Some s -> Itr < Z.of_nat (length s)) ->
  exists b, flag_cull Itr sched = Ok b /\
    (b = true <-> Itr = 0 \/ exists s, sched = Some s /\ 0 < Itr /\
       ~ Permutation (nth (Z.to_nat (Itr - 1)) s []) (nth (Z.to_nat Itr) s [])).
Proof. exact flag_cull_spec. Qed.
Print Assumptions C18_when.

(* What a cull does, when the Jacobian passed in has one column per actuator of each DM in use:
   keeps exactly the strong and the tied actuators, in increasing order, with their own columns. *)
Theorem C18_cull : forall Npix Nmode Itr Nitr sched logGmin dm_ind hist s, (0 < Nmode)%nat ->
  flag_cull Itr sched = Ok true -> 0 <= Itr < Nitr -> (forall h, hist = Some h -> Z.of_nat (length h) = Nitr) ->
  (forall k, relevant k -> usedb dm_ind k = true -> fresh Npix Nmode k (s k)) ->
  exists s' h, cull Npix Itr Nitr true sched logGmin dm_ind hist s = Ok (s', h) /\
    Z.of_nat (length h) = Nitr /\ nth_error h (Z.to_nat Itr) = Some true /\
    (forall k, relevant k -> usedb dm_ind k = true ->
       let d := fst (s k) in let d' := fst (s' k) in
       consistent d' (snd (s' k)) /\ jlist d' = false /\ jNact d' = jNact d /\ jtied d' = jtied d /\
       (forall a, In a (jact d') <-> 0 <= a < jNact d /\ kept Npix logGmin k (s k) a) /\
       (forall j a, nth_error (jact d') j = Some a -> nth_error (snd (s' k)) j = nth_error (snd (s k)) (Z.to_nat a))) /\
    (forall k, relevant k -> usedb dm_ind k = false ->
       jNele (fst (s' k)) = 0 /\ jact (fst (s' k)) = jact (fst (s k)) /\ snd (s' k) = snd (s k)).
Proof. exact cull_ok. Qed.
Print Assumptions C18_cull.

Theorem C18_no_cull_changes_nothing : forall Npix Itr Nitr relin sched logGmin dm_ind hist s,
  flag_cull Itr sched = Ok false -> 0 <= Itr < Nitr -> (forall h, hist = Some h -> Z.of_nat (length h) = Nitr) ->
  exists h, cull Npix Itr Nitr relin sched logGmin dm_ind hist s = Ok (s, h) /\ nth_error h (Z.to_nat Itr) = Some false.
Proof. exact cull_skip. Qed.
Print Assumptions C18_no_cull_changes_nothing.

(* A DM-list change at an iteration that does not relinearise: the active list is reset to all
   actuators while the Jacobian keeps its old columns *)
Theorem C18_cull_without_relinearisation_refuted : forall Npix Itr Nitr sched logGmin dm_ind hist s k,
  flag_cull Itr sched = Ok true -> 0 <= Itr < Nitr -> (forall h, hist = Some h -> Z.of_nat (length h) = Nitr) ->
  relevant k -> usedb dm_ind k = true -> 0 <= jNact (fst (s k)) ->
  Z.of_nat (length (snd (s k))) <> jNact (fst (s k)) ->
  exists s' h, cull Npix Itr Nitr false sched logGmin dm_ind hist s = Ok (s', h) /\
    ~ consistent (fst (s' k)) (snd (s' k)).
Proof.
  intros Npix Itr Nitr sched logGmin dm_ind hist s k HF HI HH Hk U H0 HL. unfold cull. rewrite HF. cbn [rbind].
  destruct (set_hist_ok hist Nitr Itr true HI HH) as (h & Eh & Lh & Nh). rewrite Eh. cbn [rbind].
  eexists; eexists. split; [reflexivity|]. unfold reinclude. destruct (s k) as [d G]. cbn [fst snd] in *.
  replace (existsb (Z.eqb k) [1; 2; 8; 9]) with true by (destruct Hk as [-> | [-> | [-> | ->]]]; reflexivity).
  rewrite U. unfold consistent. cbn [fst snd include_all jact]. rewrite zrange_length. lia.
Qed.
Print Assumptions C18_cull_without_relinearisation_refuted.

(* A second cull (DM list changed, Jacobian relinearised) works on a Jacobian that was assembled
   for the previous, already culled list: three actuators of which 1 and 2 are active and strong;
   the new list names actuators 0 and 1, with the columns of 1 and 2. *)
Definition ex_col (x : R) : list pixv := [fun _ => (x, 0)%R].
Definition ex_s : cst := fun k => if k =? 1 then (mkjdm 3 [1; 2] false 2 [], [ex_col 1; ex_col 1]) else (mkjdm 0 [] false 0 [], []).
Theorem C18_second_cull_refuted : exists resp s' h,
  (* the Jacobian assembled for the active list [1; 2], all entries 1 *)
  (forall a, resp 1 0%nat a = (fun _ => (1, 0)%R)) /\
  jac_serial pixv vzero resp [1] (fst (ex_s 1)) (fst (ex_s 2)) 1 = Ok (snd (ex_s 1), []) /\
  cull 1 1 2 true (Some [[1; 2]; [1]]) (-1)%R [1] (Some [true; false]) ex_s = Ok (s', h) /\
  jact (fst (s' 1)) = [0; 1] /\ snd (s' 1) = snd (ex_s 1).
Proof.
  exists (fun _ _ _ => fun _ => (1, 0)%R).
  cut (exists s' h, cull 1 1 2 true (Some [[1; 2]; [1]]) (-1)%R [1] (Some [true; false]) ex_s = Ok (s', h) /\
         jact (fst (s' 1)) = [0; 1] /\ snd (s' 1) = snd (ex_s 1)).
  { intros (s' & h & A & B & C). exists s', h. split; [reflexivity|]. split; [cbn; reflexivity|]. auto. }
  assert (St : strength 1 (ex_col 1) = 1%R) by (unfold strength, ex_col, sqmod; cbn; lra).
  assert (Sg : strong (Rpower 10 (-1)) 1 1 = true).
  { unfold strong. destruct (Rlt_dec 0 1); [|lra]. destruct (Rle_dec _ _) as [|n]; auto. exfalso. apply n.
    replace (1 / 1)%R with 1%R by lra. replace (-1)%R with (- (1))%R by lra. rewrite Rpower_Ropp, Rpower_1 by lra. lra. }
  assert (K : forall d, keep_strong 1 (-1) 1 (d, [ex_col 1; ex_col 1])
      = Ok (mkjdm (jNact d) [0; 1] false (jNele d) (jtied d), [ex_col 1; ex_col 1])).
  { intros d. cbn [keep_strong map]. rewrite St. cbn [lmax rbind].
    replace (Rmax 1 1) with 1%R by (unfold Rmax; destruct (Rle_dec 1 1); auto).
    unfold nonzero. cbn [nonzero_from]. rewrite Sg. reflexivity. }
  clear St Sg. unfold cull, ex_s.
  revert K. generalize (keep_strong 1 (-1)). generalize (ex_col 1). intros c ks K.
  cbn -[Z.eq_dec list_eq_dec]. destruct (list_eq_dec Z.eq_dec _ _) as [E|_]; [discriminate|].
  cbn. unfold include_all. cbn. rewrite K. cbn. eexists; eexists. split; [reflexivity|]. split; reflexivity.
Qed.
Print Assumptions C18_second_cull_refuted.

(* if no actuator has any response, nothing is kept (rather than everything) *)
Theorem C18_dark_jacobian : forall Npix logGmin k d G, G <> [] ->
  (forall col, In col G -> strength Npix col = 0%R) ->
  keep_strong Npix logGmin k (d, G) = Ok (mkjdm (jNact d) [] false (jNele d) (jtied d), G).
Proof.
  intros Npix r k d G HG HS. unfold keep_strong.
  destruct (lmax_ok (map (strength Npix) G)) as (M & E & HI & _); [destruct G; [congruence|discriminate]|].
  rewrite E. cbn [rbind]. apply in_map_iff in HI. destruct HI as (col & Em & Hc). rewrite (HS col Hc) in Em. subst M.
  assert (T : forall l q, nonzero_from (strong (Rpower 10 r) 0) q l = []).
  { induction l as [|c l IH]; intros q; cbn; auto.
    unfold strong at 1. destruct (Rlt_dec 0 0) as [H|_]; [lra|]. apply IH. }
  do 3 f_equal. apply T.
Qed.
Print Assumptions C18_dark_jacobian.

Example C18_ex_fresh : fresh 1 1 1 (mkjdm 3 [] false 0 [(1, 2)], [ex_col 1; ex_col 0; ex_col 3]).
Proof.
  unfold fresh, rect. cbn. split; [split; [reflexivity|repeat constructor]|]. split; [lia|]. split.
  - exists (ex_col 3). split; [auto|]. unfold energy, ex_col, sqmod. cbn. lra.
  - intros _. repeat constructor; lia.
Qed.

(* ---------------- C54 ---------------- *)
(* The matrix used by the controller for one mode: the blocks of the DMs in use, in the order
   1, 2, 8, 9 -- the same layout as the control vector. *)
Theorem C54_stack : forall Npix dm_ind (B : Z -> list (nat -> R * R)), Npix <> 1%nat ->
  (forall k, relevant k -> usedb dm_ind k = true -> length (B k) <> 1%nat) ->
  gstack Npix dm_ind B = Ok (flat_map (fun k => if usedb dm_ind k then B k else []) [1; 2; 8; 9]).
Proof.
  intros Npix dm_ind B HN HB. unfold gstack, hstack_block.
  replace (Npix =? 1)%nat with false by (symmetry; now apply Nat.eqb_neq). cbn [orb flat_map].
  assert (T : forall k stack, relevant k -> (if usedb dm_ind k then if (length (B k) =? 1)%nat then Raise ValueError else Ok (stack ++ B k) else Ok stack)
     = Ok (stack ++ (if usedb dm_ind k then B k else []))).
  { intros k st Hk. destruct (usedb dm_ind k) eqn:U; [|now rewrite app_nil_r].
    specialize (HB k Hk U). apply Nat.eqb_neq in HB. now rewrite HB. }
  unfold relevant in T.
  rewrite T by auto. cbn [rbind]. rewrite T by auto. cbn [rbind]. rewrite T by auto. cbn [rbind]. rewrite T by auto.
  cbn [app]. rewrite app_nil_r, !app_assoc. reflexivity.
Qed.
Print Assumptions C54_stack.
(* a mirror in use with exactly one active actuator (or a single dark-hole pixel) is an error *)
Theorem C54_single_actuator_refuted : forall Npix dm_ind B k, relevant k -> usedb dm_ind k = true ->
  (length (B k) = 1%nat \/ Npix = 1%nat) -> gstack Npix dm_ind B = Raise ValueError.
Proof.
  intros Npix dm_ind B k Hk U H. unfold gstack, hstack_block.
  assert (F : (Nat.eqb Npix 1 || Nat.eqb (length (B k)) 1)%bool = true)
    by (destruct H as [-> | ->]; [apply orb_true_r|reflexivity]).
  assert (T : forall j stack, exists r, (if usedb dm_ind j then (if (Nat.eqb Npix 1 || Nat.eqb (length (B j)) 1)%bool then Raise ValueError else Ok (stack ++ B j)) else Ok stack) = r
     /\ (r = Raise ValueError \/ exists x, r = Ok x)).
  { intros j st. eexists. split; [reflexivity|]. destruct (usedb dm_ind j); [destruct (Nat.eqb Npix 1 || Nat.eqb (length (B j)) 1)%bool; [left; reflexivity|right; eexists; reflexivity]|right; eexists; reflexivity]. }
  unfold relevant in Hk.
  destruct Hk as [-> | [-> | [-> | ->]]].
  - rewrite U, F. reflexivity.
  - destruct (T 1 []) as (r & -> & [->|[x ->]]); [reflexivity|]. cbn [rbind]. rewrite U, F. reflexivity.
  - destruct (T 1 []) as (r & -> & [->|[x ->]]); [reflexivity|]. cbn [rbind].
    destruct (T 2 x) as (r & -> & [->|[y ->]]); [reflexivity|]. cbn [rbind]. rewrite U, F. reflexivity.
  - destruct (T 1 []) as (r & -> & [->|[x ->]]); [reflexivity|]. cbn [rbind].
    destruct (T 2 x) as (r & -> & [->|[y ->]]); [reflexivity|]. cbn [rbind].
    destruct (T 8 y) as (r & -> & [->|[w ->]]); [reflexivity|]. cbn [rbind]. rewrite U, F. reflexivity.
Qed.
Print Assumptions C54_single_actuator_refuted.
(* column offset k + j of the stack is DM k's column j, with the offsets of the control vector *)
Theorem C54_columns_match_control_vector : forall (A : Type) (mp : mp_t A) Npix (B : Z -> list (nat -> R * R)) S k d j,
  (forall k d, used mp k = true -> get_dm mp k = Some d -> length (B k) = length (act_ele d)) ->
  gstack Npix (dm_ind mp) B = Ok S -> used mp k = true -> get_dm mp k = Some d -> (j < length (act_ele d))%nat ->
  nth_error S (offset mp k + j) = nth_error (B k) j.
Proof.
  intros A mp Npix B S k d j HB HS U Hg Hj.
  destruct (Nat.eq_dec Npix 1) as [E|HN].
  { rewrite (C54_single_actuator_refuted Npix (dm_ind mp) B k) in HS; [discriminate| |exact U|auto].
    destruct (dm_cases mp k d Hg) as [[-> ->]|[[-> ->]|[[-> ->]|[-> ->]]]]; unfold relevant; auto. }
  assert (HB1 : forall k, relevant k -> usedb (dm_ind mp) k = true -> length (B k) <> 1%nat).
  { intros q Hq Uq E. rewrite (C54_single_actuator_refuted Npix (dm_ind mp) B q) in HS; auto. discriminate. }
  rewrite (C54_stack Npix (dm_ind mp) B HN HB1) in HS. injection HS as <-.
  cbn [flat_map]. rewrite app_nil_r.
  assert (Lb : forall q e, get_dm mp q = Some e -> length (if usedb (dm_ind mp) q then B q else []) = nvars mp q).
  { intros q e He. unfold nvars, used. change (existsb (Z.eqb q) (dm_ind mp)) with (usedb (dm_ind mp) q).
    rewrite He. destruct (usedb (dm_ind mp) q) eqn:Uq; [|reflexivity]. now apply HB. }
  pose proof (Lb 1 _ eq_refl) as N1. pose proof (Lb 2 _ eq_refl) as N2. pose proof (Lb 8 _ eq_refl) as N8.
  assert (Hk : length (B k) = length (act_ele d)) by (apply HB; auto).
  change (used mp k) with (usedb (dm_ind mp) k) in U.
  set (b1 := if usedb (dm_ind mp) 1 then B 1 else []) in *.
  set (b2 := if usedb (dm_ind mp) 2 then B 2 else []) in *.
  set (b8 := if usedb (dm_ind mp) 8 then B 8 else []) in *.
  set (b9 := if usedb (dm_ind mp) 9 then B 9 else []) in *.
  destruct (dm_cases mp k d Hg) as [[-> ->]|[[-> ->]|[[-> ->]|[-> ->]]]]; unfold offset; cbn [Z.ltb Z.compare Pos.compare Pos.compare_cont Nat.add].
  - assert (E1 : b1 = B 1) by (unfold b1; now rewrite U). rewrite E1. apply nth_error_app1. lia.
  - assert (E2 : b2 = B 2) by (unfold b2; now rewrite U). rewrite E2. rewrite nth_error_app2 by lia. rewrite nth_error_app1 by lia. f_equal. lia.
  - assert (E8 : b8 = B 8) by (unfold b8; now rewrite U). rewrite E8. rewrite !app_assoc. rewrite nth_error_app1 by (rewrite !app_length; lia).
    rewrite nth_error_app2 by (rewrite !app_length; lia). f_equal. rewrite app_length. lia.
  - assert (E9 : b9 = B 9) by (unfold b9; now rewrite U). rewrite E9. rewrite !app_assoc.
    rewrite nth_error_app2 by (rewrite !app_length; lia). f_equal. rewrite !app_length. lia.
Qed.
Print Assumptions C54_columns_match_control_vector.
Example C54_ex : gstack 2 [2; 1] (fun k => repeat (fun _ => (IZR k, 0%R)) 2)
  = Ok [(fun _ => (1, 0)%R); (fun _ => (1, 0)%R); (fun _ => (2, 0)%R); (fun _ => (2, 0)%R)].
Proof. reflexivity. Qed.
