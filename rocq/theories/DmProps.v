(* Property theorems C21, C22, C23, C24, C42, C49-C53 about falco/dm.py. *)
From Verif Require Import StrBase Base RBase CtrlModel CtrlProofs UtilModel UtilSpec UtilProofs DmModel DmSpec DmProofs
  DmSurfModel DmSurfSpec DmSurfProofs DmSurfProofs2 DmFitProofs.
Open Scope R_scope.

(* ---------------- C21 ---------------- *)
(* enforce_constraints always succeeds on a usable DM record, and every actuator ends at exactly the
   value the rules (dead, limits, pins, then ties) prescribe for it; that value is unique. *)
Theorem C21_every_actuator_as_prescribed : forall n d, dm_ok n d ->
  exists d', enforce d = Ok d' /\ length (cV d') = n /\
    forall i, (i < n)%nat ->
      (copies d i = None -> limited d i (val (cV d') i)) /\
      (forall j, copies d i = Some j -> limited d (Z.to_nat j) (val (cV d') i)).
Proof.
  intros n d Hok. destruct (enforce_ok n d Hok) as (d' & E & Hok' & _ & _ & _ & _ & _ & _ & _ & _ & _ & _ & HV).
  exists d'. split; auto. split; [apply Hok'|]. intros i Hi. rewrite HV by auto.
  split; [intros ->|intros j ->]; apply limited_limf.
Qed.
Print Assumptions C21_every_actuator_as_prescribed.
Theorem C21_prescription_unique : forall d i a b, limited d i a -> limited d i b -> a = b.
Proof. exact limited_det. Qed.
Print Assumptions C21_prescription_unique.

Lemma enforce_val n d d' i : dm_ok n d -> enforce d = Ok d' -> (i < n)%nat ->
  val (cV d') i = match copies d i with Some j => limf d (Z.to_nat j) | None => limf d i end.
Proof.
  intros Hok E Hi. destruct (enforce_ok n d Hok) as (x & E' & _ & _ & _ & _ & _ & _ & _ & _ & _ & _ & _ & HV).
  rewrite E in E'. injection E' as <-. auto.
Qed.
Lemma not_second d i : ~ In (Z.of_nat i) (map snd (tied d)) -> copies d i = None.
Proof. apply copies_none. Qed.

(* a dead actuator that is neither pinned nor the second of a tied pair, and whose bias is in range,
   has zero command *)
Theorem C21_dead_actuators_are_zero : forall n d d' i, dm_ok n d -> enforce d = Ok d' -> (i < n)%nat ->
  is_dead d i -> ~ In (Z.of_nat i) (pinned d) -> ~ In (Z.of_nat i) (map snd (tied d)) ->
  cVmin d <= val (biasMap d) i <= cVmax d -> val (cV d') i = 0.
Proof.
  intros n d d' i Hok E Hi Hd Hp Ht Hb. rewrite (enforce_val n d d' i Hok E Hi), not_second by auto.
  assert (D : deadb d i = true) by now apply deadb_iff.
  unfold limf, pinf, v0f. rewrite D.
  destruct (Rlt_dec (cVmax d) (0 + val (biasMap d) i)); [lra|].
  destruct (Rlt_dec (0 + val (biasMap d) i) (cVmin d)); [lra|].
  assert (P : pin_of d i = None) by (unfold pin_of; apply last_assoc_none; [apply Hok|auto]). now rewrite P.
Qed.
Print Assumptions C21_dead_actuators_are_zero.

(* with zero bias and pins inside the range, every total voltage ends in [Vmin, Vmax] *)
Theorem C21_voltages_within_limits : forall n d d' i, dm_ok n d -> enforce d = Ok d' -> (i < n)%nat ->
  cVmin d <= cVmax d -> (forall k, val (biasMap d) k = 0) ->
  (forall p, In p (Vpinned d) -> cVmin d <= p <= cVmax d) ->
  cVmin d <= val (cV d') i + val (biasMap d') i <= cVmax d.
Proof.
  intros n d d' i Hok E Hi Hle Hb Hp.
  assert (L : forall k, cVmin d <= limf d k <= cVmax d).
  { intros k. unfold limf, pinf. rewrite Hb.
    destruct (Rlt_dec (cVmax d) (v0f d k + 0)); [lra|].
    destruct (Rlt_dec (v0f d k + 0) (cVmin d)); [lra|].
    destruct (pin_of d k) as [p|] eqn:Ep; [|lra].
    unfold pin_of in Ep. apply last_assoc_some in Ep. destruct Ep as (j & _ & Hj). apply Hp. now apply nth_error_In in Hj. }
  destruct (enforce_ok n d Hok) as (x & E' & _ & _ & _ & EB & _). rewrite E in E'. injection E' as <-.
  rewrite EB, Hb, (enforce_val n d d' i Hok E Hi). rewrite Rplus_0_r. destruct (copies d i); apply L.
Qed.
Print Assumptions C21_voltages_within_limits.

Theorem C21_tied_pairs_are_equal : forall n d d' a b, dm_ok n d -> enforce d = Ok d' ->
  no_chains d -> one_source d -> In (a, b) (tied d) ->
  val (cV d') (Z.to_nat b) = val (cV d') (Z.to_nat a).
Proof.
  intros n d d' a b Hok E Hc Ho Hin.
  assert (R : idx_ok n a /\ idx_ok n b).
  { destruct Hok as (_ & _ & _ & _ & _ & _ & _ & _ & FT). rewrite Forall_forall in FT. exact (FT _ Hin). }
  unfold idx_ok in R. rewrite !(enforce_val n d d' _ Hok E) by lia.
  rewrite (copies_tied d a (Z.to_nat b)) by (auto; rewrite Z2Nat.id by lia; auto).
  rewrite (not_second d (Z.to_nat a)); auto. rewrite Z2Nat.id by lia. exact (Hc _ _ Hin).
Qed.
Print Assumptions C21_tied_pairs_are_equal.

Theorem C21_other_commands_unchanged : forall n d d' i, dm_ok n d -> enforce d = Ok d' -> (i < n)%nat ->
  ~ is_dead d i -> ~ In (Z.of_nat i) (pinned d) -> ~ In (Z.of_nat i) (map snd (tied d)) ->
  cVmin d <= val (cV d) i + val (biasMap d) i <= cVmax d -> val (cV d') i = val (cV d) i.
Proof.
  intros n d d' i Hok E Hi Hd Hp Ht Hb. rewrite (enforce_val n d d' i Hok E Hi), not_second by auto.
  assert (D : deadb d i = false) by (destruct (deadb d i) eqn:Ed; auto; apply deadb_iff in Ed; contradiction).
  unfold limf, pinf, v0f. rewrite D.
  destruct (Rlt_dec (cVmax d) (val (cV d) i + val (biasMap d) i)); [lra|].
  destruct (Rlt_dec (val (cV d) i + val (biasMap d) i) (cVmin d)); [lra|].
  assert (P : pin_of d i = None) by (unfold pin_of; apply last_assoc_none; [apply Hok|auto]). now rewrite P.
Qed.
Print Assumptions C21_other_commands_unchanged.

(* The same program on integer voltages, for concrete runs. *)
Definition enforceZ := enforce_constraints Z 0%Z Z.add Z.ltb.
Definition resV (r : res (dmc Z)) : list Z := match r with Ok d => cV d | Raise _ => [] end.
Open Scope Z_scope.
(* 3x3 DM: 0 dead, 1 over the maximum, 2 below the minimum, 3 pinned at 4, 4 tied to copy 5 *)
Example C21_ex : resV (enforceZ (mkdmc 3 [9; 30; -8; 1; 2; 3; 5; 6; 7] [0] None (repeat 0 9) 0 10 [3] [4] [(5, 4)]))
  = [0; 10; 0; 4; 3; 3; 5; 6; 7].
Proof. reflexivity. Qed.
Open Scope R_scope.
Definition ex_dm : dmr := mkdmc 2 [9; 30; -8; 1] [0%Z] None [0; 0; 0; 0] 0 10 [3%Z] [4] [(3%Z, 2%Z)].
Example C21_ex_ok : dm_ok 4 ex_dm /\ no_chains ex_dm /\ one_source ex_dm /\ is_dead ex_dm 0.
Proof.
  split; [|split; [|split]].
  - unfold dm_ok; cbn. repeat split; try lia; try discriminate; repeat constructor; unfold idx_ok; cbn; lia.
  - intros a b [[= <- <-]|[]]. cbn. intros [H|[]]. lia.
  - constructor; [intros []|constructor].
  - now left.
Qed.

(* With a positive bias the limit is applied to the command, not the total: the total stays out of range. *)
Theorem C21_limits_with_bias_refuted : exists d d', enforceZ d = Ok d' /\ biasMap d = [5]%Z /\ cVmax d = 10%Z /\
  (nth 0 (cV d') 0 + nth 0 (biasMap d') 0 > cVmax d)%Z.
Proof.
  exists (mkdmc 1 [9] [] None [5] 0 10 [] [] [])%Z. eexists. repeat split; vm_compute; reflexivity.
Qed.
(* Chained ties leave a tied pair unequal. *)
Theorem C21_chained_ties_refuted : exists d d', enforceZ d = Ok d' /\ In (1, 2)%Z (tied d) /\
  nth 1 (cV d') 0%Z <> nth 2 (cV d') 0%Z.
Proof.
  exists (mkdmc 2 [1; 2; 3; 4] [] None [0; 0; 0; 0] 0 10 [] [] [(0, 1); (1, 2)])%Z. eexists.
  split; [vm_compute; reflexivity|]. split; [cbn; auto|]. vm_compute. discriminate.
Qed.
(* A dead actuator that is also pinned is driven. *)
Theorem C21_dead_and_pinned_refuted : exists d d', enforceZ d = Ok d' /\ In 0%Z (dead d) /\ nth 0 (cV d') 0%Z <> 0%Z.
Proof.
  exists (mkdmc 1 [9] [0] None [0] 0 10 [0] [7] [])%Z. eexists. split; [vm_compute; reflexivity|].
  split; [cbn; auto|]. vm_compute. discriminate.
Qed.
(* The dead list is read only once: actuators added later are not zeroed. *)
Theorem C21_dead_list_read_once_refuted : exists d d' d'', enforceZ d = Ok d' /\
  enforceZ (mkdmc (cNact d') (cV d') [0%Z] (dead_map d') (biasMap d') (cVmin d') (cVmax d') (pinned d') (Vpinned d') (tied d')) = Ok d'' /\
  nth 0 (cV d'') 0%Z <> 0%Z.
Proof.
  exists (mkdmc 1 [9] [] None [0] 0 10 [] [] [])%Z. eexists. eexists. split; [vm_compute; reflexivity|].
  split; [vm_compute; reflexivity|]. vm_compute. discriminate.
Qed.

(* ---------------- C22 ---------------- *)
Theorem C22_second_call_changes_nothing : forall n d d' d'', dm_ok n d -> small_bias d -> stable_pins d -> no_chains d ->
  enforce d = Ok d' -> enforce d' = Ok d'' -> cV d'' = cV d'.
Proof. exact enforce_idempotent. Qed.
Print Assumptions C22_second_call_changes_nothing.

(* Over any sequence of "add a delta, enforce": it never fails, earlier pins stay (as a prefix), the
   hypotheses of idempotence are preserved, and a pinned actuator never becomes free again - its
   command is its old pin or a limit ever after. *)
Theorem C22_history : forall n deltas d, dm_ok n d -> Forall (fun x => length x = n) deltas ->
  exists d', history R 0 Rplus Rltb d deltas = Ok d' /\ dm_ok n d' /\
    (exists np nv, pinned d' = pinned d ++ np /\ Vpinned d' = Vpinned d ++ nv /\ length np = length nv) /\
    (forall i p, pin_of d i = Some p -> ~ In (Z.of_nat i) (map snd (tied d)) ->
       exists q, pin_of d' i = Some q /\ (q = p \/ q = cVmin d \/ q = cVmax d) /\
         (deltas <> [] -> val (cV d') i = q)) /\
    (small_bias d -> stable_pins d -> small_bias d' /\ stable_pins d').
Proof.
  intros n deltas d Hok HF. destruct (history_ok n deltas d Hok HF) as (d' & A & B & _ & C & D & E).
  exists d'. auto.
Qed.
Print Assumptions C22_history.

(* ... so after any such history one more enforcement changes nothing *)
Theorem C22_idempotent_after_any_history : forall n deltas x d d1 d2, dm_ok n d ->
  Forall (fun x => length x = n) (deltas ++ [x]) -> small_bias d -> stable_pins d -> no_chains d ->
  history R 0 Rplus Rltb d (deltas ++ [x]) = Ok d1 -> enforce d1 = Ok d2 -> cV d2 = cV d1.
Proof.
  intros n deltas x d d1 d2 Hok HF Hb Hs Hc H1 H2.
  assert (Split : forall ds e, history R 0 Rplus Rltb e (ds ++ [x]) = 
     (do e' <- history R 0 Rplus Rltb e ds; step R 0 Rplus Rltb e' x)).
  { induction ds as [|y ds IH]; intros e; cbn [app history rbind].
    - destruct (step R 0 Rplus Rltb e x); reflexivity.
    - destruct (step R 0 Rplus Rltb e y); cbn [rbind]; auto. }
  rewrite Split in H1. apply Forall_app in HF. destruct HF as [HF1 HF2]. apply Forall_cons_iff in HF2. destruct HF2 as [Hx _].
  destruct (history_ok n deltas d Hok HF1) as (d0 & E0 & Hok0 & [S1 S2 S3 S4] & _ & _ & HS). rewrite E0 in H1. cbn [rbind] in H1.
  destruct (HS Hb Hs) as [Hb0 Hs0].
  destruct (step_ok n d0 x Hok0 Hx) as (dm & d1' & Es & Ee & Hokm & _ & _ & Em). rewrite H1 in Es. injection Es as <-.
  eapply (enforce_idempotent n dm); eauto.
  - rewrite Em. exact Hb0.
  - rewrite Em. exact Hs0.
  - rewrite Em. intros a b Hin. cbn in *. rewrite S4 in *. exact (Hc a b Hin).
Qed.
Print Assumptions C22_idempotent_after_any_history.
Example C22_ex : dm_ok 4 ex_dm /\ small_bias ex_dm /\ stable_pins ex_dm /\ no_chains ex_dm.
Proof.
  destruct C21_ex_ok as (H1 & H2 & H3 & _). split; [exact H1|]. split; [|split; [|exact H2]].
  - split; [cbn; lra|]. intros [|[|[|[|i]]]] Hi; cbn in *; try lia; unfold val; cbn; rewrite Rabs_R0; lra.
  - intros i p H. unfold pin_of, ex_dm in H. cbn [pinned Vpinned last_assoc] in H.
    destruct (Z.eqb_spec 3 (Z.of_nat i)) as [E|E]; [|discriminate]. injection H as <-.
    assert (i = 3%nat) by lia. subst i. unfold val; cbn. lra.
Qed.

(* A bias larger than the voltage range makes the second call change the command. *)
Theorem C22_large_bias_refuted : exists d d' d'', enforceZ d = Ok d' /\ enforceZ d' = Ok d'' /\ cV d'' <> cV d'.
Proof.
  exists (mkdmc 1 [30] [] None [-15] 0 10 [] [] [])%Z. eexists. eexists. split; [vm_compute; reflexivity|].
  split; [vm_compute; reflexivity|]. vm_compute. discriminate.
Qed.
(* The list of pins grows with every call although nothing else changes. *)
Open Scope Z_scope.
Definition railed (k : nat) : dmc Z := mkdmc 1 [10] [] (Some [false]) [1] 0 10 (repeat 0 k) (repeat 10 k) [].
Lemma railed_step k : enforceZ (railed k) = Ok (railed (S k)).
Proof.
  assert (S : forall m, scatter_pairs [10] (repeat 0 m) (repeat 10 m) = Ok [10])
    by (induction m as [|m IH]; cbn; auto).
  assert (RC : forall (x : Z) m, repeat x m ++ [x] = repeat x (Datatypes.S m))
    by (intros x m; induction m as [|m IH]; cbn; [reflexivity|now rewrite IH]).
  unfold enforceZ, enforce_constraints, railed, get_dead_map. cbn [dead_map rbind cV biasMap cVmin cVmax pinned Vpinned tied cNact dead].
  change (zip_with (mask_dead Z 0) [10] [false]) with (@Ok (list Z) [10]). cbn [rbind].
  change (zip_with Z.add [10] [1]) with (@Ok (list Z) [11]). cbn [rbind].
  change (nonzero (fun x => x <? 0) [11]) with (@nil Z). change (nonzero (fun x => 10 <? x) [11]) with [0].
  cbn [app length]. change (repeat 0 0) with (@nil Z). cbn [app]. change (repeat 10 1) with [10].
  rewrite !RC. 
  assert (E : scatter [10] (repeat 0 (Datatypes.S k)) (repeat 10 (Datatypes.S k)) = Ok [10]).
  { unfold scatter. rewrite !repeat_length, Nat.eqb_refl. apply S. }
  rewrite E. reflexivity.
Qed.
Theorem C22_pin_list_bounded_refuted : forall n, exists d', enforce_n Z 0 Z.add Z.ltb n (railed 0) = Ok d' /\
  length (pinned d') = n /\ cV d' = [10] /\ (forall k, In k (pinned d') -> k = 0).
Proof.
  assert (G : forall n k, enforce_n Z 0 Z.add Z.ltb n (railed k) = Ok (railed (n + k))).
  { induction n as [|n IH]; intros k; cbn [enforce_n]; [reflexivity|].
    pose proof (railed_step k) as E. unfold enforceZ in E. rewrite E. cbn [rbind]. rewrite IH.
    f_equal. f_equal. lia. }
  intros n. exists (railed n). split; [rewrite G; f_equal; f_equal; lia|].
  cbn. rewrite repeat_length. repeat split; auto. intros k Hk. now apply repeat_spec in Hk.
Qed.
Print Assumptions C22_pin_list_bounded_refuted.

(* ---------------- C23 ---------------- *)
(* Each of the eight keywords (any letter case) moves actuator (r,c) to the place given by the named
   symmetry: optional mirror of x, then k counter-clockwise quarter turns. *)
Theorem C23_surface_orientation : forall (X : Type) o flip k (H : arr X) N,
  In (lower o, (flip, k)) orientation_table -> nr H = N -> nc H = N ->
  exists H', orient_surf (Some o) H = Ok H' /\ nr H' = N /\ nc H' = N /\
    forall r c r' c', on_grid N r c -> on_grid N r' c' -> moves_to N flip k r c r' c' -> px H' r' c' = px H r c.
Proof. exact (@orient_surf_ok). Qed.
Print Assumptions C23_surface_orientation.
(* The influence-function datacube places actuator (r,c) at the same grid position. *)
Theorem C23_poke_cube_orientation : forall o flip k N, In (lower o, (flip, k)) orientation_table ->
  exists M, orient_poke (Some o) N = Ok M /\ nr M = N /\ nc M = N /\
    forall r c r' c', on_grid N r c -> on_grid N r' c' -> moves_to N flip k r c r' c' -> px M r c = r' * N + c'.
Proof. exact orient_poke_ok. Qed.
Print Assumptions C23_poke_cube_orientation.
Theorem C23_other_keywords_rejected : forall (X : Type) o (H : arr X) N, ~ In (lower o) (map fst orientation_table) ->
  orient_surf (Some o) H = Raise ValueError /\ orient_poke (Some o) N = Raise ValueError.
Proof. intros X o H N Hn. split; [now apply orient_surf_bad|now apply orient_poke_bad]. Qed.
Print Assumptions C23_other_keywords_rejected.
(* Each symmetry is a bijection of the grid, and for N >= 2 the eight are pairwise different. *)
Theorem C23_bijection : forall N flip k, (k < 4)%nat ->
  (forall r c, on_grid N r c -> exists r' c', on_grid N r' c' /\ moves_to N flip k r c r' c') /\
  (forall r c r1 c1 r2 c2, moves_to N flip k r c r1 c1 -> moves_to N flip k r c r2 c2 -> r1 = r2 /\ c1 = c2) /\
  (forall r1 c1 r2 c2 r c, moves_to N flip k r1 c1 r c -> moves_to N flip k r2 c2 r c -> r1 = r2 /\ c1 = c2).
Proof.
  intros N flip k Hk. split; [intros; now apply moves_to_total|]. split.
  - apply moves_to_fun.
  - apply moves_to_inj.
Qed.
Print Assumptions C23_bijection.
Theorem C23_distinct : forall N f1 k1 f2 k2, 2 <= N -> (k1 < 4)%nat -> (k2 < 4)%nat ->
  (forall r c r' c', on_grid N r c -> on_grid N r' c' -> moves_to N f1 k1 r c r' c' -> moves_to N f2 k2 r c r' c') ->
  f1 = f2 /\ k1 = k2.
Proof. exact symmetries_distinct. Qed.
Print Assumptions C23_distinct.
Example C23_ex : match orient_surf (Some "Rot90"%string) (mkarr 2 2 (fun i j => 10 * i + j)) with
  | Ok a => arr_to_lists a | Raise _ => [] end = [[1; 11]; [0; 10]].
Proof. reflexivity. Qed.
Example C23_ex2 : moves_to 2 false 1 0 1 0 0 /\ In ("rot90"%string, (false, 1%nat)) orientation_table.
Proof. split; [reflexivity|cbn; auto]. Qed.

(* ---------------- C24 ---------------- *)
Open Scope R_scope.
Theorem C24_heights_are_multiples_of_the_step : forall m step VtoH V out i j,
  discretize_surf m step VtoH V = Ok out -> step <> 0 -> px VtoH i j <> 0 ->
  exists n : Z, px VtoH i j * px out i j = IZR n * step.
Proof.
  intros m step VtoH V out i j H Hs Hg. destruct (discretize_px m step VtoH V out i j H) as (rnd & _ & _ & _ & E).
  eauto.
Qed.
Print Assumptions C24_heights_are_multiples_of_the_step.

(* err: commanded height minus quantised height *)
Definition qerr (VtoH V out : arr R) (i j : Z) : R := px VtoH i j * px V i j - px VtoH i j * px out i j.
Theorem C24_error_bounds : forall s step VtoH V out i j,
  discretize_surf (Some s) step VtoH V = Ok out -> 0 < step -> px VtoH i j <> 0 ->
  (contains "round" (lower s) = true -> Rabs (qerr VtoH V out i j) <= step / 2) /\
  (contains "round" (lower s) = false -> contains "floor" (lower s) = true -> 0 <= qerr VtoH V out i j < step) /\
  (contains "round" (lower s) = false -> contains "floor" (lower s) = false -> contains "ceil" (lower s) = true ->
     - step < qerr VtoH V out i j <= 0) /\
  (contains "round" (lower s) = false -> contains "floor" (lower s) = false -> contains "ceil" (lower s) = false ->
     contains "fix" (lower s) = true /\
     Rabs (px VtoH i j * px out i j) <= Rabs (px VtoH i j * px V i j) /\ Rabs (qerr VtoH V out i j) < step /\
     0 <= (px VtoH i j * px out i j) * (px VtoH i j * px V i j)).
Proof.
  intros s step VtoH V out i j H Hs Hg.
  destruct (discretize_px _ _ _ _ _ i j H) as (rnd & Hr & _ & _ & E). specialize (E ltac:(lra) Hg).
  unfold qerr. rewrite E. set (h := px VtoH i j * px V i j) in *. clearbody h.
  assert (Hh : h = h / step * step) by (field; lra). set (x := h / step) in *. clearbody x. subst h.
  unfold round_steps in Hr.
  destruct (contains "round" (lower s)). { injection Hr as <-. split; [|split; [|split]]; intros; try discriminate.
    replace (x * step - IZR (ZnearestE x) * step) with ((x - IZR (ZnearestE x)) * step) by ring.
    rewrite Rabs_mult, (Rabs_pos_eq step) by lra. pose proof (near_err x).
    replace (step / 2) with (/ 2 * step) by field. apply Rmult_le_compat_r; lra. }
  destruct (contains "floor" (lower s)). { injection Hr as <-. split; [|split; [|split]]; intros; try discriminate.
    pose proof (Zfloor_lb x). pose proof (Zfloor_ub x). nra. }
  destruct (contains "ceil" (lower s)). { injection Hr as <-. split; [|split; [|split]]; intros; try discriminate.
    pose proof (Zceil_ub x). pose proof (Zceil_lb x). nra. }
  destruct (contains "fix" (lower s)); [|discriminate]. injection Hr as <-.
  split; [|split; [|split]]; intros; try discriminate.
  split; auto. rewrite !Rabs_mult, (Rabs_pos_eq step) by lra.
  replace (x * step - IZR (Ztrunc x) * step) with ((x - IZR (Ztrunc x)) * step) by ring.
  rewrite Rabs_mult, (Rabs_pos_eq step) by lra.
  destruct (Rle_lt_dec 0 x) as [P|P].
  - rewrite Ztrunc_floor by auto. pose proof (Zfloor_lb x). pose proof (Zfloor_ub x).
    assert (0 <= IZR (Zfloor x)) by (apply IZR_le; apply Zfloor_lub; exact P).
    rewrite !Rabs_pos_eq by lra. split; [nra|]. split; [nra|].
    apply Rmult_le_pos; apply Rmult_le_pos; lra.
  - rewrite Ztrunc_ceil by lra. pose proof (Zceil_ub x). pose proof (Zceil_lb x).
    assert (IZR (Zceil x) <= 0) by (apply IZR_le; apply Zceil_glb; lra).
    rewrite !Rabs_left1 by lra. split; [nra|]. split; [nra|].
    replace (IZR (Zceil x) * step * (x * step)) with ((- IZR (Zceil x) * step) * (- x * step)) by ring.
    apply Rmult_le_pos; apply Rmult_le_pos; lra.
Qed.
Print Assumptions C24_error_bounds.
Theorem C24_methods_accepted : forall m step VtoH V,
  (m = None -> discretize_surf m step VtoH V = Raise TypeError) /\
  (forall s, m = Some s ->
     ((exists out, discretize_surf m step VtoH V = Ok out /\ nr out = nr V /\ nc out = nc V) <->
       exists w, In w ["round"; "floor"; "ceil"; "fix"]%string /\ exists a b, lower s = (a ++ w ++ b)%string) /\
     ((forall out, discretize_surf m step VtoH V <> Ok out) -> discretize_surf m step VtoH V = Raise ValueError)).
Proof.
  intros m step VtoH V. split; [intros ->; reflexivity|]. intros s ->.
  assert (Q : forall w, contains w (lower s) = true <-> exists a b, lower s = (a ++ w ++ b)%string) by (intros; apply contains_iff).
  unfold discretize_surf, round_steps. split; [split|].
  - intros H. destruct (contains "round" (lower s)) eqn:E1; [exists "round"%string; split; [cbn; auto|now apply Q]|].
    destruct (contains "floor" (lower s)) eqn:E2; [exists "floor"%string; split; [cbn; auto|now apply Q]|].
    destruct (contains "ceil" (lower s)) eqn:E3; [exists "ceil"%string; split; [cbn; auto|now apply Q]|].
    destruct (contains "fix" (lower s)) eqn:E4; [exists "fix"%string; split; [cbn; auto|now apply Q]|].
    revert H. cbn. 
    intros (out & H & _); discriminate.
  - intros (w & Hw & Hab). apply Q in Hab. cbn in Hw.
    destruct (contains "round" (lower s)) eqn:E1; [cbn; eexists; split; [reflexivity|split; reflexivity]|].
    destruct (contains "floor" (lower s)) eqn:E2; [cbn; eexists; split; [reflexivity|split; reflexivity]|].
    destruct (contains "ceil" (lower s)) eqn:E3; [cbn; eexists; split; [reflexivity|split; reflexivity]|].
    destruct (contains "fix" (lower s)) eqn:E4; [cbn; eexists; split; [reflexivity|split; reflexivity]|].
    destruct Hw as [<-|[<-|[<-|[<-|[]]]]]; congruence.
  - intros H.
    destruct (contains "round" (lower s)); [exfalso; eapply H; reflexivity|].
    destruct (contains "floor" (lower s)); [exfalso; eapply H; reflexivity|].
    destruct (contains "ceil" (lower s)); [exfalso; eapply H; reflexivity|].
    destruct (contains "fix" (lower s)); [exfalso; eapply H; reflexivity|]. reflexivity.
Qed.
Print Assumptions C24_methods_accepted.
Example C24_ex : exists out, discretize_surf (Some "Floor"%string) (1/2) (mkarr 1 1 (fun _ _ => 1)) (mkarr 1 1 (fun _ _ => 7/4)) = Ok out
  /\ px out 0%Z 0%Z = 3/2.
Proof.
  eexists. split; [reflexivity|]. cbn [px]. replace (1 * (7 / 4) / (1 / 2)) with (7/2) by field.
  replace (Zfloor (7 / 2)) with 3%Z by (symmetry; apply Zfloor_imp; cbn; lra). field.
Qed.

(* ---------------- C42 ---------------- *)
Theorem C42_surface_is_superposition : forall mt compact full NactTotal V VtoH,
  let c := if String.eqb mt "compact" then compact else full in
  In mt ["compact"; "full"]%string -> (0 <= Nbox c)%Z ->
  (0 <= NactTotal <= nr V * nc V)%Z -> (nr VtoH * nc VtoH = nr V * nc V)%Z ->
  (forall k, (0 <= k < NactTotal)%Z -> significant c k -> box_ok c k) ->
  exists s, gen_surf_from_poke_cube mt compact full NactTotal V VtoH = Ok s /\ nr s = NdmPad c /\ nc s = NdmPad c /\
    exists contrib, (forall i j, px s i j = rsum (Z.to_nat NactTotal) (fun k => contrib (Z.of_nat k) i j)) /\
      (forall k i j, significant c k -> contrib k i j = height V VtoH k * influence c k i j) /\
      (forall k i j, ~ significant c k -> contrib k i j = 0).
Proof.
  intros mt compact full NactTotal V VtoH c Hmt HNb HNa HV HB. unfold gen_surf_from_poke_cube.
  replace (str_in mt ["compact"; "full"]%string) with true by (symmetry; now apply str_in_iff). cbn [negb].
  fold c.
  assert (Sg : forall k, sigb c k = true <-> significant c k).
  { intros k. unfold sigb, significant. destruct (Rlt_dec _ _); split; auto; discriminate. }
  destruct (superpose_all_ok c V VtoH HNb HV (Z.to_nat NactTotal) 0%nat (mkarr (NdmPad c) (NdmPad c) (fun _ _ => 0))) as (s & E & R1 & R2 & P).
  { intros k Hk. split; [lia|]. intros Hs. apply HB; [lia|]. now apply Sg. }
  exists s. split; [exact E|]. split; [exact R1|]. split; [exact R2|].
  exists (term c V VtoH). split; [|split].
  - intros i j. rewrite P. cbn [px]. rewrite Rplus_0_l. apply rsum_ext. intros; reflexivity.
  - intros k i j Hs. unfold term. apply Sg in Hs. now rewrite Hs.
  - intros k i j Hs. unfold term. destruct (sigb c k) eqn:Ek; auto. apply Sg in Ek. contradiction.
Qed.
Print Assumptions C42_surface_is_superposition.

(* dropping weak influence functions changes no pixel by more than 1e-12 times the total height *)
Theorem C42_skipping_error : forall mt compact full NactTotal V VtoH s i j,
  let c := if String.eqb mt "compact" then compact else full in
  In mt ["compact"; "full"]%string -> (0 <= Nbox c)%Z ->
  (0 <= NactTotal <= nr V * nc V)%Z -> (nr VtoH * nc VtoH = nr V * nc V)%Z ->
  (forall k, (0 <= k < NactTotal)%Z -> significant c k -> box_ok c k) ->
  gen_surf_from_poke_cube mt compact full NactTotal V VtoH = Ok s ->
  Rabs (px s i j - rsum (Z.to_nat NactTotal) (fun k => height V VtoH (Z.of_nat k) * influence c (Z.of_nat k) i j))
  <= / 10 ^ 12 * rsum (Z.to_nat NactTotal) (fun k => Rabs (height V VtoH (Z.of_nat k))).
Proof.
  intros mt compact full NactTotal V VtoH s i j c Hmt HNb HNa HV HB Hs.
  destruct (C42_surface_is_superposition mt compact full NactTotal V VtoH Hmt HNb HNa HV HB) as (s' & E & _ & _ & ct & P & P1 & P2).
  rewrite Hs in E. injection E as <-. rewrite P. fold c in P1, P2.
  rewrite <- rsum_scal.
  replace (rsum (Z.to_nat NactTotal) (fun k => ct (Z.of_nat k) i j) - rsum (Z.to_nat NactTotal) (fun k => height V VtoH (Z.of_nat k) * influence c (Z.of_nat k) i j))
    with (rsum (Z.to_nat NactTotal) (fun k => ct (Z.of_nat k) i j + -1 * (height V VtoH (Z.of_nat k) * influence c (Z.of_nat k) i j)))
    by (rewrite rsum_plus, rsum_scal; ring).
  eapply Rle_trans; [apply Rabs_rsum|].
  assert (Mono : forall n f g, (forall k, f k <= g k) -> rsum n f <= rsum n g).
  { intros n f g Hfg. induction n as [|n IH]; cbn [rsum]; [lra|]. specialize (Hfg n). lra. }
  apply Mono. intros k.
  destruct (Rlt_dec (1 / 10 ^ 12) (abs_total (Nbox c) (inf_datacube c (Z.of_nat k)))) as [Hg|Hg].
  - rewrite P1 by exact Hg. match goal with |- Rabs ?e <= _ => replace e with 0 by ring end. rewrite Rabs_R0.
    apply Rmult_le_pos; [left; apply Rinv_0_lt_compat; lra|apply Rabs_pos].
  - rewrite P2 by exact Hg. rewrite Rplus_0_l, !Rabs_mult. rewrite Rabs_left1 by lra.
    pose proof (influence_small c (Z.of_nat k) i j HNb). pose proof (Rabs_pos (height V VtoH (Z.of_nat k))).
    assert (Rabs (influence c (Z.of_nat k) i j) <= / 10 ^ 12) by lra.
    replace (- -1) with 1 by ring. rewrite Rmult_1_l, Rmult_comm. apply Rmult_le_compat_r; auto.
Qed.
Print Assumptions C42_skipping_error.

(* linear in the command *)
Theorem C42_linear : forall mt compact full NactTotal V W U VtoH a b sV sW,
  let c := if String.eqb mt "compact" then compact else full in
  In mt ["compact"; "full"]%string -> (0 <= Nbox c)%Z -> nr W = nr V -> nc W = nc V -> nr U = nr V -> nc U = nc V ->
  (forall i j, px U i j = a * px V i j + b * px W i j) ->
  (0 <= NactTotal <= nr V * nc V)%Z -> (nr VtoH * nc VtoH = nr V * nc V)%Z ->
  (forall k, (0 <= k < NactTotal)%Z -> significant c k -> box_ok c k) ->
  gen_surf_from_poke_cube mt compact full NactTotal V VtoH = Ok sV ->
  gen_surf_from_poke_cube mt compact full NactTotal W VtoH = Ok sW ->
  exists sU, gen_surf_from_poke_cube mt compact full NactTotal U VtoH = Ok sU /\
    forall i j, px sU i j = a * px sV i j + b * px sW i j.
Proof.
  intros mt compact full NactTotal V W U VtoH a b sV sW c Hmt HNb W1 W2 U1 U2 HU HNa HV HB EV EW.
  destruct (C42_surface_is_superposition mt compact full NactTotal V VtoH Hmt HNb HNa HV HB) as (s1 & E1 & _ & _ & c1 & P1 & Q1 & Z1).
  destruct (C42_surface_is_superposition mt compact full NactTotal W VtoH Hmt HNb) as (s2 & E2 & _ & _ & c2 & P2 & Q2 & Z2); try (rewrite W1, W2); auto.
  destruct (C42_surface_is_superposition mt compact full NactTotal U VtoH Hmt HNb) as (s3 & E3 & _ & _ & c3 & P3 & Q3 & Z3); try (rewrite U1, U2); auto.
  rewrite EV in E1. injection E1 as <-. rewrite EW in E2. injection E2 as <-.
  fold c in Q1, Q2, Q3, Z1, Z2, Z3.
  exists s3. split; auto. intros i j. rewrite P1, P2, P3, <- !rsum_scal, <- rsum_plus. apply rsum_ext. intros k Hk.
  destruct (Rlt_dec (1 / 10 ^ 12) (abs_total (Nbox c) (inf_datacube c (Z.of_nat k)))) as [Hg|Hg].
  - rewrite Q1, Q2, Q3 by exact Hg. unfold height. rewrite HU, U2, W2. ring.
  - rewrite Z1, Z2, Z3 by exact Hg. ring.
Qed.
Print Assumptions C42_linear.
Theorem C42_bad_model_type : forall mt compact full NactTotal V VtoH, ~ In mt ["compact"; "full"]%string ->
  gen_surf_from_poke_cube mt compact full NactTotal V VtoH = Raise ValueError.
Proof.
  intros. unfold gen_surf_from_poke_cube.
  destruct (str_in mt ["compact"; "full"]%string) eqn:E; [apply str_in_iff in E; contradiction|reflexivity].
Qed.
Print Assumptions C42_bad_model_type.
(* one actuator, one-pixel influence function of height 1 at the middle of a 3x3 array *)
Example C42_ex : let c := mkcube 3 1 (fun _ _ _ => 1) (fun _ => 1%Z) (fun _ => 1%Z) in
  significant c 0 /\ box_ok c 0 /\ influence c 0 1 1 = 1 /\ influence c 0 0 1 = 0.
Proof.
  cbn zeta. split; [|split; [|split; reflexivity]].
  - unfold significant, abs_total. cbn [Nbox inf_datacube]. change (Z.to_nat 1) with 1%nat. cbn [rsum]. rewrite Rabs_R1.
    assert (1 < 10 ^ 12) by (apply Rlt_pow_R1; [lra|lia]).
    unfold Rdiv. rewrite Rmult_1_l. replace (0 + (0 + 1)) with (/ 1) by field. apply Rinv_lt_contravar; lra.
  - unfold box_ok; cbn. lia.
Qed.

(* ---------------- C49 ---------------- *)
(* Neighbour rule on a DM with at least 2x2 actuators, with an arbitrary symmetric test "exceeds":
   either no adjacent pair (8-neighbourhood) violates it and the command map is returned unchanged,
   or some pair does and ValueError is raised. *)
Theorem C49_neighbor_rule : forall (A : Type) (exceeds : A -> A -> bool) (Vin : arr A) N,
  (2 <= N)%Z -> nr Vin = N -> nc Vin = N -> (forall x y, exceeds x y = exceeds y x) ->
  (apply_neighbor_rule A exceeds Vin N = Ok Vin /\
     forall r c r' c', on_grid N r c -> on_grid N r' c' -> adjacent r c r' c' -> exceeds (px Vin r c) (px Vin r' c') = false) \/
  (apply_neighbor_rule A exceeds Vin N = Raise ValueError /\
     exists r c r' c', on_grid N r c /\ on_grid N r' c' /\ adjacent r c r' c' /\ exceeds (px Vin r c) (px Vin r' c') = true).
Proof. exact (@nbr_rule). Qed.
Print Assumptions C49_neighbor_rule.
(* the documented repair (scale down until the rule is met) never happens *)
Definition exceedsZ (lim x y : Z) : bool := (lim <? Z.abs (x - y))%Z.
Theorem C49_repairs_violations_refuted : exists Vin, nr Vin = 2%Z /\ nc Vin = 2%Z /\
  apply_neighbor_rule Z (exceedsZ 3) Vin 2 = Raise ValueError.
Proof. exists (mkarr 2 2 (fun i j => if (i =? j)%Z then 10%Z else 0%Z)). repeat split; reflexivity. Qed.
(* a single-actuator DM is an error *)
Theorem C49_single_actuator_refuted : forall (A : Type) (exceeds : A -> A -> bool) Vin, nr Vin = 1%Z -> nc Vin = 1%Z ->
  apply_neighbor_rule A exceeds Vin 1 = Raise IndexError.
Proof. intros A exceeds Vin H1 H2. unfold apply_neighbor_rule, check_pair, at2. cbn. rewrite H1, H2. reflexivity. Qed.
Print Assumptions C49_single_actuator_refuted.
Example C49_ex : apply_neighbor_rule Z (exceedsZ 3) (mkarr 2 2 (fun i j => i + j)%Z) 2 = Ok (mkarr 2 2 (fun i j => i + j)%Z).
Proof. reflexivity. Qed.

(* ---------------- C50 ---------------- *)
(* The updated gain of every actuator is the slope of the documented height(voltage) formula at its
   total voltage. *)
Theorem C50_quadratic_gain_is_slope : forall ft q1 q2 q3 c V bias VtoH,
  In (lower ft) ["quadratic"; "poly2"]%string -> p1 c = Some q1 -> p2 c = Some q2 -> p3 c = Some q3 ->
  exists out, update_gain_map ft c V bias VtoH = Ok out /\ nr out = nr V /\ nc out = nc V /\
    forall i j, derivable_pt_lim (fun v => q1 * v * v + q2 * v + q3) (px V i j + px bias i j) (px out i j).
Proof.
  intros ft q1 q2 q3 c V bias VtoH Hf H1 H2 H3. unfold update_gain_map.
  assert (N1 : str_in (lower ft) ["linear"; "poly1"]%string = false).
  { destruct (str_in (lower ft) ["linear"; "poly1"]%string) eqn:E; auto. apply str_in_iff in E. cbn in E, Hf.
    destruct Hf as [Hf|[Hf|[]]], E as [E|[E|[]]]; rewrite <- Hf in E; discriminate. }
  rewrite N1. replace (str_in (lower ft) ["quadratic"; "poly2"]%string) with true by (symmetry; now apply str_in_iff).
  rewrite H1, H2, H3. eexists. split; [reflexivity|]. repeat split. intros i j. cbn [px]. apply gain_quadratic.
Qed.
Print Assumptions C50_quadratic_gain_is_slope.
Theorem C50_fourier_gain_is_slope : forall ft c0 c1 c2 s1 s2 om c V bias VtoH,
  lower ft = "fourier2"%string -> a0 c = Some c0 -> a1 c = Some c1 -> a2 c = Some c2 -> b1 c = Some s1 -> b2 c = Some s2 -> w c = Some om ->
  exists out, update_gain_map ft c V bias VtoH = Ok out /\ nr out = nr V /\ nc out = nc V /\
    forall i j, derivable_pt_lim
      (fun v => c0 + c1 * cos (v * om) + s1 * sin (v * om) + c2 * cos (2 * v * om) + s2 * sin (2 * v * om))
      (px V i j + px bias i j) (px out i j).
Proof.
  intros ft c0 c1 c2 s1 s2 om c V bias VtoH Hf H0 H1 H2 H3 H4 H5. unfold update_gain_map. rewrite Hf. cbn [str_in existsb String.eqb Ascii.eqb Bool.eqb orb].
  change (str_in "fourier2" ["linear"; "poly1"]%string) with false. change (str_in "fourier2" ["quadratic"; "poly2"]%string) with false. cbn match.
  rewrite H0, H1, H2, H3, H4, H5. eexists. split; [reflexivity|]. repeat split. intros i j. cbn [px]. apply gain_fourier.
Qed.
Print Assumptions C50_fourier_gain_is_slope.
(* linear: gain untouched; missing calibration or unknown fit type: ValueError *)
Theorem C50_linear_and_errors : forall ft c V bias VtoH,
  (In (lower ft) ["linear"; "poly1"]%string -> update_gain_map ft c V bias VtoH = Ok VtoH) /\
  (~ In (lower ft) ["linear"; "poly1"; "quadratic"; "poly2"; "fourier2"]%string -> update_gain_map ft c V bias VtoH = Raise ValueError) /\
  (In (lower ft) ["quadratic"; "poly2"]%string -> p1 c = None \/ p2 c = None \/ p3 c = None -> update_gain_map ft c V bias VtoH = Raise ValueError) /\
  (lower ft = "fourier2"%string -> a0 c = None \/ a1 c = None \/ a2 c = None \/ b1 c = None \/ b2 c = None \/ w c = None ->
     update_gain_map ft c V bias VtoH = Raise ValueError).
Proof.
  intros ft c V bias VtoH. unfold update_gain_map. split; [|split; [|split]].
  - intros H. apply str_in_iff in H. now rewrite H.
  - intros H. destruct (str_in (lower ft) ["linear"; "poly1"]%string) eqn:E1.
    { apply str_in_iff in E1. exfalso. apply H. cbn in *. tauto. }
    destruct (str_in (lower ft) ["quadratic"; "poly2"]%string) eqn:E2.
    { apply str_in_iff in E2. exfalso. apply H. cbn in *. tauto. }
    destruct (String.eqb_spec (lower ft) "fourier2") as [E3|E3]; [|reflexivity]. exfalso. apply H. rewrite E3. cbn. tauto.
  - intros H Hm. cbn [In] in H. destruct H as [<-|[<-|[]]]; cbn [str_in existsb String.eqb Ascii.eqb Bool.eqb orb];
      destruct (p1 c), (p2 c), (p3 c); try reflexivity; destruct Hm as [|[|]]; discriminate.
  - intros -> Hm. cbn [str_in existsb String.eqb Ascii.eqb Bool.eqb orb].
      destruct (a0 c), (a1 c), (a2 c), (b1 c), (b2 c), (w c); try reflexivity; destruct Hm as [|[|[|[|[|]]]]]; discriminate.
Qed.
Print Assumptions C50_linear_and_errors.
Example C50_ex : exists out, update_gain_map "Quadratic" (mkcal (Some 3) (Some 2) (Some 1) None None None None None None)
   (mkarr 1 1 (fun _ _ => 4)) (mkarr 1 1 (fun _ _ => 1)) (mkarr 1 1 (fun _ _ => 0)) = Ok out /\ px out 0%Z 0%Z = 32.
Proof. eexists. split; [reflexivity|]. cbn [px]. ring. Qed.

(* ---------------- C51 ---------------- *)
(* For a point-symmetric influence function, the fitted poke heights reproduce the requested surface
   exactly at every actuator. *)
Theorem C51_fit_reproduces_surface : forall nrow ncol inf surf x, (0 < nrow)%Z -> (0 < ncol)%Z ->
  odd_shape inf -> point_symmetric inf -> is_lsq_fit nrow ncol inf surf x ->
  forall i j, (0 <= i < nrow)%Z -> (0 <= j < ncol)%Z -> dm_surface nrow ncol inf x i j = px surf i j.
Proof. exact fit_reproduces. Qed.
Print Assumptions C51_fit_reproduces_surface.
(* For an influence function without that symmetry the matrix is transposed and the fit is wrong. *)
Definition inf_asym : arr R := mkarr 1 3 (fun _ j => if (j =? 0)%Z then 0 else 1).
Theorem C51_asymmetric_refuted : exists surf x, odd_shape inf_asym /\ is_lsq_fit 1 2 inf_asym surf x /\
  dm_surface 1 2 inf_asym x 0 1 <> px surf 0%Z 1%Z.
Proof.
  exists (mkarr 1 2 (fun _ j => if (j =? 0)%Z then 1 else 0)), (mkarr 1 2 (fun _ j => if (j =? 0)%Z then 1 else 0)).
  split; [unfold odd_shape; cbn; lia|]. split.
  - intros j Hj. assert (C : j = 0%Z \/ j = 1%Z) by lia. destruct C as [->| ->]; vm_compute; lra.
  - vm_compute. lra.
Qed.
Print Assumptions C51_asymmetric_refuted.
Example C51_ex : let inf := mkarr 1 3 (fun _ j => if (j =? 1)%Z then 2 else 1) in
  odd_shape inf /\ point_symmetric inf /\
  is_lsq_fit 1 2 inf (mkarr 1 2 (fun _ j => if (j =? 0)%Z then 3 else 0)) (mkarr 1 2 (fun _ j => if (j =? 0)%Z then 2 else -1)).
Proof.
  cbn zeta. split; [unfold odd_shape; cbn; lia|]. split.
  - intros i j Hi Hj. cbn [px nr nc] in *. destruct (Z.eqb_spec j 1), (Z.eqb_spec (3 - 1 - j) 1); try lia; reflexivity.
  - intros j Hj. assert (C : j = 0%Z \/ j = 1%Z) by lia. destruct C as [->| ->]; vm_compute; lra.
Qed.

(* ---------------- C52 ---------------- *)
(* The matrix applied to actuator positions is the product of rotations about x, y, z in the selected
   order, a proper rotation; projection never moves an actuator outwards. *)
Theorem C52_rotation_product : forall a b g,
  mat_eq (Mrot true a b g) (mmul (Rz g) (mmul (Ry b) (Rx a))) /\
  mat_eq (Mrot false a b g) (mmul (Rx a) (mmul (Ry b) (Rz g))).
Proof. split; [apply mrot_xyz|apply mrot_zyx]. Qed.
Print Assumptions C52_rotation_product.
Theorem C52_proper_rotation : forall o a b g,
  mat_eq (mmul (Mrot o a b g) (transpose (Mrot o a b g))) ident /\ det3 (Mrot o a b g) = 1.
Proof. split; [apply mrot_orth|apply mrot_det]. Qed.
Print Assumptions C52_proper_rotation.
Theorem C52_never_outwards : forall o a b g x y, let p := rot_xy o a b g x y in
  fst p * fst p + snd p * snd p <= x * x + y * y.
Proof. exact rot_xy_norm. Qed.
Print Assumptions C52_never_outwards.

(* ---------------- C53 ---------------- *)
(* Every influence-function stamp lies strictly inside the DM array, whatever the actuator positions,
   sampling and padding. *)
Theorem C53_stamps_fit : forall nbox NboxAS centers P npad x,
  (nbox mod 2 = 0)%Z -> (nbox <= NboxAS)%Z -> 0 < P ->
  ndm_pad NboxAS centers P = Ok npad -> In x centers ->
  exists ll : Z, box_lower_left x P npad nbox = IZR ll /\ (0 < ll)%Z /\ (ll + nbox < npad)%Z.
Proof. exact stamps_inside. Qed.
Print Assumptions C53_stamps_fit.
Example C53_ex : exists npad, ndm_pad 4 [-3/2; 1/2; 3/2] 10 = Ok npad.
Proof. eexists. reflexivity. Qed.
