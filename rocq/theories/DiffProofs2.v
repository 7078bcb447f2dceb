(* Proofs about the differentiable DM: the actuator lattice, rendering and its reverse. *)
From Verif Require Import Base RBase StrBase UtilModel UtilSpec UtilProofs CBase PropModel PropSpec PropProofs OptModel OptSpec LinBase OptProofs OptProofs3 OptProofs4 OptProofs7 GradAdj2 DiffModel DiffSpec DiffProofs.
Open Scope R_scope.

Lemma pad_cropr_px E n m : (1 <= n)%nat -> (1 <= m)%nat -> exists O, pad_cropr E n m = Ok O /\ dims n m O /\
  forall i j, (i < n)%nat -> (j < m)%nat -> fpx O i j = match crop_src n (frows E) i, crop_src m (fcols E) j with Some p, Some q => fpx E p q | _, _ => 0 end.
Proof.
  intros Hn Hm. unfold pad_cropr, pad_crop_py. cbn [length Nat.eqb negb nth is_int elem_z orb].
  destruct (Z.leb_spec (Z.of_nat n) 0); [lia|]. destruct (Z.leb_spec (Z.of_nat m) 0); [lia|]. cbn [orb].
  destruct (pad_crop_recentred (rarr E) (Z.of_nat n) (Z.of_nat m) 0) as (o & -> & R1 & R2 & R3); [cbn; lia|cbn; lia|lia|lia|]. cbn [rbind].
  eexists. split; [reflexivity|]. split; [split; cbn; lia|]. intros i j Hi Hj. cbn [of_rarr fpx]. rewrite R3 by lia. unfold at_offset, crop_src. cbn [rarr nr nc px].
  destruct (_ <=? _)%Z; cbn [andb]; [|reflexivity]. destruct (_ <? _)%Z; cbn [andb default]; [|reflexivity]. destruct (_ <=? _)%Z; cbn [andb default]; [|reflexivity]. destruct (_ <? _)%Z; reflexivity.
Qed.
(* 1-D: summing over the image of a partial injection or over its domain *)
Lemma rsum_pick n r F : (forall i p, (i < n)%nat -> crop_src n r i = Some p -> (p < r)%nat) ->
  rsum n (fun i => match crop_src n r i with Some p => F i p | None => 0 end) = rsum r (fun p => match crop_src r n p with Some i => F i p | None => 0 end).
Proof.
  intros _. transitivity (rsum n (fun i => rsum r (fun p => match crop_src n r i with Some p' => if Nat.eqb p p' then F i p else 0 | None => 0 end))).
  { apply rsum_ext. intros i Hi. destruct (crop_src n r i) as [p|] eqn:E.
    - rewrite (rsum_single r p); [now rewrite Nat.eqb_refl|eapply crop_src_lt; eauto|]. intros k _ Hk. now rewrite (proj2 (Nat.eqb_neq k p)).
    - symmetry. now apply rsum_zero. }
  rewrite rsum_swap. apply rsum_ext. intros p Hp. destruct (crop_src r n p) as [i|] eqn:E.
  - assert (Hi : (i < n)%nat) by (eapply crop_src_lt; eauto). rewrite (rsum_single n i); auto.
    + rewrite (proj2 (crop_src_swap n r i p Hi Hp) E), Nat.eqb_refl. reflexivity.
    + intros k Hk Hne. destruct (crop_src n r k) as [q|] eqn:E2; auto. destruct (Nat.eqb_spec p q) as [->|]; auto. apply (crop_src_swap n r k q Hk Hp) in E2. congruence.
  - apply rsum_zero. intros k Hk. destruct (crop_src n r k) as [q|] eqn:E2; auto. destruct (Nat.eqb_spec p q) as [->|]; auto. apply (crop_src_swap n r k q Hk Hp) in E2. congruence.
Qed.
Lemma rdot_crop n m r c E G O P : dims r c E -> dims n m G -> (1 <= n)%nat -> (1 <= m)%nat -> (1 <= r)%nat -> (1 <= c)%nat -> pad_cropr E n m = Ok O -> pad_cropr G r c = Ok P -> rdot n m G O = rdot r c P E.
Proof.
  intros [E1 E2] [G1 G2] Hn Hm Hr Hc EO EP. destruct (pad_cropr_px E n m Hn Hm) as (O' & EO' & _ & VO). destruct (pad_cropr_px G r c Hr Hc) as (P' & EP' & _ & VP).
  rewrite EO in EO'. rewrite EP in EP'. injection EO' as <-. injection EP' as <-. rewrite E1, E2 in VO. rewrite G1, G2 in VP. unfold rdot.
  transitivity (rsum n (fun i => match crop_src n r i with Some p => rsum m (fun j => match crop_src m c j with Some q => fpx G i j * fpx E p q | None => 0 end) | None => 0 end)).
  { apply rsum_ext. intros i Hi. destruct (crop_src n r i) as [p|] eqn:A.
    - apply rsum_ext. intros j Hj. rewrite VO, A by auto. destruct (crop_src m c j); ring.
    - apply rsum_zero. intros j Hj. rewrite VO, A by auto. ring. }
  rewrite (rsum_pick n r (fun i p => rsum m (fun j => match crop_src m c j with Some q => fpx G i j * fpx E p q | None => 0 end))) by (intros; eapply crop_src_lt; eauto).
  apply rsum_ext. intros p Hp. destruct (crop_src r n p) as [i|] eqn:A.
  - rewrite (rsum_pick m c (fun j q => fpx G i j * fpx E p q)) by (intros; eapply crop_src_lt; eauto). apply rsum_ext. intros q Hq. rewrite VP, A by auto. destruct (crop_src c m q); ring.
  - symmetry. apply rsum_zero. intros q Hq. rewrite VP, A by auto. ring.
Qed.
(* the lattice *)
Definition fit_at (n nact sep : nat) := act_fit n nact sep.
Lemma act_pos_lin n nact sep k : act_pos n nact sep k = (act_pos n nact sep 0 + Z.of_nat k * Z.of_nat sep)%Z.
Proof. unfold act_pos. destruct (Nat.even nact); lia. Qed.
Lemma lat_start_pos n nact sep : lat_start (Z.of_nat n) (Z.of_nat nact) (Z.of_nat sep) = act_pos n nact sep 0.
Proof.
  unfold lat_start, lat_off, act_pos. destruct (Nat.even nact) eqn:E.
  - apply Nat.even_spec in E. destruct E as [k ->]. replace (Z.of_nat (2 * k)) with (2 * Z.of_nat k)%Z by lia. rewrite (Z.mul_comm 2), Z.mod_mul by lia. rewrite Z.eqb_refl.
    replace (- (Z.of_nat k * 2))%Z with (- Z.of_nat k * 2)%Z by lia. rewrite !Z.div_mul by lia. lia.
  - assert (O : Nat.odd nact = true) by (unfold Nat.odd; now rewrite E). apply Nat.odd_spec in O. destruct O as [k ->].
    replace (Z.of_nat (2 * k + 1)) with (1 + Z.of_nat k * 2)%Z by lia. rewrite Z.mod_add by lia. change (1 mod 2 =? 0)%Z with false. cbv iota.
    replace (- (1 + Z.of_nat k * 2))%Z with (1 + (- Z.of_nat k - 1) * 2)%Z by lia. rewrite Z.div_add by lia. replace (1 + Z.of_nat k * 2 + 1)%Z with ((Z.of_nat k + 1) * 2)%Z by lia. rewrite Z.div_mul by lia. change (1 / 2)%Z with 0%Z. lia.
Qed.
Lemma lat_stop_pos n nact sep : lat_stop (Z.of_nat n) (Z.of_nat nact) (Z.of_nat sep) = (act_pos n nact sep 0 + Z.of_nat nact * Z.of_nat sep)%Z.
Proof.
  unfold lat_stop, lat_off, act_pos. destruct (Nat.even nact) eqn:E.
  - apply Nat.even_spec in E. destruct E as [k ->]. replace (Z.of_nat (2 * k)) with (Z.of_nat k * 2)%Z by lia. rewrite Z.mod_mul by lia. rewrite Z.eqb_refl. rewrite !Z.div_mul by lia. lia.
  - assert (O : Nat.odd nact = true) by (unfold Nat.odd; now rewrite E). apply Nat.odd_spec in O. destruct O as [k ->].
    replace (Z.of_nat (2 * k + 1)) with (1 + Z.of_nat k * 2)%Z by lia. rewrite Z.mod_add by lia. change (1 mod 2 =? 0)%Z with false. cbv iota.
    rewrite Z.div_add by lia. replace (1 + Z.of_nat k * 2 + 1)%Z with ((Z.of_nat k + 1) * 2)%Z by lia. rewrite Z.div_mul by lia. change (1 / 2)%Z with 0%Z. lia.
Qed.
Lemma lat_len n nact sep : act_fit n nact sep -> norm_ix (Z.of_nat n) (lat_start (Z.of_nat n) (Z.of_nat nact) (Z.of_nat sep)) = act_pos n nact sep 0 /\
  slice_len (Z.of_nat n) (lat_start (Z.of_nat n) (Z.of_nat nact) (Z.of_nat sep)) (lat_stop (Z.of_nat n) (Z.of_nat nact) (Z.of_nat sep)) (Z.of_nat sep) = nact.
Proof.
  intros (Hs & Hn & H0 & H1). rewrite lat_start_pos, lat_stop_pos. rewrite act_pos_lin in H1. set (a := act_pos n nact sep 0) in *.
  assert (B : (0 <= Z.of_nat (nact - 1) * Z.of_nat sep)%Z) by (apply Z.mul_nonneg_nonneg; lia).
  assert (N1 : norm_ix (Z.of_nat n) a = a) by (unfold norm_ix; destruct (Z.ltb_spec a 0); lia).
  split; [exact N1|]. unfold slice_len. rewrite N1.
  assert (C : (Z.of_nat nact * Z.of_nat sep = Z.of_nat (nact - 1) * Z.of_nat sep + Z.of_nat sep)%Z) by (rewrite Nat2Z.inj_sub by lia; ring).
  assert (N2 : norm_ix (Z.of_nat n) (a + Z.of_nat nact * Z.of_nat sep) = Z.min (a + Z.of_nat nact * Z.of_nat sep) (Z.of_nat n)) by (unfold norm_ix; destruct (Z.ltb_spec (a + Z.of_nat nact * Z.of_nat sep) 0); lia).
  rewrite N2. set (w := (Z.min (a + Z.of_nat nact * Z.of_nat sep) (Z.of_nat n) - a + (Z.of_nat sep - 1))%Z).
  assert (W : (w / Z.of_nat sep = Z.of_nat nact)%Z).
  { symmetry. apply (Z.div_unique w (Z.of_nat sep) (Z.of_nat nact) (w - Z.of_nat sep * Z.of_nat nact)%Z); [left; rewrite (Z.mul_comm (Z.of_nat sep)); unfold w; lia|ring]. }
  rewrite W. lia.
Qed.
Lemma in_slice_spec n nact sep i : act_fit n nact sep -> in_slice (act_pos n nact sep 0) nact (Z.of_nat sep) i = None \/ exists k, (k < nact)%nat /\ in_slice (act_pos n nact sep 0) nact (Z.of_nat sep) i = Some k /\ Z.of_nat i = act_pos n nact sep k.
Proof.
  intros (Hs & _). unfold in_slice. cbv zeta. set (d := (Z.of_nat i - act_pos n nact sep 0)%Z). destruct (_ && _ && _)%bool eqn:E; [right|left; reflexivity].
  apply andb_prop in E. destruct E as [E E3]. apply andb_prop in E. destruct E as [E1 E2]. apply Z.leb_le in E1. apply Z.eqb_eq in E2. apply Z.ltb_lt in E3.
  assert (0 <= d / Z.of_nat sep)%Z by (apply Z.div_pos; lia). exists (Z.to_nat (d / Z.of_nat sep)). split; [lia|]. split; [reflexivity|]. rewrite act_pos_lin, Z2Nat.id by auto. pose proof (Z.div_mod d (Z.of_nat sep)). unfold d in *. lia.
Qed.
Lemma in_slice_pos n nact sep k : act_fit n nact sep -> (k < nact)%nat -> in_slice (act_pos n nact sep 0) nact (Z.of_nat sep) (Z.to_nat (act_pos n nact sep k)) = Some k /\ (Z.to_nat (act_pos n nact sep k) < n)%nat /\ (0 <= act_pos n nact sep k)%Z.
Proof.
  intros (Hs & _ & H0 & H1) Hk. rewrite act_pos_lin in H1. rewrite (act_pos_lin n nact sep k).
  assert (B : (Z.of_nat k * Z.of_nat sep <= Z.of_nat (nact - 1) * Z.of_nat sep)%Z) by (apply Z.mul_le_mono_nonneg_r; lia). assert (B0 : (0 <= Z.of_nat k * Z.of_nat sep)%Z) by (apply Z.mul_nonneg_nonneg; lia).
  split; [|lia]. unfold in_slice. cbv zeta. rewrite Z2Nat.id by lia. replace (act_pos n nact sep 0 + Z.of_nat k * Z.of_nat sep - act_pos n nact sep 0)%Z with (Z.of_nat k * Z.of_nat sep)%Z by lia.
  rewrite Z.mod_mul, Z.div_mul by lia. replace ((0 <=? Z.of_nat k * Z.of_nat sep) && (0 =? 0) && (Z.of_nat k <? Z.of_nat nact))%Z with true; [f_equal; lia|]. symmetry. rewrite (proj2 (Z.leb_le _ _) B0), Z.eqb_refl, (proj2 (Z.ltb_lt _ _)) by lia. reflexivity.
Qed.
Lemma rsum_slice n nact sep F : act_fit n nact sep -> rsum n (fun i => match in_slice (act_pos n nact sep 0) nact (Z.of_nat sep) i with Some k => F i k | None => 0 end) = rsum nact (fun k => F (Z.to_nat (act_pos n nact sep k)) k).
Proof.
  intros A. transitivity (rsum n (fun i => rsum nact (fun k => match in_slice (act_pos n nact sep 0) nact (Z.of_nat sep) i with Some k' => if Nat.eqb k k' then F i k else 0 | None => 0 end))).
  { apply rsum_ext. intros i Hi. destruct (in_slice_spec n nact sep i A) as [->|(k & Hk & -> & _)].
    - symmetry. now apply rsum_zero.
    - rewrite (rsum_single nact k); [now rewrite Nat.eqb_refl|auto|]. intros p _ Hp. now rewrite (proj2 (Nat.eqb_neq p k)). }
  rewrite rsum_swap. apply rsum_ext. intros k Hk. destruct (in_slice_pos n nact sep k A Hk) as (E & L & P). rewrite (rsum_single n (Z.to_nat (act_pos n nact sep k))); auto.
  - now rewrite E, Nat.eqb_refl.
  - intros i Hi Hne. destruct (in_slice_spec n nact sep i A) as [->|(q & Hq & -> & Z1)]; auto. destruct (Nat.eqb_spec k q) as [->|]; auto. exfalso. apply Hne. lia.
Qed.
(* what a DM holds after commands *)
Definition holds (ifn : field R) (nact sep : nat) (shx shy up : R) (a : field R) (d : dm_model) : Prop :=
  d_ifn d = ifn /\ d_tf d = make_tf ifn shx shy /\ d_up d = up /\ d_lat d = mklat (act_pos (frows ifn) nact sep 0) nact (act_pos (fcols ifn) nact sep 0) nact (Z.of_nat sep) (Z.of_nat sep) /\
  dims nact nact (d_act d) /\ dims (frows ifn) (fcols ifn) (d_poke d) /\
  forall i j, fpx (d_poke d) i j = match in_slice (act_pos (frows ifn) nact sep 0) nact (Z.of_nat sep) i, in_slice (act_pos (fcols ifn) nact sep 0) nact (Z.of_nat sep) j with Some r, Some c => fpx a r c | _, _ => 0 end.
Lemma init_holds ifn nact sep shx shy up : act_fit (frows ifn) nact sep -> act_fit (fcols ifn) nact sep -> exists d, dm_init ifn nact nact sep sep shx shy up = Ok d /\ holds ifn nact sep shx shy up (zeros nact nact) d.
Proof.
  intros A B. unfold dm_init. destruct A as [Hs A]. destruct (Nat.eqb_spec sep 0); [lia|]. cbn [orb]. eexists. split; [reflexivity|]. assert (A' : act_fit (frows ifn) nact sep) by (split; auto).
  destruct (lat_len _ _ _ A') as [L1 L2]. destruct (lat_len _ _ _ B) as [L3 L4]. unfold holds. cbn [d_ifn d_tf d_up d_lat d_act d_poke zeros frows fcols fpx].
  split; [reflexivity|]. split; [reflexivity|]. split; [reflexivity|]. split; [unfold prepare_lattice; cbv zeta; now rewrite L1, L2, L3, L4|]. split; [split; reflexivity|]. split; [split; reflexivity|]. intros i j. destruct (in_slice _ _ _ i); auto. destruct (in_slice _ _ _ j); auto.
Qed.
Lemma bcast_same A r c : dims r c A -> exists B, bcast_to A r c = Ok B /\ dims r c B /\ forall i j, (i < r)%nat -> (j < c)%nat -> fpx B i j = fpx A i j.
Proof.
  intros [A1 A2]. unfold bcast_to. rewrite A1, A2, !Nat.eqb_refl. cbn [orb andb]. eexists. split; [reflexivity|]. split; [split; reflexivity|]. intros i j Hi Hj. cbn [fpx]. unfold bix. destruct (Nat.eqb_spec r 1), (Nat.eqb_spec c 1); f_equal; lia.
Qed.
Lemma update_holds ifn nact sep shx shy up a0 a d : act_fit (frows ifn) nact sep -> act_fit (fcols ifn) nact sep -> holds ifn nact sep shx shy up a0 d -> dims nact nact a -> exists d', dm_update d a = Ok d' /\ holds ifn nact sep shx shy up a d'.
Proof.
  intros FA FB (H1 & H2 & H3 & H4 & [H5 H5'] & [H6 H6'] & H7) Ha. unfold dm_update. rewrite H5, H5'. destruct (bcast_same a nact nact Ha) as (B & -> & DB & VB). cbn [rbind]. unfold scatter_lat. rewrite H4. cbn [lt_ny lt_nx lt_y0 lt_x0 lt_sy lt_sx].
  destruct (bcast_same B nact nact DB) as (B' & -> & DB' & VB'). cbn [rbind]. eexists. split; [reflexivity|]. unfold holds. cbn [d_ifn d_tf d_up d_lat d_act d_poke frows fcols fpx].
  split; [auto|]. split; [auto|]. split; [auto|]. split; [auto|]. split; [auto|]. split; [split; auto|]. intros i j.
  pose proof (H7 i j) as X. destruct (in_slice_spec _ _ _ i FA) as [E|(r & Hr & E & _)]; rewrite E in *; auto. destruct (in_slice_spec _ _ _ j FB) as [F|(c & Hc & F & _)]; rewrite F in *; auto. rewrite VB', VB by auto. reflexivity.
Qed.
Lemma updates_holds ifn nact sep shx shy up l : forall a0 d, act_fit (frows ifn) nact sep -> act_fit (fcols ifn) nact sep -> holds ifn nact sep shx shy up a0 d -> Forall (dims nact nact) l -> exists d' a', updates d l = Ok d' /\ holds ifn nact sep shx shy up a' d'.
Proof.
  induction l as [|a l IH]; intros a0 d FA FB H FL; [exists d, a0; split; auto|]. inversion FL; subst. destruct (update_holds _ _ _ _ _ _ a0 a d FA FB H) as (d' & E & H'); auto. cbn [updates]. rewrite E. cbn [rbind]. eapply IH; eauto.
Qed.
Lemma commanded_holds ifn nact sep shx shy up l a : act_fit (frows ifn) nact sep -> act_fit (fcols ifn) nact sep -> Forall (dims nact nact) l -> dims nact nact a -> exists d, commanded ifn nact sep shx shy up l a = Ok d /\ holds ifn nact sep shx shy up a d.
Proof.
  intros FA FB FL Da. unfold commanded. destruct (init_holds ifn nact sep shx shy up FA FB) as (d & -> & H). cbn [rbind]. destruct (updates_holds _ _ _ _ _ _ l _ d FA FB H FL) as (d' & a' & -> & H'). cbn [rbind].
  exact (update_holds _ _ _ _ _ _ _ _ d' FA FB H' Da).
Qed.
