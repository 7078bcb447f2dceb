(* Lemmas on propcustom_dm *)
From Verif Require Import StrBase Base RBase CtrlModel UtilModel DmSurfModel CubModel CubProofs CubProps DmcModel.
Open Scope R_scope.
(* ---- sums over the fine grid ---- *)
Lemma rsum_first mag f : (0 < mag)%nat -> (forall k, (0 < k < mag)%nat -> f k = 0) -> rsum mag f = f 0%nat.
Proof.
  intros P H. replace mag with (1 + (mag - 1))%nat by lia. rewrite rsum_app. cbn [rsum]. rewrite (rsum_zero (mag - 1)); [ring|]. intros k K. apply H. lia.
Qed.
Lemma scatter_sum (n mag : nat) (g : Z -> Z -> R) : (0 < mag)%nat ->
  let off := (Z.of_nat (9 * mag) + Z.of_nat mag / 2)%Z in
  rsum (n * mag + 2 * (9 * mag)) (fun s => let y := (Z.of_nat s - off)%Z in
    if ((y mod Z.of_nat mag =? 0) && (0 <=? y / Z.of_nat mag) && (y / Z.of_nat mag <? Z.of_nat n))%Z%bool then g (y / Z.of_nat mag)%Z (Z.of_nat s) else 0) =
  rsum n (fun a => g (Z.of_nat a) (Z.of_nat a * Z.of_nat mag + off)%Z).
Proof.
  intros P off. set (h := (mag / 2)%nat). assert (Hh : (h <= mag)%nat) by (unfold h; apply Nat.div_le_upper_bound; lia). assert (Eo : off = Z.of_nat (9 * mag + h)) by (unfold off, h; rewrite Nat2Z.inj_add, div_Zdiv by lia; lia).
  replace (n * mag + 2 * (9 * mag))%nat with ((9 * mag + h) + (n * mag + (9 * mag - h)))%nat by lia. rewrite (rsum_app (9 * mag + h)), (rsum_app (n * mag)).
  rewrite (rsum_zero (9 * mag + h)), Rplus_0_l.
  2:{ intros k K. cbv zeta. assert (L : ((Z.of_nat k - off) / Z.of_nat mag < 0)%Z) by (apply Z.div_lt_upper_bound; lia). destruct (Z.leb_spec 0 ((Z.of_nat k - off) / Z.of_nat mag)); [lia|]. now rewrite andb_false_r. }
  rewrite (rsum_zero (9 * mag - h)), Rplus_0_r.
  2:{ intros k K. cbv zeta. replace (Z.of_nat (9 * mag + h + (n * mag + k)) - off)%Z with (Z.of_nat k + Z.of_nat n * Z.of_nat mag)%Z by lia. rewrite Z.div_add by lia. assert (0 <= Z.of_nat k / Z.of_nat mag)%Z by (apply Z.div_pos; lia). destruct (Z.ltb_spec (Z.of_nat k / Z.of_nat mag + Z.of_nat n) (Z.of_nat n)); [lia|]. now rewrite !andb_false_r. }
  rewrite rsum_mul_blocks. apply rsum_ext. intros a A. rewrite rsum_first; auto.
  - cbv zeta. replace (Z.of_nat (9 * mag + h + (a * mag + 0)) - off)%Z with (Z.of_nat a * Z.of_nat mag)%Z by lia. rewrite Z.mod_mul, Z.div_mul by lia. destruct (Z.leb_spec 0 (Z.of_nat a)); [|lia]. destruct (Z.ltb_spec (Z.of_nat a) (Z.of_nat n)); [|lia]. cbn [Z.eqb andb]. f_equal. lia.
  - intros k K. cbv zeta. replace (Z.of_nat (9 * mag + h + (a * mag + k)) - off)%Z with (Z.of_nat k + Z.of_nat a * Z.of_nat mag)%Z by lia. rewrite Z.mod_add by lia. rewrite Z.mod_small by lia. destruct (Z.eqb_spec (Z.of_nat k) 0); [lia|]. reflexivity.
Qed.
(* the convolved grid is the superposition *)
Lemma conv_superpose (mag : Z) (z inf : arr R) Y X : (0 < mag)%Z -> (0 <= nr z)%Z -> (0 <= nc z)%Z ->
  px (conv_same (act_grid mag z) inf) Y X = rsum (Z.to_nat (nr z)) (fun a => rsum (Z.to_nat (nc z)) (fun b =>
    px z (Z.of_nat a) (Z.of_nat b) * get0 inf (Y - (Z.of_nat a * mag + off_grid mag) + (nr inf - 1) / 2) (X - (Z.of_nat b * mag + off_grid mag) + (nc inf - 1) / 2))).
Proof.
  intros P N1 N2. unfold conv_same. cbn [px]. unfold act_grid. cbn [nr nc px]. cbv zeta.
  set (m := Z.to_nat mag). set (R0 := Z.to_nat (nr z)). set (C0 := Z.to_nat (nc z)). assert (Em : mag = Z.of_nat m) by (unfold m; lia). assert (Er : nr z = Z.of_nat R0) by (unfold R0; lia). assert (Ec : nc z = Z.of_nat C0) by (unfold C0; lia).
  assert (Eo : off_grid mag = (Z.of_nat (9 * m) + Z.of_nat m / 2)%Z) by (unfold off_grid, margin; rewrite Em; lia).
  replace (Z.to_nat (nr z * mag + 2 * margin mag)) with (R0 * m + 2 * (9 * m))%nat by (unfold margin; nia). replace (Z.to_nat (nc z * mag + 2 * margin mag)) with (C0 * m + 2 * (9 * m))%nat by (unfold margin; nia).
  rewrite Eo, Er, Ec, Em. set (off := (Z.of_nat (9 * m) + Z.of_nat m / 2)%Z).
  transitivity (rsum (R0 * m + 2 * (9 * m)) (fun s => let y := (Z.of_nat s - off)%Z in if ((y mod Z.of_nat m =? 0) && (0 <=? y / Z.of_nat m) && (y / Z.of_nat m <? Z.of_nat R0))%Z%bool then
    rsum C0 (fun b => px z (y / Z.of_nat m) (Z.of_nat b) * get0 inf (Y - Z.of_nat s + (nr inf - 1) / 2) (X - (Z.of_nat b * Z.of_nat m + off) + (nc inf - 1) / 2)) else 0)).
  - apply rsum_ext. intros s _. cbv zeta. set (y := (Z.of_nat s - off)%Z). destruct ((y mod Z.of_nat m =? 0) && (0 <=? y / Z.of_nat m) && (y / Z.of_nat m <? Z.of_nat R0))%Z%bool eqn:B.
    + apply andb_prop in B. destruct B as (B & B3). apply andb_prop in B. destruct B as (B1 & B2). pose proof (scatter_sum C0 m (fun b t => px z (y / Z.of_nat m) b * get0 inf (Y - Z.of_nat s + (nr inf - 1) / 2) (X - t + (nc inf - 1) / 2)) ltac:(lia)) as SC. cbv zeta in SC. fold off in SC. rewrite <- SC. apply rsum_ext. intros t _. cbv zeta. rewrite B1, B2, B3. cbn [andb]. rewrite !andb_true_r. destruct ((_ && _) && _)%bool; ring.
    + apply rsum_zero. intros t _. destruct (y mod Z.of_nat m =? 0)%Z; cbn [andb] in *; [|ring]. destruct ((Z.of_nat t - off) mod Z.of_nat m =? 0)%Z; cbn [andb]; [|ring]. rewrite B. cbn [andb]. ring.
  - pose proof (scatter_sum R0 m (fun a s => rsum C0 (fun b => px z a (Z.of_nat b) * get0 inf (Y - s + (nr inf - 1) / 2) (X - (Z.of_nat b * Z.of_nat m + off) + (nc inf - 1) / 2))) ltac:(lia)) as SC. cbv zeta in SC. fold off in SC. exact SC.
Qed.
(* ---- the matrices ---- *)
Lemma new_xyz_val m : let n := new_xyz m in
  (n 0%nat 0%nat - n 1%nat 0%nat) / (edge 0 0 - edge 1 0) = m 0%nat 0%nat /\ (n 1%nat 0%nat - n 2%nat 0%nat) / (edge 1 1 - edge 2 1) = m 1%nat 0%nat /\
  (n 0%nat 1%nat - n 1%nat 1%nat) / (edge 0 0 - edge 1 0) = m 0%nat 1%nat /\ (n 1%nat 1%nat - n 2%nat 1%nat) / (edge 1 1 - edge 2 1) = m 1%nat 1%nat.
Proof. unfold new_xyz. cbn [rsum edge]. repeat split; field. Qed.
Lemma back_val m x y : m 0%nat 0%nat <> 0 -> m 1%nat 1%nat <> 0 -> m 0%nat 0%nat * m 1%nat 1%nat - m 0%nat 1%nat * m 1%nat 0%nat <> 0 ->
  back_project m x y = ((x * m 1%nat 1%nat - y * m 1%nat 0%nat) / (m 0%nat 0%nat * m 1%nat 1%nat - m 0%nat 1%nat * m 1%nat 0%nat), (y * m 0%nat 0%nat - x * m 0%nat 1%nat) / (m 0%nat 0%nat * m 1%nat 1%nat - m 0%nat 1%nat * m 1%nat 0%nat)).
Proof.
  intros A B D. unfold back_project. cbv zeta. destruct (new_xyz_val m) as (E1 & E2 & E3 & E4). cbv zeta in E1, E2, E3, E4. rewrite E1, E2, E3, E4. f_equal; field; repeat split; auto; intros X; apply D; lra.
Qed.
Lemma back_iff m x y xs ys : m 0%nat 0%nat <> 0 -> m 1%nat 1%nat <> 0 -> m 0%nat 0%nat * m 1%nat 1%nat - m 0%nat 1%nat * m 1%nat 0%nat <> 0 ->
  back_project m x y = (xs, ys) <-> x = xs * m 0%nat 0%nat + ys * m 1%nat 0%nat /\ y = xs * m 0%nat 1%nat + ys * m 1%nat 1%nat.
Proof.
  intros A B D. rewrite back_val by auto. split.
  - intros E. injection E as <- <-. split; field; auto.
  - intros (-> & ->). f_equal; field; auto.
Qed.
