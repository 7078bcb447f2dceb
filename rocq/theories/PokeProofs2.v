(* Boxes cut out of arrays, and Fourier sums over them. *)
From Verif Require Import Base RBase StrBase UtilModel CBase PropModel PropSpec PropProofs PropProofs2 OptModel OptSpec LinBase OptProofs OptProofs2 OptProofs3 OptProofs4 DiffModel DiffProofs2 SrcModel PokeModel PokeProofs.
Open Scope R_scope.

Lemma np_ix_in n i : (0 <= i < n)%Z -> np_ix n i = Some i.
Proof. intros H. unfold np_ix. destruct (0 <=? i)%Z eqn:A; [|lia]. destruct (i <? n)%Z eqn:B; [|lia]. reflexivity. Qed.
Lemma ixv_in n a k : (0 <= a + Z.of_nat k < Z.of_nat n)%Z -> ixv n a k = Z.to_nat (a + Z.of_nat k).
Proof. intros H. unfold ixv. now rewrite np_ix_in. Qed.
Lemma box_ok_in n a m : (0 <= a)%Z -> (a + Z.of_nat m <= Z.of_nat n)%Z -> box_ok n a m = true.
Proof. intros H1 H2. unfold box_ok. apply forallb_forall. intros k Hk. apply in_seq in Hk. rewrite np_ix_in by lia. reflexivity. Qed.
Lemma box_start_eq ll nas nbox : (nbox <= nas)%nat -> Nat.even (nas - nbox) = true -> box_start ll nas nbox = (ll - (Z.of_nat nas - Z.of_nat nbox) / 2)%Z.
Proof.
  intros H He. apply Nat.even_spec in He. destruct He as [d Hd]. unfold box_start. replace (Z.of_nat nas - Z.of_nat nbox)%Z with (2 * Z.of_nat d)%Z by lia.
  rewrite (Z.mul_comm 2 (Z.of_nat d)), Z.div_mul by lia. replace (2 * ll - Z.of_nat d * 2)%Z with ((ll - Z.of_nat d) * 2)%Z by lia. apply Z.quot_mul. lia.
Qed.
Lemma take_rep n E G ay ax m : rep n E G -> (0 <= ay)%Z -> (ay + Z.of_nat m <= Z.of_nat n)%Z -> (0 <= ax)%Z -> (ax + Z.of_nat m <= Z.of_nat n)%Z ->
  exists T, take_box E ay ax m = Ok T /\ shape T m m /\ forall i j, (i < m)%nat -> (j < m)%nat -> fpx T i j = G (ay - hf n + Z.of_nat i)%Z (ax - hf n + Z.of_nat j)%Z.
Proof.
  intros [[S1 S2] V] H1 H2 H3 H4. unfold take_box. rewrite S1, S2, !box_ok_in by auto. cbn [andb]. eexists. split; [reflexivity|]. split; [split; reflexivity|].
  intros i j Hi Hj. cbn [fpx]. rewrite !ixv_in by lia. rewrite V by lia. f_equal; lia.
Qed.
Lemma last_ix_in n a m r : (0 <= a)%Z -> (a + Z.of_nat m <= Z.of_nat n)%Z -> last_ix n a m r = if ((a <=? Z.of_nat r) && (Z.of_nat r <? a + Z.of_nat m))%Z then Some (Z.to_nat (Z.of_nat r - a)) else None.
Proof.
  intros H1 H2. unfold last_ix. destruct (find _ _) as [k|] eqn:F.
  - apply find_some in F. destruct F as [I Q]. apply in_rev, in_seq in I. apply Nat.eqb_eq in Q. rewrite ixv_in in Q by lia. destruct (_ && _)%bool eqn:B; [f_equal; lia|apply andb_false_iff in B; destruct B; lia].
  - destruct (_ && _)%bool eqn:B; auto. apply andb_prop in B. exfalso. assert (I : In (Z.to_nat (Z.of_nat r - a)) (rev (seq 0 m))) by (apply -> in_rev; apply in_seq; lia).
    apply (find_none _ _ F) in I. rewrite ixv_in in I by lia. apply Nat.eqb_neq in I. lia.
Qed.
Definition boxf (bu bv : Z) (m : nat) (B : nat -> nat -> C) (u v : Z) : C :=
  if ((bu <=? u) && (u <? bu + Z.of_nat m) && ((bv <=? v) && (v <? bv + Z.of_nat m)))%Z then B (Z.to_nat (u - bu)) (Z.to_nat (v - bv)) else RtoC 0.
Lemma put_rep n ay ax m B : (0 <= ay)%Z -> (ay + Z.of_nat m <= Z.of_nat n)%Z -> (0 <= ax)%Z -> (ax + Z.of_nat m <= Z.of_nat n)%Z ->
  exists Z0, put_box n ay ax m B = Ok Z0 /\ rep n Z0 (boxf (ay - hf n) (ax - hf n) m (fpx B)).
Proof.
  intros H1 H2 H3 H4. unfold put_box. rewrite !box_ok_in by auto. cbn [andb]. eexists. split; [reflexivity|]. split; [split; reflexivity|]. intros r c Hr Hc. cbn [fpx].
  rewrite !last_ix_in by auto. unfold boxf. replace (Z.of_nat r - hf n - (ay - hf n))%Z with (Z.of_nat r - ay)%Z by lia. replace (Z.of_nat c - hf n - (ax - hf n))%Z with (Z.of_nat c - ax)%Z by lia.
  replace (ay - hf n <=? Z.of_nat r - hf n)%Z with (ay <=? Z.of_nat r)%Z by (apply eq_true_iff_eq; rewrite !Z.leb_le; lia).
  replace (Z.of_nat r - hf n <? ay - hf n + Z.of_nat m)%Z with (Z.of_nat r <? ay + Z.of_nat m)%Z by (apply eq_true_iff_eq; rewrite !Z.ltb_lt; lia).
  replace (ax - hf n <=? Z.of_nat c - hf n)%Z with (ax <=? Z.of_nat c)%Z by (apply eq_true_iff_eq; rewrite !Z.leb_le; lia).
  replace (Z.of_nat c - hf n <? ax - hf n + Z.of_nat m)%Z with (Z.of_nat c <? ax + Z.of_nat m)%Z by (apply eq_true_iff_eq; rewrite !Z.ltb_lt; lia).
  destruct (_ && _)%bool; cbn [andb]; [|reflexivity]. destruct (_ && _)%bool; reflexivity.
Qed.
(* ---- sums ---- *)
Lemma sum1 b c bu m lo N f : outside bu m (fun u => f (sg b c u)) -> outside lo N f -> wsum bu m (fun u => f (sg b c u)) = wsum lo N f.
Proof.
  intros H1 H2. destruct b; cbn [sg] in *; [|now apply wsum_eq].
  assert (X : exists c0, forall u, refl c u = (c0 - u)%Z) by (destruct c; [exists 0%Z|exists (-1)%Z|exists 0%Z]; intros; reflexivity). destruct X as [c0 X].
  rewrite (wsum_ext _ _ _ (fun u => f (c0 - u)%Z)) by (intros; now rewrite X). rewrite wsum_reflect. apply wsum_eq; auto.
  intros u Hu. specialize (H1 (c0 - u)%Z). cbn beta in H1. rewrite X in H1. replace (c0 - (c0 - u))%Z with u in H1 by lia. apply H1. lia.
Qed.
Lemma wsum_zero a m f : (forall u, f u = RtoC 0) -> wsum a m f = RtoC 0. Proof. intros H. apply csum_zero. auto. Qed.
Lemma sum_match b c bu bv m lo N F : (forall u v, ~ ((bu <= u < bu + Z.of_nat m)%Z /\ (bv <= v < bv + Z.of_nat m)%Z) -> F (sg b c u) (sg b c v) = RtoC 0) ->
  (forall u v, ~ ((lo <= u < lo + Z.of_nat N)%Z /\ (lo <= v < lo + Z.of_nat N)%Z) -> F u v = RtoC 0) ->
  wsum bu m (fun u => wsum bv m (fun v => F (sg b c u) (sg b c v))) = wsum lo N (fun u => wsum lo N (F u)).
Proof.
  intros H1 H2. transitivity (wsum bu m (fun u => wsum lo N (F (sg b c u)))).
  - apply wsum_ext. intros u Hu. apply (sum1 b c bv m lo N (F (sg b c u))); [intros v Hv; apply H1; tauto|intros v Hv; apply H2; tauto].
  - apply (sum1 b c bu m lo N (fun u => wsum lo N (F u))); intros u Hu; apply wsum_zero; intros v; [|apply H2; tauto].
    rewrite <- (sg_sg b c v). apply H1. tauto.
Qed.
(* half a sample for inter-pixel centring *)
Definition dlt (c : centering) : R := if interp c then 1/2 else 0.
Lemma coord_hf n step c k : Nat.even n = true -> coord n step c k = (IZR (Z.of_nat k - hf n) + dlt c) * step.
Proof.
  intros H. unfold coord, dlt. rewrite H, andb_true_r. rewrite minus_IZR, <- !INR_IZR_INZ. f_equal. f_equal. f_equal. unfold hf. rewrite INR_IZR_INZ, Nat2Z.inj_div. reflexivity.
Qed.
Lemma fpm_axis_coord N step c k : c <> OtherCentering -> fpm_axis N step c k = coord N step c k.
Proof.
  intros Hc. unfold fpm_axis, coord. rewrite <- Nat.negb_even. destruct (Nat.even N) eqn:E.
  - apply Nat.even_spec in E. destruct E as [p ->]. replace (2 * p / 2)%nat with p by (rewrite Nat.mul_comm, Nat.div_mul; lia). rewrite mult_INR. cbn [negb]. rewrite orb_false_r, andb_true_r.
    change (INR 2) with 2. destruct (interp c); field.
  - assert (O : Nat.odd N = true) by (rewrite <- Nat.negb_even, E; reflexivity). apply Nat.odd_spec in O. destruct O as [p ->]. replace ((2 * p + 1) / 2)%nat with p by (rewrite Nat.mul_comm, Nat.div_add_l; cbn; lia).
    rewrite plus_INR, mult_INR. cbn [negb]. rewrite orb_true_r, andb_false_r. change (INR 2) with 2. change (INR 1) with 1. field.
Qed.
Lemma sg_coord b c u step : c <> OtherCentering -> (IZR (sg b c u) + dlt c) * step = (if b then -1 else 1) * ((IZR u + dlt c) * step).
Proof. intros Hc. destruct b; cbn [sg]; [|ring]. unfold dlt. destruct c; cbn [refl interp]; [| |congruence]; rewrite ?opp_IZR, ?minus_IZR; field. Qed.
Definition phase (c : centering) (dx lf eta xi : R) (u v : Z) : C := cis (- (2 * PI) * (eta * ((IZR u + dlt c) * dx) + xi * ((IZR v + dlt c) * dx)) / lf).
Lemma fourier_rep n E G dx c lf eta xi : rep n E G -> Nat.even n = true ->
  fourier_sum n n (fpx E) (coord n dx c) (coord n dx c) lf eta xi = wsum (- hf n) n (fun u => wsum (- hf n) n (fun v => Cmult (G u v) (phase c dx lf eta xi u v))).
Proof.
  intros [_ V] He. unfold fourier_sum, wsum. apply csum2_ext. intros i j Hi Hj. rewrite V by auto. rewrite !coord_hf by auto. unfold phase. replace (Z.of_nat i - hf n)%Z with (- hf n + Z.of_nat i)%Z by lia. replace (Z.of_nat j - hf n)%Z with (- hf n + Z.of_nat j)%Z by lia. reflexivity.
Qed.
Lemma box_F3_value o w s m bu bv (B : field C) (y x : nat -> R) b k l : o_cen o <> OtherCentering -> 0 < o_dx2 o -> 0 < s -> 0 < g_dxi (o_f3 o) -> 0 < g_deta (o_f3 o) -> w * o_fl o <> 0 -> shape B m m ->
  (forall i, (i < m)%nat -> y i = (IZR (bu + Z.of_nat i) + dlt (o_cen o)) * o_dx2 o) -> (forall j, (j < m)%nat -> x j = (IZR (bv + Z.of_nat j) + dlt (o_cen o)) * o_dx2 o) ->
  fpx (box_to_F3 o w s m (flip_ax b m y) (flip_ax b m x) (if b then flip2 B else B)) k l =
  Cmult (RtoC (sqrt (o_dx2 o * o_dx2 o * (s * g_dxi (o_f3 o)) * (s * g_deta (o_f3 o))) / (w * o_fl o)))
    (csum m (fun i => csum m (fun j => Cmult (fpx B i j) (phase (o_cen o) (o_dx2 o) (w * o_fl o) (coord (g_Neta (o_f3 o)) (s * g_deta (o_f3 o)) (o_cen o) k) (coord (g_Nxi (o_f3 o)) (s * g_dxi (o_f3 o)) (o_cen o) l)
       (sg b (o_cen o) (bu + Z.of_nat i)) (sg b (o_cen o) (bv + Z.of_nat j)))))).
Proof.
  intros Hc Hd Hs Hx Hy Hf [S1 S2] Vy Vx. unfold box_to_F3. cbn [fpx]. rewrite !fpm_axis_coord by auto.
  set (c := o_cen o) in *. set (lf := w * o_fl o) in *. set (dx := o_dx2 o) in *.
  assert (Q : sqrt (dx * dx) * sqrt (s * g_dxi (o_f3 o) * (s * g_deta (o_f3 o))) = sqrt (dx * dx * (s * g_dxi (o_f3 o)) * (s * g_deta (o_f3 o)))).
  { rewrite <- sqrt_mult_alt by (apply Rlt_le, Rmult_lt_0_compat; auto). f_equal. ring. }
  rewrite Q. set (K := sqrt _ / lf).
  replace (s * coord (g_Neta (o_f3 o)) (g_deta (o_f3 o)) c k) with (coord (g_Neta (o_f3 o)) (s * g_deta (o_f3 o)) c k) by (unfold coord; ring).
  replace (s * coord (g_Nxi (o_f3 o)) (g_dxi (o_f3 o)) c l) with (coord (g_Nxi (o_f3 o)) (s * g_dxi (o_f3 o)) c l) by (unfold coord; ring).
  set (eta := coord _ _ c k). set (xi := coord _ _ c l).
  set (f := fun i j : nat => Cmult (RtoC K) (Cmult (fpx B i j) (phase c dx lf eta xi (sg b c (bu + Z.of_nat i)) (sg b c (bv + Z.of_nat j))))).
  transitivity (csum m (fun i => csum m (fun j => f i j))).
  2:{ unfold f. rewrite <- csum_scal. apply csum_ext. intros i Hi. now rewrite csum_scal. }
  rewrite (csum_swap m m). 
  assert (Z : forall i j, (i < m)%nat -> (j < m)%nat -> f i j = Cmult (Cmult (Cmult (cis (-2 * PI * (eta * ((if b then -1 else 1) * y i)) / lf)) (RtoC K)) (fpx B i j)) (cis (-2 * PI * (((if b then -1 else 1) * x j) * xi) / lf))).
  { intros i j Hi Hj. unfold f, phase. rewrite !sg_coord by auto. rewrite <- (Vy i Hi), <- (Vx j Hj). fold dx.
    match goal with |- _ = Cmult (Cmult (Cmult ?a ?k) ?e) ?d => transitivity (Cmult k (Cmult e (Cmult a d))); [|ring] end.
    f_equal. f_equal. rewrite <- cis_add. f_equal. unfold Rdiv. ring. }
  destruct b.
  - rewrite <- (csum_rev m (fun j => csum m (fun i => f i j))). apply csum_ext. intros j Hj. rewrite <- csum_scal_r. rewrite <- (csum_rev m (fun i => f i (m - 1 - j)%nat)). apply csum_ext. intros i Hi.
    cbn [flip2 fpx]. rewrite S1, S2. rewrite Z by lia. unfold flip_ax. reflexivity.
  - apply csum_ext. intros j Hj. rewrite <- csum_scal_r. apply csum_ext. intros i Hi. rewrite Z by auto. unfold flip_ax. rewrite !Rmult_1_l. reflexivity.
Qed.
