From Verif Require Import Base RBase StrBase CBase PropModel OptModel DiffModel SrcModel SrcProofs ThinModel FilmModel TabModel HlcModel HlcSpec ResampProps DiffProps.
Open Scope R_scope.
Lemma last_match_in n lo nb i : (0 <= lo)%Z -> (lo + Z.of_nat nb <= n)%Z -> last_match n lo nb i = if ((lo <=? Z.of_nat i) && (Z.of_nat i <? lo + Z.of_nat nb))%Z then Some (Z.to_nat (Z.of_nat i - lo)) else None.
Proof.
  intros H1. induction nb as [|b IH]; intros H2; cbn [last_match].
  - destruct (Z.leb_spec lo (Z.of_nat i)), (Z.ltb_spec (Z.of_nat i) (lo + Z.of_nat 0)); cbn; try reflexivity; lia.
  - rewrite np_ix_in by lia. rewrite IH by lia. destruct (Z.eqb_spec (lo + Z.of_nat b) (Z.of_nat i)) as [E|E].
    + destruct (Z.leb_spec lo (Z.of_nat i)), (Z.ltb_spec (Z.of_nat i) (lo + Z.of_nat (S b))); cbn [andb]; try lia. f_equal. lia.
    + destruct (Z.leb_spec lo (Z.of_nat i)), (Z.ltb_spec (Z.of_nat i) (lo + Z.of_nat b)), (Z.ltb_spec (Z.of_nat i) (lo + Z.of_nat (S b))); cbn [andb]; try reflexivity; lia.
Qed.
Lemma all_in_ok n lo nb : (0 <= lo)%Z -> (lo + Z.of_nat nb <= n)%Z -> all_in n lo nb = true.
Proof. intros H1. induction nb as [|b IH]; intros H2; [reflexivity|]. cbn [all_in]. rewrite np_ix_in by lia. apply IH. lia. Qed.
Lemma geti_ok {A} (l : list A) k d : (k < length l)%nat -> geti l k = Ok (nth k l d).
Proof. intros H. unfold geti. now rewrite (nth_error_nth' l d H). Qed.
Lemma add_act_ok dm ic surf k : well_formed dm ic -> (k < fd_act dm)%nat -> exists s, add_act dm ic surf k = Ok s /\ frows s = frows surf /\ fcols s = fcols surf /\
  forall i j, fpx s i j = fpx surf i j + (if passed_over dm ic k then 0 else contribution dm ic k i j).
Proof.
  intros (W1 & W2 & W3 & W4) Hk. unfold add_act, passed_over. rewrite (geti_ok _ _ (mkf 0 0 (fun _ _ => 0))) by lia. cbn [rbind]. fold (the_inf ic k).
  destruct (Rlt_dec (abs_sum (the_inf ic k)) (1 / 100000000)) as [Q|Q]; [exists surf; repeat split; intros; ring|].
  rewrite (geti_ok _ _ 0) by lia. cbn [rbind]. destruct (Rlt_dec (Rabs (nth k (fd_vtoh dm) 0)) (1 / 1000000000000)) as [P|P]; [exists surf; repeat split; intros; ring|].
  destruct (W4 k Hk) as [(X1 & X2 & Y1 & Y2) F]. rewrite !all_in_ok by lia. cbn [andb negb]. rewrite (geti_ok _ _ 0) by lia. cbn [rbind].
  assert (SH : frows (the_inf ic k) = ic_box ic /\ fcols (the_inf ic k) = ic_box ic). { apply F. unfold the_inf. apply nth_error_nth'. lia. }
  destruct SH as [S1 S2]. rewrite S1, S2, !Nat.eqb_refl. cbn [andb negb]. eexists. split; [reflexivity|]. cbn [frows fcols fpx]. split; [reflexivity|split; [reflexivity|]]. intros i j. rewrite !last_match_in by lia. unfold contribution, stamp. rewrite S1, S2.
  destruct (Z.leb_spec (ic_y ic k) (Z.of_nat i)), (Z.ltb_spec (Z.of_nat i) (ic_y ic k + Z.of_nat (ic_box ic))), (Z.leb_spec 0 (Z.of_nat i - ic_y ic k)), (Z.ltb_spec (Z.of_nat i - ic_y ic k) (Z.of_nat (ic_box ic))); try lia; cbn [andb]; try ring;
  destruct (Z.leb_spec (ic_x ic k) (Z.of_nat j)), (Z.ltb_spec (Z.of_nat j) (ic_x ic k + Z.of_nat (ic_box ic))), (Z.leb_spec 0 (Z.of_nat j - ic_x ic k)), (Z.ltb_spec (Z.of_nat j - ic_x ic k) (Z.of_nat (ic_box ic))); try lia; cbn [andb]; ring.
Qed.
Lemma add_acts_ok dm ic n : well_formed dm ic -> forall m surf, (m + n = fd_act dm)%nat -> exists s, add_acts dm ic surf (seq m n) = Ok s /\ frows s = frows surf /\ fcols s = fcols surf /\
  forall i j, fpx s i j = fpx surf i j + rsum n (fun k => if passed_over dm ic (m + k) then 0 else contribution dm ic (m + k) i j).
Proof.
  intros W. induction n as [|n IH]; intros m surf Hm; cbn [seq add_acts].
  - exists surf. repeat split. intros; cbn [rsum]; ring.
  - destruct (add_act_ok dm ic surf m W ltac:(lia)) as (s1 & E1 & R1 & C1 & P1). rewrite E1. cbn [rbind]. destruct (IH (S m) s1 ltac:(lia)) as (s & E & R2 & C2 & P2). exists s. split; [exact E|]. split; [congruence|split; [congruence|]]. intros i j. rewrite P2, P1.
    replace (S n) with (1 + n)%nat by lia. rewrite rsum_app. cbn [rsum]. rewrite Nat.add_0_r. rewrite Rplus_0_l, Rplus_assoc. f_equal. f_equal. apply rsum_ext. intros k _. replace (m + (1 + k))%nat with (S m + k)%nat by lia. reflexivity.
Qed.
Lemma surf_ok dm mt ic : model_of dm mt = Some ic -> well_formed dm ic -> exists s, gen_fpm_surf dm mt = Ok s /\ frows s = ic_pad ic /\ fcols s = ic_pad ic /\
  forall i j, fpx s i j = Rmax 0 (rsum (fd_act dm) (fun k => if passed_over dm ic k then 0 else contribution dm ic k i j)).
Proof.
  unfold model_of, gen_fpm_surf, choose_model. intros H W.
  assert (X : exists c, (if String.eqb (lower mt) "compact" then Ok true else if String.eqb (lower mt) "full" then Ok false else Raise ValueError) = Ok c /\ ic = if c then fd_comp dm else fd_fullm dm).
  { destruct (String.eqb (lower mt) "compact"); [exists true; split; [reflexivity|congruence]|]. destruct (String.eqb (lower mt) "full"); [exists false; split; [reflexivity|congruence]|discriminate]. }
  destruct X as (c & -> & E). cbn [rbind]. rewrite <- E. destruct (add_acts_ok dm ic (fd_act dm) W 0%nat (mkf (ic_pad ic) (ic_pad ic) (fun _ _ => 0)) eq_refl) as (s & -> & R1 & C1 & P1). cbn [rbind]. eexists. split; [reflexivity|]. cbn [frows fcols fpx] in *. split; [exact R1|split; [exact C1|]].
  intros i j. rewrite P1. cbn [plus]. rewrite Rplus_0_l. unfold Rmax. destruct (Rlt_dec _ 0), (Rle_dec 0 _); try reflexivity; lra.
Qed.
Lemma rsum_abs_le n f g : (forall k, (k < n)%nat -> Rabs (f k) <= g k) -> Rabs (rsum n f) <= rsum n g.
Proof. induction n as [|n IH]; intros H; cbn [rsum]; [rewrite Rabs_R0; lra|]. eapply Rle_trans; [apply Rabs_triang|]. apply Rplus_le_compat; auto. Qed.
Lemma rsum_minus n f g : rsum n f - rsum n g = rsum n (fun k => f k - g k).
Proof. induction n as [|n IH]; cbn [rsum]; [ring|]. rewrite <- IH. ring. Qed.
Lemma rsum_term n f k : (k < n)%nat -> (forall j, 0 <= f j) -> f k <= rsum n f.
Proof.
  intros Hk P. induction n as [|n IH]; [lia|]. cbn [rsum]. assert (0 <= rsum n f). { clear IH Hk. induction n; cbn [rsum]; [lra|]. specialize (P n). lra. } destruct (Nat.eq_dec k n) as [->|N]; [lra|]. specialize (IH ltac:(lia)). specialize (P n). lra.
Qed.
Lemma stamp_le f a b : Rabs (stamp f a b) <= abs_sum f.
Proof.
  assert (P : forall i, 0 <= rsum (fcols f) (fun j => Rabs (fpx f i j))). { intros i. generalize (fcols f). intros n. induction n; cbn [rsum]; [lra|]. pose proof (Rabs_pos (fpx f i n)). lra. }
  unfold stamp. destruct (_ && _ && _ && _)%bool eqn:E.
  - assert (X : (0 <= a < Z.of_nat (frows f) /\ 0 <= b < Z.of_nat (fcols f))%Z) by lia. unfold abs_sum.
    eapply Rle_trans; [|apply (rsum_term (frows f) (fun i => rsum (fcols f) (fun j => Rabs (fpx f i j))) (Z.to_nat a)); [lia|exact P]].
    apply (rsum_term (fcols f) (fun j => Rabs (fpx f (Z.to_nat a) j)) (Z.to_nat b)); [lia|]. intros; apply Rabs_pos.
  - rewrite Rabs_R0. unfold abs_sum. generalize (frows f). intros n. induction n; cbn [rsum]; [lra|]. specialize (P n). lra.
Qed.
Lemma Rmax_lip a b : Rabs (Rmax 0 a - Rmax 0 b) <= Rabs (a - b).
Proof. unfold Rmax. destruct (Rle_dec 0 a), (Rle_dec 0 b); unfold Rabs; repeat destruct (Rcase_abs _); lra. Qed.
(* ---- evenly spaced tables ---- *)
Lemma fold_min l x : fold_left Rmin l x <= x /\ forall y, In y l -> fold_left Rmin l x <= y.
Proof. revert x. induction l as [|z l IH]; intros x; cbn [fold_left]; [split; [lra|intros y []]|]. destruct (IH (Rmin x z)) as [A B]. pose proof (Rmin_l x z). pose proof (Rmin_r x z). split; [lra|]. intros y [<-|H']; [lra|auto]. Qed.
Lemma fold_min_in l x : In (fold_left Rmin l x) (x :: l).
Proof. revert x. induction l as [|z l IH]; intros x; cbn [fold_left]; [now left|]. destruct (IH (Rmin x z)) as [E|E]; [|right; now right]. rewrite <- E. unfold Rmin. destruct (Rle_dec x z); [now left|right; now left]. Qed.
Lemma fold_max l x : x <= fold_left Rmax l x /\ forall y, In y l -> y <= fold_left Rmax l x.
Proof. revert x. induction l as [|z l IH]; intros x; cbn [fold_left]; [split; [lra|intros y []]|]. destruct (IH (Rmax x z)) as [A B]. pose proof (Rmax_l x z). pose proof (Rmax_r x z). split; [lra|]. intros y [<-|H']; [lra|auto]. Qed.
Lemma fold_max_in l x : In (fold_left Rmax l x) (x :: l).
Proof. revert x. induction l as [|z l IH]; intros x; cbn [fold_left]; [now left|]. destruct (IH (Rmax x z)) as [E|E]; [|right; now right]. rewrite <- E. unfold Rmax. destruct (Rle_dec x z); [right; now left|now left]. Qed.
Lemma steps_min t0 dt n : 0 <= dt -> (0 < n)%nat -> np_min (steps t0 dt n) = Ok t0.
Proof.
  intros D N. unfold steps. destruct n as [|n]; [lia|]. cbn [seq map np_min]. f_equal. set (l := map _ _). replace (t0 + INR 0 * dt) with t0 by (cbn; ring). destruct (fold_min l t0) as [A _]. destruct (fold_min_in l t0) as [E|E]; [congruence|].
  apply in_map_iff in E. destruct E as (k & E & _). pose proof (pos_INR k). nra.
Qed.
Lemma steps_max t0 dt n : 0 <= dt -> (0 < n)%nat -> np_max (steps t0 dt n) = Ok (t0 + INR (n - 1) * dt).
Proof.
  intros D N. unfold steps. destruct n as [|n]; [lia|]. cbn [seq map np_max]. f_equal. set (l := map _ _). set (x := t0 + INR 0 * dt). replace (S n - 1)%nat with n by lia.
  assert (U : forall y, In y (x :: l) -> y <= t0 + INR n * dt).
  { intros y [<-|H]; [unfold x; cbn [INR]; pose proof (pos_INR n); nra|]. apply in_map_iff in H. destruct H as (k & <- & H). apply in_seq in H. assert (INR k <= INR n) by (apply le_INR; lia). nra. }
  assert (L : t0 + INR n * dt <= fold_left Rmax l x).
  { destruct (fold_max l x) as [A B]. destruct n as [|m]; [unfold x in A; exact A|]. apply B. unfold l. apply in_map_iff. exists (S m). split; [reflexivity|]. apply in_seq. lia. }
  specialize (U _ (fold_max_in l x)). lra.
Qed.
Lemma steps_nth t0 dt n k : (k < n)%nat -> nth k (steps t0 dt n) 0 = t0 + INR k * dt.
Proof. intros H. unfold steps. rewrite (nth_indep _ 0 (t0 + INR 0 * dt)) by (rewrite map_length, seq_length; exact H). rewrite (map_nth (fun k => t0 + INR k * dt) (seq 0 n) 0%nat k). rewrite seq_nth by exact H. reflexivity. Qed.
Lemma nround_between x (a b : Z) : IZR a <= x <= IZR b -> (a <= nround x <= b)%Z.
Proof.
  intros [A B]. pose proof (nround_near x) as N. apply Rabs_le_inv in N. split.
  - apply Z.lt_pred_le, lt_IZR. unfold Z.pred. rewrite plus_IZR. lra.
  - apply Z.lt_succ_r, lt_IZR. unfold Z.succ. rewrite plus_IZR. lra.
Qed.
Lemma limited_in a b x : a <= b -> a <= limited a b x <= b.
Proof. intros H. unfold limited, Rmin, Rmax. destruct (Rle_dec a x), (Rle_dec b _); lra. Qed.
Lemma disc_ok surf t0 dt n : 0 < dt -> (0 < n)%nat -> exists d, discretize surf (steps t0 dt n) dt = Ok d /\ frows d = frows surf /\ fcols d = fcols surf /\
  forall i j, (0 <= fpx d i j < Z.of_nat n)%Z /\ fpx d i j = nround ((limited t0 (t0 + INR (n - 1) * dt) (1000000000 * fpx surf i j) - t0) / dt).
Proof.
  intros D N. unfold discretize. rewrite steps_min, steps_max by (lra || lia). cbn [rbind]. destruct (Req_EM_T dt 0); [lra|]. eexists. split; [reflexivity|]. cbn [frows fcols fpx]. split; [reflexivity|split; [reflexivity|]]. intros i j.
  set (hi := t0 + INR (n - 1) * dt). assert (LH : t0 <= hi) by (unfold hi; pose proof (pos_INR (n - 1)); nra). set (x := 1000000000 * fpx surf i j).
  assert (E : (let y := if Rlt_dec x t0 then t0 else x in let z := if Rlt_dec hi y then hi else y in nround (1 / dt * (z - t0))) = nround ((limited t0 hi x - t0) / dt)).
  { cbv zeta. f_equal. unfold limited, Rmin, Rmax. destruct (Rlt_dec x t0); [|destruct (Rlt_dec hi x)]; repeat destruct (Rlt_dec _ _); repeat destruct (Rle_dec _ _); try lra; try (field; lra).
    - assert (H : hi = t0) by lra. rewrite H. field. lra.
    - assert (H : hi = x) by lra. rewrite H. field. lra. }
  cbv zeta in E. rewrite E. split; [|reflexivity]. set (z := limited t0 hi x). pose proof (limited_in t0 hi x LH) as Z0. fold z in Z0. clearbody z.
  assert (B : (0 <= nround ((z - t0) / dt) <= Z.of_nat (n - 1))%Z).
  { apply nround_between. split; [apply Rmult_le_pos; [lra|left; now apply Rinv_0_lt_compat]|]. apply (Rmult_le_reg_r dt); [lra|]. rewrite <- INR_IZR_INZ. replace ((z - t0) / dt * dt) with (z - t0) by (field; lra). unfold hi in Z0. lra. }
  lia.
Qed.
