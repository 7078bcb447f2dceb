(* Proofs for C104: from metres to pixels *)
From Coquelicot Require Import Coquelicot.
From Verif Require Import Base StrBase RBase CBase PropModel PrpModel DmSurfProofs2 EllProofs ApModel ApSpec ApProofs ApProofs2 RectModel RectSpec RectProofs RectProofs2 RectProofs3 RectProofs4 RectProofs5 PolySpec PolyProofs PolyProofs2 PolyProofs3.
Open Scope R_scope.
Lemma lmin_S f n : (1 <= n)%nat -> lmin f (S n) = Rmin (lmin f n) (f n).
Proof. destruct n; [lia|reflexivity]. Qed.
Lemma lmax_S f n : (1 <= n)%nat -> lmax f (S n) = Rmax (lmax f n) (f n).
Proof. destruct n; [lia|reflexivity]. Qed.
Lemma lmin_lb f n k : (k < n)%nat -> lmin f n <= f k.
Proof.
  induction n as [|n IH]; intros H; [lia|]. destruct n as [|n]; [replace k with 0%nat by lia; cbn; lra|]. rewrite lmin_S by lia. destruct (Nat.eq_dec k (S n)) as [->|NE]; [apply Rmin_r|]. apply Rle_trans with (lmin f (S n)); [apply Rmin_l|apply IH; lia].
Qed.
Lemma lmax_ub f n k : (k < n)%nat -> f k <= lmax f n.
Proof.
  induction n as [|n IH]; intros H; [lia|]. destruct n as [|n]; [replace k with 0%nat by lia; cbn; lra|]. rewrite lmax_S by lia. destruct (Nat.eq_dec k (S n)) as [->|NE]; [apply Rmax_r|]. apply Rle_trans with (lmax f (S n)); [apply IH; lia|apply Rmax_l].
Qed.
Lemma lmin_in f n : (1 <= n)%nat -> exists k, (k < n)%nat /\ lmin f n = f k.
Proof.
  induction n as [|n IH]; intros H; [lia|]. destruct n as [|n]; [exists 0%nat; split; [lia|reflexivity]|]. rewrite lmin_S by lia. destruct (IH ltac:(lia)) as (k & K & E). unfold Rmin. destruct (Rle_dec (lmin f (S n)) (f (S n))); [exists k; split; [lia|auto]|exists (S n); split; [lia|auto]].
Qed.
Lemma lmax_in f n : (1 <= n)%nat -> exists k, (k < n)%nat /\ lmax f n = f k.
Proof.
  induction n as [|n IH]; intros H; [lia|]. destruct n as [|n]; [exists 0%nat; split; [lia|reflexivity]|]. rewrite lmax_S by lia. destruct (IH ltac:(lia)) as (k & K & E). unfold Rmax. destruct (Rle_dec (lmax f (S n)) (f (S n))); [exists (S n); split; [lia|auto]|exists k; split; [lia|auto]].
Qed.
Lemma lmin_is f n b : (b < n)%nat -> (forall k, (k < n)%nat -> f b <= f k) -> lmin f n = f b.
Proof. intros B H. destruct (lmin_in f n ltac:(lia)) as (k & K & E). pose proof (lmin_lb f n b B). specialize (H k K). lra. Qed.
Lemma lmax_is f n b : (b < n)%nat -> (forall k, (k < n)%nat -> f k <= f b) -> lmax f n = f b.
Proof. intros B H. destruct (lmax_in f n ltac:(lia)) as (k & K & E). pose proof (lmax_ub f n b B). specialize (H k K). lra. Qed.
Lemma first_is t b : t b = true -> forall cnt k, (k <= b < k + cnt)%nat -> (forall q, (k <= q < b)%nat -> t q = false) -> first_from t k cnt = b.
Proof.
  intros T. induction cnt as [|cnt IH]; intros k K H; [lia|]. cbn [first_from]. destruct (Nat.eq_dec k b) as [->|NE]; [now rewrite T|]. rewrite (H k) by lia. apply IH; [lia|]. intros q Q. apply H. lia.
Qed.
Lemma Reqb_true a b : Reqb a b = true <-> a = b.
Proof. unfold Reqb. destruct (Req_EM_T a b); split; intros; congruence. Qed.
Lemma lowest_is p b : is_lowest p b -> lowest p = b.
Proof.
  intros [B H]. assert (MY : lmin (v_y p) (v_n p) = v_y p b) by (apply lmin_is; auto; intros k K; destruct (H k K) as [L|[L _]]; lra).
  unfold lowest. rewrite MY. cbv zeta. set (xs := fun k => if Reqb (v_y p k) (v_y p b) then v_x p k else lmax (v_x p) (v_n p)).
  assert (XB : xs b = v_x p b) by (unfold xs; replace (Reqb (v_y p b) (v_y p b)) with true by (symmetry; now apply Reqb_true); reflexivity).
  assert (MX : lmin xs (v_n p) = v_x p b). { rewrite <- XB. apply lmin_is; auto. intros k K. rewrite XB. unfold xs. destruct (Reqb (v_y p k) (v_y p b)) eqn:E; [apply Reqb_true in E; destruct (H k K) as [L|[_ [L|[L _]]]]; lra|]. now apply lmax_ub. }
  rewrite MX. apply first_is; [|lia|].
  - apply andb_true_intro. split; now apply Reqb_true.
  - intros q Q. apply Bool.not_true_is_false. intros T. apply andb_prop in T. destruct T as [T1 T2]. apply Reqb_true in T1, T2. destruct (H q ltac:(lia)) as [L|[_ [L|[_ L]]]]; [lra|lra|lia].
Qed.
(* pixels *)
Definition pixels (dx c : R) (q : poly) : poly := mkpoly (v_n q) (fun k => v_x q k / dx + c) (fun k => v_y q k / dx + c).
Lemma div_lt_iff dx a b : 0 < dx -> (a / dx < b / dx <-> a < b).
Proof. intros D. split; intros H; [apply (Rmult_lt_reg_r (/ dx)); [now apply Rinv_0_lt_compat|exact H]|apply Rmult_lt_compat_r; [now apply Rinv_0_lt_compat|exact H]]. Qed.
Lemma div_le_iff dx a b : 0 < dx -> (a / dx <= b / dx <-> a <= b).
Proof. intros D. split; intros H; [apply (Rmult_le_reg_r (/ dx)); [now apply Rinv_0_lt_compat|exact H]|apply Rmult_le_compat_r; [left; now apply Rinv_0_lt_compat|exact H]]. Qed.
Lemma div_eq_iff dx a b : 0 < dx -> (a / dx = b / dx <-> a = b).
Proof. intros D. split; [|congruence]. intros H. apply (f_equal (fun z => z * dx)) in H. unfold Rdiv in H. rewrite !Rmult_assoc, Rinv_l, !Rmult_1_r in H by lra. exact H. Qed.
Lemma pixels_lowest dx c q b : 0 < dx -> is_lowest q b -> is_lowest (pixels dx c q) b.
Proof.
  intros D [B H]. split; [exact B|]. intros k K. cbn [pixels v_n v_x v_y] in *. destruct (H k K) as [L|[L1 [L2|[L2 L3]]]].
  - left. apply (div_lt_iff dx) in L; auto. lra.
  - right. rewrite L1. split; [reflexivity|]. left. apply (div_lt_iff dx) in L2; auto. lra.
  - right. rewrite L1. split; [reflexivity|]. right. rewrite L2. split; [reflexivity|exact L3].
Qed.
Lemma pixels_climbs dx c y top gap first V m : 0 < dx -> climbs y top gap first V m -> climbs (fun k => y k / dx + c) (top / dx + c) (gap / dx) (first / dx + c) V m.
Proof.
  intros D [C1 [C2 [C3 [C4 C5]]]]. split; auto. split; [apply (div_le_iff dx) in C2; auto; lra|]. split; [|split].
  - intros k K. specialize (C3 k K). apply (div_le_iff dx) in C3; auto. unfold Rdiv in *. lra.
  - now rewrite C4.
  - intros M. specialize (C5 M). apply (div_lt_iff dx) in C5; auto. lra.
Qed.
Lemma pixels_cpoly n mag dx q : (1 <= mag)%nat -> 0 < dx -> clockwise q -> paced (gap_of mag dx) (first_line n mag dx) q ->
  exists b l r top, cpoly (pixels dx (INR (n / 2)) q) b l r top (/ INR mag) (line_y mag 0 0).
Proof.
  intros Hm D CW (b & top & l & r & LB & LT & AT & CF & CB). set (c := INR (n / 2)). exists b, l, r, (top / dx + c). assert (HM : 0 < INR mag) by (apply lt_0_INR; lia).
  assert (EG : gap_of mag dx / dx = / INR mag) by (unfold gap_of; field; lra).
  assert (EF : first_line n mag dx / dx + c = line_y mag 0 0) by (unfold first_line, metres, line_y, c; simpl (INR 0); field; lra).
  pose proof (pixels_lowest dx c q b D LB) as PL. pose proof LB as [B H].
  assert (TOP : exists t, (t < v_n q)%nat /\ v_y q t = top) by (exists (forth q b l); split; [apply forth_in; lia|apply CF]). destruct TOP as (t & T1 & T2).
  assert (ALL : forall k, (k < v_n q)%nat -> v_y q b <= v_y q k) by (intros k K; destruct (H k K) as [L|[L _]]; lra).
  constructor; cbn [pixels v_n v_x v_y].
  - now apply Rinv_0_lt_compat.
  - apply (div_lt_iff dx) in LT; auto. lra.
  - exact B.
  - now apply lowest_is.
  - rewrite <- T2. apply (lmax_is (fun k => v_y q k / dx + c) (v_n q) t T1). intros k K. rewrite T2. pose proof (AT k K) as A. apply (div_le_iff dx) in A; auto. lra.
  - apply (lmin_is (fun k => v_y q k / dx + c) (v_n q) b B). intros k K. pose proof (ALL k K) as A. apply (div_le_iff dx) in A; auto. lra.
  - intros k K. pose proof (AT k K) as A. pose proof (ALL k K) as A'. apply (div_le_iff dx) in A, A'; auto. lra.
  - rewrite <- EG, <- EF. apply (pixels_climbs dx c); auto.
  - rewrite <- EG, <- EF. apply (pixels_climbs dx c); auto.
  - intros k m K M. specialize (CW k m K M). unfold side in *. cbv zeta in *. change (forth (pixels dx c q) k 1) with (forth q k 1). cbn [pixels v_x v_y].
    match goal with |- ?g <= 0 => replace g with (((v_x q (forth q k 1) - v_x q k) * (v_y q m - v_y q k) - (v_y q (forth q k 1) - v_y q k) * (v_x q m - v_x q k)) * (/ dx * / dx)) by (field; lra) end.
    pose proof (Rinv_0_lt_compat _ D). assert (0 < / dx * / dx) by nra. nra.
Qed.
Lemma rsum_lin n wt f dx c : dx <> 0 -> rsum n wt = 1 -> rsum n (fun k => wt k * (f k / dx + c)) = rsum n (fun k => wt k * f k) / dx + c.
Proof.
  intros D H. assert (E : rsum n (fun k => wt k * (f k / dx + c)) = rsum n (fun k => wt k * f k) / dx + c * rsum n wt). { clear H. induction n as [|n IH]; cbn [rsum]; [field; auto|]. rewrite IH. field. auto. }
  rewrite E, H. ring.
Qed.
Lemma pixels_hull n dx q u v : 0 < dx -> in_hull (pixels dx (INR (n / 2)) q) u v <-> in_hull q (metres n dx u) (metres n dx v).
Proof.
  intros D. unfold metres. split; intros (wt & W1 & W2 & W3 & W4); exists wt; (split; [exact W1|]; split; [exact W2|]); cbn [pixels v_n v_x v_y] in *.
  - rewrite rsum_lin in W3, W4 by (auto; lra). rewrite W3, W4. split; field; lra.
  - rewrite !rsum_lin by (auto; lra). rewrite <- W3, <- W4. split; field; lra.
Qed.
Lemma rsum_rev n f : rsum n (fun k => f (n - 1 - k)%nat) = rsum n f.
Proof.
  induction n as [|n IH]; [reflexivity|]. rewrite rsum_shift. cbn [rsum]. rewrite <- IH. replace (S n - 1 - 0)%nat with n by lia. rewrite Rplus_comm. f_equal. apply rsum_ext. intros k K. f_equal. lia.
Qed.
Lemma reversed_hull_1 p X Y : in_hull p X Y -> in_hull (reversed p) X Y.
Proof.
  intros (wt & W1 & W2 & W3 & W4). exists (fun k => wt (v_n p - 1 - k)%nat). cbn [reversed v_n v_x v_y]. split; [intros k K; apply W1; lia|].
  split; [now rewrite (rsum_rev (v_n p) wt)|]. split; [rewrite (rsum_rev (v_n p) (fun k => wt k * v_x p k)); exact W3|rewrite (rsum_rev (v_n p) (fun k => wt k * v_y p k)); exact W4].
Qed.
Lemma hull_ext p q X Y : v_n p = v_n q -> (forall k, (k < v_n p)%nat -> v_x p k = v_x q k /\ v_y p k = v_y q k) -> in_hull p X Y -> in_hull q X Y.
Proof.
  intros N H (wt & W1 & W2 & W3 & W4). exists wt. rewrite <- N. split; auto. split; auto. split.
  - rewrite W3. apply rsum_ext. intros k K. destruct (H k K) as [-> _]. reflexivity.
  - rewrite W4. apply rsum_ext. intros k K. destruct (H k K) as [_ ->]. reflexivity.
Qed.
Lemma reversed_hull p X Y : in_hull (reversed p) X Y <-> in_hull p X Y.
Proof.
  split; [|apply reversed_hull_1]. intros H. apply reversed_hull_1 in H. revert H. apply hull_ext; [reflexivity|]. intros k K. cbn [reversed v_n v_x v_y] in *. replace (v_n p - 1 - (v_n p - 1 - k))%nat with k by lia. auto.
Qed.
(* the vertices the code uses *)
Lemma polygon_pix_is w norm p n mag : 0 < w_dx w -> convex n mag (w_dx w) (in_metres w norm p) ->
  exists q, polygon_pix w norm p = pixels (w_dx w) (INR (w_n w / 2)) q /\ clockwise q /\ paced (gap_of mag (w_dx w)) (first_line n mag (w_dx w)) q /\ (forall X Y, in_hull q X Y <-> in_hull (in_metres w norm p) X Y).
Proof.
  intros D [N3 H]. set (M := in_metres w norm p) in *. change (v_n M) with (v_n p) in N3.
  set (sc := if norm then get_beamradius w else 1). assert (LS : forall x, len w norm x = x * sc) by (intros x; unfold len, sc; destruct norm; ring).
  set (cp := (v_x p 1%nat - v_x p 0%nat) * (v_y p 2%nat - v_y p 1%nat) - (v_y p 1%nat - v_y p 0%nat) * (v_x p 2%nat - v_x p 1%nat)).
  assert (F1 : forth M 0 1 = 1%nat) by (unfold forth; apply Nat.mod_small; cbn; lia).
  assert (SP : side M 0 2 = cp * (sc * sc)) by (unfold side; cbv zeta; rewrite F1; cbn [M in_metres v_x v_y]; rewrite !LS; unfold cp; ring).
  unfold polygon_pix. cbv zeta. fold cp. destruct H as [[CW PC]|[CW [NZ PC]]].
  - exists M. split; [|split; [exact CW|split; [exact PC|tauto]]]. pose proof (CW 0%nat 2%nat ltac:(cbn; lia) ltac:(cbn; lia)) as S. rewrite SP in S.
    assert (SC : sc <> 0). { intros Z. destruct PC as (b & top & l & r & LB & LT & AT & CF & CB). assert (Y : forall k, v_y M k = 0) by (intros k; cbn [M in_metres v_y]; rewrite LS, Z; ring). destruct CF as (_ & _ & _ & E & _). rewrite Y in E. rewrite Y in LT. lra. }
    assert (0 < sc * sc) by nra. destruct (Rlt_dec 0 cp); [nra|]. unfold pixels. cbn [M in_metres v_n v_x v_y].
    f_equal; apply FunctionalExtensionality.functional_extensionality; intros k; rewrite to_pix_len by lra; reflexivity.
  - exists (reversed M). split; [|split; [exact CW|split; [exact PC|intros; apply reversed_hull]]].
    pose proof (CW (v_n p - 2)%nat (v_n p - 3)%nat ltac:(cbn; lia) ltac:(cbn; lia)) as S. unfold side in S. cbv zeta in S.
    assert (F2 : forth (reversed M) (v_n p - 2) 1 = (v_n p - 1)%nat) by (unfold forth; cbn [reversed v_n M in_metres]; rewrite Nat.mod_small; lia). rewrite F2 in S. cbn [reversed v_n v_x v_y] in S. change (v_n M) with (v_n p) in S.
    replace (v_n p - 1 - (v_n p - 1))%nat with 0%nat in S by lia. replace (v_n p - 1 - (v_n p - 2))%nat with 1%nat in S by lia. replace (v_n p - 1 - (v_n p - 3))%nat with 2%nat in S by lia.
    cbn [M in_metres v_x v_y] in S. rewrite !LS in S. rewrite SP in NZ.
    assert (SC : sc <> 0) by (intros Z; apply NZ; rewrite Z; ring). assert (0 < sc * sc) by nra. assert (cp <> 0) by (intros Z; apply NZ; rewrite Z; ring).
    assert (S' : - cp * (sc * sc) <= 0) by (unfold cp; lra). destruct (Rlt_dec 0 cp) as [C|C]; [|exfalso; assert (cp < 0) by lra; nra].
    unfold pixels. cbn [reversed M in_metres v_n v_x v_y].
    f_equal; apply FunctionalExtensionality.functional_extensionality; intros k; rewrite to_pix_len by lra; reflexivity.
Qed.
Lemma polygon_ok mag w p norm dark : (1 <= mag)%nat -> 0 < w_dx w -> convex (w_n w) mag (w_dx w) (in_metres w norm p) -> poly_meets (w_n w) (w_dx w) (in_metres w norm p) ->
  exists m, prop_irregular_polygon mag w p norm dark = Ok m /\ frows m = w_n w /\ fcols m = w_n w /\ forall i j, (i < w_n w)%nat -> (j < w_n w)%nat -> not_cut (w_n w) (w_dx w) (in_metres w norm p) j ->
    exists v, poly_mean (w_n w) mag (w_dx w) (in_metres w norm p) i j v /\ fpx m i j = if dark then 1 - v else v.
Proof.
  intros Hm D CV ME. unfold prop_irregular_polygon, get_sampling. destruct (Req_EM_T (w_dx w) 0) as [|_]; [lra|]. pose proof CV as [N3 _]. change (v_n (in_metres w norm p)) with (v_n p) in N3. destruct (Nat.ltb_spec (v_n p) 3); [lia|]. cbv zeta.
  destruct (polygon_pix_is w norm p (w_n w) mag D CV) as (q & -> & CW & PC & HQ). set (M := in_metres w norm p) in *. set (n := w_n w) in *. set (dx := w_dx w) in *.
  destruct (pixels_cpoly n mag dx q Hm D CW PC) as (b & l & r & top & C). set (P := pixels dx (INR (n / 2)) q) in *.
  assert (HP : forall u v, in_hull P u v <-> in_hull M (metres n dx u) (metres n dx v)) by (intros u v; rewrite <- HQ; apply pixels_hull; auto).
  destruct (fill_poly P b l r top (line_y mag 0 0) n mag (paint_irregular n mag) dark (fun hi => if (Z.of_nat n <? hi + 1)%Z then Z.of_nat n else (hi + 1)%Z)
    (fun y j v => not_cut n dx M j -> has_length (fun u => INR j - 1 / 2 <= u <= INR j + 1 / 2 /\ in_hull P u y) v) Hm C eq_refl) as (m & E1 & E2 & E3 & E4).
  - intros y xl xr (i & k & Hi & Hk & Ey) Hy LR HX.
    pose proof (line_in_array n mag i k Hi Hk) as La. rewrite <- Ey in La.
    destruct (ME xl y La) as (u & Hu & Hin); [apply HP, HX; lra|]. apply HP, HX in Hin.
    destruct (paint_irr_ok n mag xl xr LR) as (f & F1 & F2); [apply near_lt; rewrite <- INR_IZR_INZ; lra|apply near_ge; lra|].
    exists f. split; [exact F1|]. intros j Hj. exists (g_irr n xl xr j). split; [now apply F2|]. intros NC.
    assert (EG : g_irr n xl xr j = overlap xl xr (Z.of_nat j)).
    { unfold g_irr. destruct NC as [NC|NC].
      - destruct (Nat.eqb_spec (S j) n); [lia|]. rewrite Bool.andb_false_r. cbn [andb]. reflexivity.
      - assert (G : xr < INR n - 1 / 2) by (apply (NC _ y), HP, HX; lra). rewrite INR_IZR_INZ in G. apply near_lt in G. destruct (Z.leb_spec (Z.of_nat n) (ZnearestE xr)); [lia|]. reflexivity. }
    rewrite EG, INR_IZR_INZ. eapply has_length_ext; [|apply overlap_length; exact LR]. intros x. cbv beta. rewrite HX. tauto.
  - intros y j NY _. left. split; auto. intros u [_ G]. apply NY. apply (hull_y _ _ _ _ _ G). intros k K. apply (c_all _ _ _ _ _ _ _ C k K).
  - intros hi. apply top_same.
  - exists m. split; [exact E1|]. split; auto. split; auto. intros i j Hi Hj NC. destruct (E4 i j Hi Hj) as (len0 & L1 & L2). exists (rsum mag len0 / INR mag). split; [|exact L2].
    exists len0. split; auto. intros k Hk. unfold poly_section. eapply has_length_ext; [|apply (L1 k Hk NC)]. intros u. cbv beta. rewrite HP.
    replace (INR i - 1 / 2 + (INR k + 1 / 2) / INR mag) with (line_y mag i k) by (unfold line_y; rewrite (Rplus_comm (1 / 2) (INR k)); ring). tauto.
Qed.
