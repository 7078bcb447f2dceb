(* Proofs for C102: the scan of a parallelogram, rows and image *)
From Coquelicot Require Import Coquelicot.
From Verif Require Import Base StrBase RBase CBase PropModel PrpModel DmSurfProofs2 EllProofs ApModel ApSpec ApProofs ApProofs2 RectModel RectSpec RectProofs.
Open Scope R_scope.
Lemma left_le_right bx by_ e1x e1y e2x e2y y : 0 < e1y -> 0 <= e2y -> 0 < e2x * e1y - e2y * e1x -> by_ <= y <= by_ + e1y + e2y ->
  xleft_of bx by_ e1x e1y e2x e2y y <= xright_of bx by_ e1x e1y e2x e2y y.
Proof.
  intros H1 H2 Ho Hy. set (m := (y - by_) / (e1y + e2y)). assert (Hm : 0 <= m <= 1).
  { destruct (div_between (y - by_) 1 (e1y + e2y)) as [A _]; [lra|]. destruct (div_between (y - by_) 0 (e1y + e2y)) as [_ B]; [lra|]. split; [apply B|apply A]; lra. }
  pose proof (proj1 (section_coords bx by_ e1x e1y e2x e2y m m H1 H2 Ho) (conj Hm Hm)) as [_ S].
  replace (by_ + (e1y * m + e2y * m)) with y in S by (unfold m; field; lra). lra.
Qed.
Lemma rsum_shift n f : rsum (S n) f = f 0%nat + rsum n (fun k => f (S k)).
Proof. induction n; [cbn; lra|]. change (rsum (S (S n)) f) with (rsum (S n) f + f (S n)). rewrite IHn. cbn. lra. Qed.
Lemma line_y_next mag i k : (1 <= mag)%nat -> line_y mag i k < line_y mag i (S k).
Proof. intros H. unfold line_y. rewrite S_INR. assert (0 < INR mag) by (apply lt_0_INR; lia). assert ((1 / 2 + INR k) / INR mag < (1 / 2 + (INR k + 1)) / INR mag) by (apply Rmult_lt_compat_r; [apply Rinv_0_lt_compat; auto|lra]). lra. Qed.
Lemma line_y_row mag i : (1 <= mag)%nat -> line_y mag i mag = line_y mag (S i) 0.
Proof. intros H. unfold line_y. rewrite S_INR. assert (0 < INR mag) by (apply lt_0_INR; lia). simpl (INR 0). field. lra. Qed.
Lemma line_y_in mag i k : (k < mag)%nat -> INR i - 1 / 2 < line_y mag i k < INR i + 1 / 2.
Proof.
  intros H. unfold line_y. assert (0 < INR mag) by (apply lt_0_INR; lia). assert (INR k + 1 <= INR mag) by (rewrite <- S_INR; apply le_INR; lia). pose proof (pos_INR k).
  assert (0 < (1 / 2 + INR k) / INR mag) by (apply Rdiv_lt_0_compat; lra).
  assert ((1 / 2 + INR k) / INR mag < 1) by (apply (Rmult_lt_reg_r (INR mag)); auto; unfold Rdiv; rewrite Rmult_assoc, Rinv_l; lra). lra.
Qed.
Section scan.
Variables (p : poly) (b l r t : nat) (bx by_ e1x e1y e2x e2y : R) (n mag : nat) (pt : painter) (g : R -> R -> nat -> R).
Hypothesis Hp : para p b l r t bx by_ e1x e1y e2x e2y.
Hypothesis Hmag : (1 <= mag)%nat.
Hypothesis Hpt : forall y, by_ <= y <= by_ + e1y + e2y -> (exists i k, (i < n)%nat /\ (k < mag)%nat /\ y = line_y mag i k) ->
  let xl := xleft_of bx by_ e1x e1y e2x e2y y in let xr := xright_of bx by_ e1x e1y e2x e2y y in
  xl <= xr -> exists f, pt xl xr = Ok f /\ forall j, (j < n)%nat -> f j = INR mag * g xl xr j.
Let inv := linv p b l r t (by_ + e1y) (by_ + e2y) (by_ + e1y + e2y).
Definition sec (y : R) (j : nat) : R :=
  if Rle_dec by_ y then if Rle_dec y (by_ + e1y + e2y) then g (xleft_of bx by_ e1x e1y e2x e2y y) (xright_of bx by_ e1x e1y e2x e2y y) j else 0 else 0.
Lemma subs_ok i cnt : forall k s row y0, (i < n)%nat -> (k + cnt <= mag)%nat -> inv s y0 -> y0 < line_y mag i k -> exists s' row' y1, scan_subs pt p mag i k cnt s row = Ok (s', row') /\
  inv s' y1 /\ y1 < line_y mag i (k + cnt) /\ forall j, (j < n)%nat -> row' j = row j + rsum cnt (fun q => INR mag * sec (line_y mag i (k + q)) j).
Proof.
  induction cnt; intros k s row y0 Hin Hkc Hs Hy.
  - exists s, row, y0. rewrite Nat.add_0_r. cbn. repeat split; auto. intros; lra.
  - cbn [scan_subs]. destruct (line_spec p b l r t bx by_ e1x e1y e2x e2y s y0 (line_y mag i k) Hp Hs Hy) as [I1 [I2 I3]]. cbv zeta in I1, I2, I3.
    assert (Hn : line_y mag i k < line_y mag i (S k)) by (apply line_y_next; auto).
    assert (SS : forall f : nat -> R, rsum (S cnt) (fun q => f (k + q)%nat) = f k + rsum cnt (fun q => f (S k + q)%nat)).
    { intros f. rewrite rsum_shift. rewrite Nat.add_0_r. f_equal. apply rsum_ext. intros; f_equal; lia. }
    assert (D : by_ <= line_y mag i k <= by_ + e1y + e2y \/ ~ (by_ <= line_y mag i k <= by_ + e1y + e2y)).
    { destruct (Rle_dec by_ (line_y mag i k)), (Rle_dec (line_y mag i k) (by_ + e1y + e2y)); try (left; lra); right; lra. }
    destruct D as [D|D].
    + rewrite (I2 D). 
      assert (LR : xleft_of bx by_ e1x e1y e2x e2y (line_y mag i k) <= xright_of bx by_ e1x e1y e2x e2y (line_y mag i k)) by (apply left_le_right; auto; apply Hp).
      destruct (Hpt _ D (ex_intro _ i (ex_intro _ k (conj Hin (conj (ltac:(lia) : (k < mag)%nat) eq_refl)))) LR) as [f [-> Hf]]. cbn [rbind].
      destruct (IHcnt (S k) (fst (scan_line p (line_y mag i k) s)) (fun j => row j + f j) (line_y mag i k) Hin ltac:(lia) I1 Hn) as [s' [row' [y1 [E1 [E2 [E3 E4]]]]]].
      exists s', row', y1. rewrite E1. split; auto. split; auto. split; [replace (k + S cnt)%nat with (S k + cnt)%nat by lia; auto|].
      intros j Hj. rewrite E4 by auto. rewrite (SS (fun q => INR mag * sec (line_y mag i q) j)). rewrite Hf by auto. unfold sec at 2.
      destruct (Rle_dec by_ (line_y mag i k)); [|lra]. destruct (Rle_dec (line_y mag i k) (by_ + e1y + e2y)); [|lra]. ring.
    + rewrite (I3 D). destruct (IHcnt (S k) (fst (scan_line p (line_y mag i k) s)) row (line_y mag i k) Hin ltac:(lia) I1 Hn) as [s' [row' [y1 [E1 [E2 [E3 E4]]]]]].
      exists s', row', y1. rewrite E1. split; auto. split; auto. split; [replace (k + S cnt)%nat with (S k + cnt)%nat by lia; auto|].
      intros j Hj. rewrite E4 by auto. rewrite (SS (fun q => INR mag * sec (line_y mag i q) j)). unfold sec at 2.
      destruct (Rle_dec by_ (line_y mag i k)); [destruct (Rle_dec (line_y mag i k) (by_ + e1y + e2y)); [lra|]|]; ring.
Qed.
Definition row_sum (i j : nat) : R := rsum mag (fun q => INR mag * sec (line_y mag i q) j).
Lemma rows_ok cnt : forall i s img y0, (i + cnt <= n)%nat \/ cnt = 0%nat -> inv s y0 -> y0 < line_y mag i 0 -> exists img', scan_rows pt p mag i cnt s img = Ok img' /\
  forall i' j, (j < n)%nat -> img' i' j = img i' j + (if (i <=? i')%nat && (i' <? i + cnt)%nat then row_sum i' j else 0).
Proof.
  induction cnt; intros i s img y0 Hin Hs Hy.
  - exists img. split; auto. intros i' j _. destruct (Nat.leb_spec i i'); destruct (Nat.ltb_spec i' (i + 0)); cbn [andb]; try lra; lia.
  - cbn [scan_rows]. destruct (subs_ok i mag 0 s (img i) y0 ltac:(lia) ltac:(lia) Hs Hy) as [s' [row' [y1 [E1 [E2 [E3 E4]]]]]]. rewrite E1. cbn [rbind fst snd].
    rewrite Nat.add_0_l, line_y_row in E3 by auto.
    destruct (IHcnt (S i) s' (fun i' => if (i' =? i)%nat then row' else img i') y1 ltac:(lia) E2 E3) as [img' [F1 F2]].
    exists img'. split; [exact F1|]. intros i' j Hj. rewrite F2 by auto. destruct (Nat.eqb_spec i' i) as [->|Ne].
    + rewrite E4 by auto. destruct (Nat.leb_spec (S i) i); [lia|]. destruct (Nat.leb_spec i i); [|lia]. destruct (Nat.ltb_spec i (i + S cnt)); [|lia]. cbn [andb]. unfold row_sum. cbn [Nat.add]. lra.
    + destruct (Nat.leb_spec (S i) i'), (Nat.leb_spec i i'), (Nat.ltb_spec i' (S i + cnt)), (Nat.ltb_spec i' (i + S cnt)); cbn [andb]; try lia; lra.
Qed.
End scan.
(* every line that is painted fails *)
Section bad.
Variables (p : poly) (b l r t : nat) (bx by_ e1x e1y e2x e2y : R) (mag : nat) (pt : painter) (e : exn).
Hypothesis Hp : para p b l r t bx by_ e1x e1y e2x e2y.
Hypothesis Hmag : (1 <= mag)%nat.
Let inv := linv p b l r t (by_ + e1y) (by_ + e2y) (by_ + e1y + e2y).
Hypothesis Hbad : forall y, by_ <= y <= by_ + e1y + e2y -> pt (xleft_of bx by_ e1x e1y e2x e2y y) (xright_of bx by_ e1x e1y e2x e2y y) = Raise e.
Definition in_range (y : R) : Prop := by_ <= y <= by_ + e1y + e2y.
Lemma subs_err i cnt : forall k s row y0, inv s y0 -> y0 < line_y mag i k -> scan_subs pt p mag i k cnt s row = Raise e \/
  (exists s' row' y1, scan_subs pt p mag i k cnt s row = Ok (s', row') /\ inv s' y1 /\ y1 < line_y mag i (k + cnt) /\ forall q, (q < cnt)%nat -> ~ in_range (line_y mag i (k + q))).
Proof.
  induction cnt; intros k s row y0 Hs Hy.
  - right. exists s, row, y0. rewrite Nat.add_0_r. cbn. split; auto. split; auto. split; auto. intros; lia.
  - cbn [scan_subs]. destruct (line_spec p b l r t bx by_ e1x e1y e2x e2y s y0 (line_y mag i k) Hp Hs Hy) as [I1 [I2 I3]]. cbv zeta in I1, I2, I3.
    assert (Hn : line_y mag i k < line_y mag i (S k)) by (apply line_y_next; auto).
    assert (D : by_ <= line_y mag i k <= by_ + e1y + e2y \/ ~ (by_ <= line_y mag i k <= by_ + e1y + e2y)).
    { destruct (Rle_dec by_ (line_y mag i k)), (Rle_dec (line_y mag i k) (by_ + e1y + e2y)); try (left; lra); right; lra. }
    destruct D as [D|D].
    + rewrite (I2 D), (Hbad _ D). left. reflexivity.
    + rewrite (I3 D). destruct (IHcnt (S k) (fst (scan_line p (line_y mag i k) s)) row (line_y mag i k) I1 Hn) as [E|[s' [row' [y1 [E1 [E2 [E3 E4]]]]]]]; [left; auto|right].
      exists s', row', y1. rewrite E1. split; auto. split; auto. split; [replace (k + S cnt)%nat with (S k + cnt)%nat by lia; auto|].
      intros q Hq. destruct q; [rewrite Nat.add_0_r; auto|]. replace (k + S q)%nat with (S k + q)%nat by lia. apply E4. lia.
Qed.
Lemma rows_err cnt : forall i s img y0, inv s y0 -> y0 < line_y mag i 0 -> (exists i' q, (i <= i' < i + cnt)%nat /\ (q < mag)%nat /\ in_range (line_y mag i' q)) ->
  scan_rows pt p mag i cnt s img = Raise e.
Proof.
  induction cnt; intros i s img y0 Hs Hy [i' [q [H1 [H2 H3]]]]; [lia|]. cbn [scan_rows].
  destruct (subs_err i mag 0 s (img i) y0 Hs Hy) as [->|[s' [row' [y1 [E1 [E2 [E3 E4]]]]]]]; [reflexivity|]. rewrite E1. cbn [rbind fst snd].
  rewrite Nat.add_0_l, line_y_row in E3 by auto. apply (IHcnt (S i) s' _ y1 E2 E3).
  exists i', q. split; auto. destruct (Nat.eq_dec i' i) as [->|]; [|lia]. exfalso. apply (E4 q H2). rewrite Nat.add_0_l. auto.
Qed.
End bad.
Arguments sec : clear implicits.
Lemma sec_out g bx by_ e1x e1y e2x e2y y j : y < by_ \/ by_ + e1y + e2y < y -> sec bx by_ e1x e1y e2x e2y g y j = 0.
Proof. intros H. unfold sec. destruct (Rle_dec by_ y); auto. destruct (Rle_dec y (by_ + e1y + e2y)); auto. lra. Qed.
Lemma lmin4 p b l r t bx by_ e1x e1y e2x e2y : para p b l r t bx by_ e1x e1y e2x e2y -> b = lowest p -> lmin (v_y p) 4 = by_ -> start p = mkch b l b r.
Proof. intros H -> _. unfold start. rewrite (q_n _ _ _ _ _ _ _ _ _ _ _ H), (q_bl _ _ _ _ _ _ _ _ _ _ _ H), (q_br _ _ _ _ _ _ _ _ _ _ _ H). auto. Qed.
(* the image of a parallelogram *)
Lemma fill_para p b l r t bx by_ e1x e1y e2x e2y n mag pt g dark top : para p b l r t bx by_ e1x e1y e2x e2y -> b = lowest p -> lmin (v_y p) 4 = by_ -> (1 <= mag)%nat ->
  (forall y, by_ <= y <= by_ + e1y + e2y -> (exists i k, (i < n)%nat /\ (k < mag)%nat /\ y = line_y mag i k) ->
  let xl := xleft_of bx by_ e1x e1y e2x e2y y in let xr := xright_of bx by_ e1x e1y e2x e2y y in
  xl <= xr -> exists f, pt xl xr = Ok f /\ forall j, (j < n)%nat -> f j = INR mag * g xl xr j) ->
  (forall hi, top hi = if (Z.of_nat n <=? hi + 1)%Z then Z.of_nat n else (hi + 1)%Z) ->
  exists m, fill pt top n mag dark p = Ok m /\ frows m = n /\ fcols m = n /\
    forall i j, (i < n)%nat -> (j < n)%nat -> let v := rsum mag (fun q => sec bx by_ e1x e1y e2x e2y g (line_y mag i q) j) / INR mag in fpx m i j = if dark then 1 - v else v.
Proof.
  intros Hp Hb Hmin Hmag Hpt Htop. unfold fill. rewrite (lmin4 _ _ _ _ _ _ _ _ _ _ _ Hp Hb Hmin), (q_n _ _ _ _ _ _ _ _ _ _ _ Hp), Hmin, (q_max _ _ _ _ _ _ _ _ _ _ _ Hp), Htop.
  destruct (near_up by_) as [A1 A2], (near_up (by_ + e1y + e2y)) as [B1 B2].
  set (lo := ZnearestE by_) in *. set (hi := ZnearestE (by_ + e1y + e2y)) in *.
  set (imin := if (lo <? 0)%Z then 0%Z else lo). set (imax := if (Z.of_nat n <=? hi + 1)%Z then Z.of_nat n else (hi + 1)%Z).
  assert (Him : (0 <= imin)%Z) by (unfold imin; destruct (Z.ltb_spec lo 0); lia).
  assert (Hrn : (Z.to_nat imin + Z.to_nat (imax - imin) <= n)%nat \/ Z.to_nat (imax - imin) = 0%nat) by (unfold imin, imax; destruct (Z.ltb_spec lo 0), (Z.leb_spec (Z.of_nat n) (hi + 1)); lia).
  assert (HI : linv p b l r t (by_ + e1y) (by_ + e2y) (by_ + e1y + e2y) (mkch b l b r) (Rmin (by_ - 1) (line_y mag (Z.to_nat imin) 0 - 1))).
  { right. pose proof (Rmin_l (by_ - 1) (line_y mag (Z.to_nat imin) 0 - 1)). pose proof (q_e1 _ _ _ _ _ _ _ _ _ _ _ Hp). pose proof (q_e2 _ _ _ _ _ _ _ _ _ _ _ Hp).
    split; left; (split; [reflexivity|split; [reflexivity|lra]]). }
  pose proof (Rmin_r (by_ - 1) (line_y mag (Z.to_nat imin) 0 - 1)) as HR.
  destruct (rows_ok p b l r t bx by_ e1x e1y e2x e2y n mag pt g Hp Hmag Hpt (Z.to_nat (imax - imin)) (Z.to_nat imin) (mkch b l b r) (fun _ _ => 0) _ Hrn HI) as [img [E1 E2]]; [lra|].
  cbv zeta. rewrite E1. cbn [rbind]. eexists. split; [reflexivity|]. cbn [frows fcols fpx]. repeat split. intros i j Hi Hj. rewrite E2 by auto. rewrite Rplus_0_l.
  assert (HM : 0 < INR mag) by (apply lt_0_INR; lia).
  assert (EV : (if (Z.to_nat imin <=? i)%nat && (i <? Z.to_nat imin + Z.to_nat (imax - imin))%nat then row_sum bx by_ e1x e1y e2x e2y mag g i j else 0) = row_sum bx by_ e1x e1y e2x e2y mag g i j).
  { destruct ((Z.to_nat imin <=? i)%nat && (i <? Z.to_nat imin + Z.to_nat (imax - imin))%nat)%bool eqn:E; auto. symmetry. unfold row_sum.
    apply rsum_zero. intros q Hq. rewrite sec_out; [ring|].
    pose proof (line_y_in mag i q Hq). rewrite INR_IZR_INZ in *.
    apply Bool.andb_false_iff in E. rewrite Nat.leb_gt, Nat.ltb_ge in E. unfold imin, imax in E.
    assert (C : (Z.of_nat i + 1 <= lo \/ hi + 1 <= Z.of_nat i)%Z) by (destruct (Z.ltb_spec lo 0), (Z.leb_spec (Z.of_nat n) (hi + 1)); lia).
    destruct C as [C|C]; apply IZR_le in C; rewrite plus_IZR in C; [left|right]; lra. }
  rewrite EV. assert (EQ : row_sum bx by_ e1x e1y e2x e2y mag g i j / (INR mag * INR mag) = rsum mag (fun q => sec bx by_ e1x e1y e2x e2y g (line_y mag i q) j) / INR mag).
  { unfold row_sum. rewrite rsum_scal. field. lra. }
  rewrite EQ. reflexivity.
Qed.
Lemma fill_para_err p b l r t bx by_ e1x e1y e2x e2y n mag pt dark top e : para p b l r t bx by_ e1x e1y e2x e2y -> b = lowest p -> lmin (v_y p) 4 = by_ -> (1 <= mag)%nat ->
  (forall y, by_ <= y <= by_ + e1y + e2y -> pt (xleft_of bx by_ e1x e1y e2x e2y y) (xright_of bx by_ e1x e1y e2x e2y y) = Raise e) ->
  (forall hi, top hi = if (Z.of_nat n <=? hi + 1)%Z then Z.of_nat n else (hi + 1)%Z) ->
  (exists i q, (i < n)%nat /\ (q < mag)%nat /\ by_ <= line_y mag i q <= by_ + e1y + e2y) -> fill pt top n mag dark p = Raise e.
Proof.
  intros Hp Hb Hmin Hmag Hpt Htop [i [q [Hi [Hq Hy]]]]. unfold fill. rewrite (lmin4 _ _ _ _ _ _ _ _ _ _ _ Hp Hb Hmin), (q_n _ _ _ _ _ _ _ _ _ _ _ Hp), Hmin, (q_max _ _ _ _ _ _ _ _ _ _ _ Hp), Htop.
  destruct (near_up by_) as [A1 A2], (near_up (by_ + e1y + e2y)) as [B1 B2].
  set (lo := ZnearestE by_) in *. set (hi := ZnearestE (by_ + e1y + e2y)) in *.
  set (imin := if (lo <? 0)%Z then 0%Z else lo). set (imax := if (Z.of_nat n <=? hi + 1)%Z then Z.of_nat n else (hi + 1)%Z).
  assert (Him : (0 <= imin)%Z) by (unfold imin; destruct (Z.ltb_spec lo 0); lia).
  assert (HI : linv p b l r t (by_ + e1y) (by_ + e2y) (by_ + e1y + e2y) (mkch b l b r) (Rmin (by_ - 1) (line_y mag (Z.to_nat imin) 0 - 1))).
  { right. pose proof (Rmin_l (by_ - 1) (line_y mag (Z.to_nat imin) 0 - 1)). pose proof (q_e1 _ _ _ _ _ _ _ _ _ _ _ Hp). pose proof (q_e2 _ _ _ _ _ _ _ _ _ _ _ Hp).
    split; left; (split; [reflexivity|split; [reflexivity|lra]]). }
  pose proof (Rmin_r (by_ - 1) (line_y mag (Z.to_nat imin) 0 - 1)) as HR.
  erewrite rows_err; [reflexivity|exact Hp|exact Hmag|exact Hpt|exact HI|lra|].
  exists i, q. split; [|split; auto]. pose proof (line_y_in mag i q Hq). rewrite INR_IZR_INZ in *.
  assert (C : (lo <= Z.of_nat i <= hi)%Z).
  { split; [apply Z.lt_succ_r|apply Z.lt_succ_r]; apply lt_IZR; rewrite succ_IZR; lra. }
  unfold imin, imax. destruct (Z.ltb_spec lo 0), (Z.leb_spec (Z.of_nat n) (hi + 1)); lia.
Qed.
