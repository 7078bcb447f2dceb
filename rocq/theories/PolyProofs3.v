(* Proofs for C104: rows and image *)
From Coquelicot Require Import Coquelicot.
From Verif Require Import Base StrBase RBase CBase PropModel PrpModel DmSurfProofs2 EllProofs ApModel ApSpec ApProofs ApProofs2 RectModel RectSpec RectProofs RectProofs2 RectProofs3 RectProofs4 RectProofs5 PolySpec PolyProofs PolyProofs2.
Open Scope R_scope.
Section scan.
Variables (p : poly) (lo top gap : R) (inv : R -> chains -> Prop) (n mag : nat) (pt : painter) (SR : R -> R -> R -> Prop) (Q : R -> nat -> R -> Prop).
Hypothesis Hmag : (1 <= mag)%nat.
Hypothesis Hgap : gap = / INR mag.
Hypothesis Hline : forall s y y', inv y s -> y < y' <= y + gap ->
  inv y' (fst (scan_line p y s)) /\
  (lo <= y <= top -> exists xl xr, snd (scan_line p y s) = Some (xl, xr) /\ SR y xl xr) /\
  (~ lo <= y <= top -> snd (scan_line p y s) = None).
Hypothesis Hpt : forall y xl xr, (exists i k, (i < n)%nat /\ (k < mag)%nat /\ y = line_y mag i k) -> lo <= y <= top -> SR y xl xr ->
  exists f, pt xl xr = Ok f /\ forall j, (j < n)%nat -> exists v, f j = INR mag * v /\ Q y j v.
Hypothesis Hno : forall y j, ~ lo <= y <= top -> Q y j 0.
Lemma line_step_y i k : line_y mag i (S k) = line_y mag i k + gap.
Proof. unfold line_y. rewrite S_INR, Hgap. assert (0 < INR mag) by (apply lt_0_INR; lia). field. lra. Qed.
Lemma gen_subs i cnt : forall k s row, (i < n)%nat -> (k + cnt <= mag)%nat -> inv (line_y mag i k) s -> exists s' row', scan_subs pt p mag i k cnt s row = Ok (s', row') /\
  inv (line_y mag i (k + cnt)) s' /\ forall j, (j < n)%nat -> exists len : nat -> R, (forall q, (q < cnt)%nat -> Q (line_y mag i (k + q)) j (len q)) /\ row' j = row j + INR mag * rsum cnt len.
Proof.
  induction cnt as [|cnt IH]; intros k s row Hin Hkc Hs.
  - exists s, row. rewrite Nat.add_0_r. cbn [scan_subs]. split; [reflexivity|]. split; [auto|]. intros j _. exists (fun _ => 0). split; [intros; lia|]. cbn [rsum]. lra.
  - cbn [scan_subs]. destruct (Hline s (line_y mag i k) (line_y mag i (S k)) Hs) as [I1 [I2 I3]]. { rewrite line_step_y. assert (0 < gap) by (rewrite Hgap; apply Rinv_0_lt_compat, lt_0_INR; lia). lra. }
    assert (CONS : forall row1, (forall j, (j < n)%nat -> exists v, row1 j = row j + INR mag * v /\ Q (line_y mag i k) j v) ->
      exists s' row', scan_subs pt p mag i (S k) cnt (fst (scan_line p (line_y mag i k) s)) row1 = Ok (s', row') /\ inv (line_y mag i (k + S cnt)) s' /\
        forall j, (j < n)%nat -> exists len : nat -> R, (forall q, (q < S cnt)%nat -> Q (line_y mag i (k + q)) j (len q)) /\ row' j = row j + INR mag * rsum (S cnt) len).
    { intros row1 R1. destruct (IH (S k) (fst (scan_line p (line_y mag i k) s)) row1 Hin ltac:(lia) I1) as (s' & row' & E1 & E2 & E3). exists s', row'. split; [exact E1|]. split; [replace (k + S cnt)%nat with (S k + cnt)%nat by lia; exact E2|].
      intros j Hj. destruct (E3 j Hj) as (len & L1 & L2). destruct (R1 j Hj) as (v & V1 & V2). exists (fun q => match q with O => v | S q' => len q' end). split.
      - intros [|q] Hq; [rewrite Nat.add_0_r; exact V2|]. replace (k + S q)%nat with (S k + q)%nat by lia. apply L1. lia.
      - rewrite L2, V1. match goal with |- _ = _ + _ * ?x => replace x with (v + rsum cnt len) by (symmetry; apply rsum_shift) end. ring. }
    assert (D : lo <= line_y mag i k <= top \/ ~ (lo <= line_y mag i k <= top)) by (destruct (Rle_dec lo (line_y mag i k)), (Rle_dec (line_y mag i k) top); try (left; lra); right; lra).
    destruct D as [D|D].
    + destruct (I2 D) as (xl & xr & -> & HX). destruct (Hpt (line_y mag i k) xl xr ltac:(exists i, k; split; auto; split; [lia|auto]) D HX) as (f & -> & Hf). cbn [rbind]. apply CONS. intros j Hj. destruct (Hf j Hj) as (v & -> & V). exists v. auto.
    + rewrite (I3 D). apply CONS. intros j Hj. exists 0. split; [ring|]. now apply Hno.
Qed.
Lemma gen_rows cnt : forall i s img, (i + cnt <= n)%nat \/ cnt = 0%nat -> inv (line_y mag i 0) s -> exists img', scan_rows pt p mag i cnt s img = Ok img' /\
  forall i' j, (j < n)%nat -> ((i <= i' < i + cnt)%nat -> exists len : nat -> R, (forall q, (q < mag)%nat -> Q (line_y mag i' q) j (len q)) /\ img' i' j = img i' j + INR mag * rsum mag len) /\
    (~ (i <= i' < i + cnt)%nat -> img' i' j = img i' j).
Proof.
  induction cnt as [|cnt IH]; intros i s img Hin Hs.
  - exists img. split; auto. intros i' j _. split; [intros; lia|auto].
  - cbn [scan_rows]. destruct (gen_subs i mag 0 s (img i) ltac:(lia) ltac:(lia) Hs) as (s' & row' & E1 & E2 & E3). rewrite E1. cbn [rbind fst snd].
    rewrite Nat.add_0_l, line_y_row in E2 by auto.
    destruct (IH (S i) s' (fun i' => if (i' =? i)%nat then row' else img i') ltac:(lia) E2) as (img' & F1 & F2).
    exists img'. split; [exact F1|]. intros i' j Hj. destruct (F2 i' j Hj) as [G1 G2]. destruct (Nat.eqb_spec i' i) as [->|Ne].
    + split; [|intros; lia]. intros _. rewrite G2 by lia. destruct (E3 j Hj) as (len & L1 & L2). exists len. split; auto.
    + split; intros K; [apply G1; lia|apply G2; lia].
Qed.
End scan.
(* the image, whatever the lines' ends are *)
Lemma fill_gen p lo top (inv : R -> chains -> Prop) n mag pt dark tp (SR : R -> R -> R -> Prop) (Q : R -> nat -> R -> Prop) : (1 <= mag)%nat ->
  lmin (v_y p) (v_n p) = lo -> lmax (v_y p) (v_n p) = top ->
  (forall s y y', inv y s -> y < y' <= y + / INR mag -> inv y' (fst (scan_line p y s)) /\
    (lo <= y <= top -> exists xl xr, snd (scan_line p y s) = Some (xl, xr) /\ SR y xl xr) /\
    (~ lo <= y <= top -> snd (scan_line p y s) = None)) ->
  (lo < line_y mag 0 0 -> inv (line_y mag 0 0) (start p)) -> (forall y, y <= lo + / 2 * / INR mag -> inv y (start p)) ->
  (forall y xl xr, (exists i k, (i < n)%nat /\ (k < mag)%nat /\ y = line_y mag i k) -> lo <= y <= top -> SR y xl xr ->
    exists f, pt xl xr = Ok f /\ forall j, (j < n)%nat -> exists v, f j = INR mag * v /\ Q y j v) ->
  (forall y j, ~ lo <= y <= top -> Q y j 0) ->
  (forall hi, tp hi = if (Z.of_nat n <=? hi + 1)%Z then Z.of_nat n else (hi + 1)%Z) ->
  exists m, fill pt tp n mag dark p = Ok m /\ frows m = n /\ fcols m = n /\
    forall i j, (i < n)%nat -> (j < n)%nat -> exists len : nat -> R, (forall k, (k < mag)%nat -> Q (line_y mag i k) j (len k)) /\ let v := rsum mag len / INR mag in fpx m i j = if dark then 1 - v else v.
Proof.
  intros Hmag Cmin Cmax Hline Hfirst Hstart Hpt Hno Htop. unfold fill. rewrite Cmin, Cmax, Htop.
  destruct (near_up lo) as [A1 A2], (near_up top) as [B1 B2]. set (zl := ZnearestE lo) in *. set (zh := ZnearestE top) in *.
  set (imin := if (zl <? 0)%Z then 0%Z else zl). set (imax := if (Z.of_nat n <=? zh + 1)%Z then Z.of_nat n else (zh + 1)%Z).
  assert (Him : (0 <= imin)%Z) by (unfold imin; destruct (Z.ltb_spec zl 0); lia).
  assert (Hrn : (Z.to_nat imin + Z.to_nat (imax - imin) <= n)%nat \/ Z.to_nat (imax - imin) = 0%nat) by (unfold imin, imax; destruct (Z.ltb_spec zl 0), (Z.leb_spec (Z.of_nat n) (zh + 1)); lia).
  assert (HM : 0 < INR mag) by (apply lt_0_INR; lia).
  assert (HI : inv (line_y mag (Z.to_nat imin) 0) (start p)).
  { unfold imin. destruct (Z.ltb_spec zl 0) as [Z0|Z0].
    - change (Z.to_nat 0) with 0%nat. destruct (Rlt_dec lo (line_y mag 0 0)) as [L|L]; [now apply Hfirst|]. apply Hstart. pose proof (Rinv_0_lt_compat _ HM). lra.
    - apply Hstart. unfold line_y. rewrite INR_IZR_INZ, Z2Nat.id by auto. simpl (INR 0). replace ((1 / 2 + 0) / INR mag) with (/ 2 * / INR mag) by (field; lra). lra. }
  destruct (gen_rows p lo top (/ INR mag) inv n mag pt SR Q Hmag eq_refl Hline Hpt Hno (Z.to_nat (imax - imin)) (Z.to_nat imin) (start p) (fun _ _ => 0) Hrn HI) as (img & E1 & E2).
  rewrite E1. cbn [rbind]. eexists. split; [reflexivity|]. cbn [frows fcols fpx]. split; [reflexivity|]. split; [reflexivity|]. intros i j Hi Hj. destruct (E2 i j Hj) as [G1 G2].
  destruct (Nat.le_gt_cases (Z.to_nat imin) i) as [L1|L1]; [destruct (Nat.lt_ge_cases i (Z.to_nat imin + Z.to_nat (imax - imin))) as [L2|L2]|].
  - destruct (G1 (conj L1 L2)) as (len & LQ & ->). exists len. split; auto. cbv zeta. replace ((0 + INR mag * rsum mag len) / (INR mag * INR mag)) with (rsum mag len / INR mag) by (field; lra). reflexivity.
  - exists (fun _ => 0). split; [|cbv zeta; rewrite G2 by lia; rewrite rsum_zero by auto; unfold Rdiv; rewrite !Rmult_0_l; reflexivity].
    intros k Hk. apply Hno. pose proof (line_y_in mag i k Hk) as LY. rewrite INR_IZR_INZ in LY.
    assert (W : (zh + 1 <= Z.of_nat i)%Z \/ (Z.of_nat i + 1 <= zl)%Z) by (unfold imin, imax in *; destruct (Z.ltb_spec zl 0), (Z.leb_spec (Z.of_nat n) (zh + 1)); lia). destruct W as [W|W]; apply IZR_le in W; rewrite plus_IZR in W; lra.
  - exists (fun _ => 0). split; [|cbv zeta; rewrite G2 by lia; rewrite rsum_zero by auto; unfold Rdiv; rewrite !Rmult_0_l; reflexivity].
    intros k Hk. apply Hno. pose proof (line_y_in mag i k Hk) as LY. rewrite INR_IZR_INZ in LY.
    assert (W : (Z.of_nat i + 1 <= zl)%Z) by (unfold imin in *; destruct (Z.ltb_spec zl 0); lia). apply IZR_le in W; rewrite plus_IZR in W; lra.
Qed.

Lemma fill_poly p b l r top first n mag pt dark tp (Q : R -> nat -> R -> Prop) : (1 <= mag)%nat -> cpoly p b l r top (/ INR mag) first -> first = line_y mag 0 0 ->
  (forall y xl xr, (exists i k, (i < n)%nat /\ (k < mag)%nat /\ y = line_y mag i k) -> v_y p b <= y <= top -> xl <= xr -> (forall x, in_hull p x y <-> xl <= x <= xr) ->
    exists f, pt xl xr = Ok f /\ forall j, (j < n)%nat -> exists v, f j = INR mag * v /\ Q y j v) ->
  (forall y j, ~ v_y p b <= y <= top -> Q y j 0) ->
  (forall hi, tp hi = if (Z.of_nat n <=? hi + 1)%Z then Z.of_nat n else (hi + 1)%Z) ->
  exists m, fill pt tp n mag dark p = Ok m /\ frows m = n /\ fcols m = n /\
    forall i j, (i < n)%nat -> (j < n)%nat -> exists len : nat -> R, (forall k, (k < mag)%nat -> Q (line_y mag i k) j (len k)) /\ let v := rsum mag len / INR mag in fpx m i j = if dark then 1 - v else v.
Proof.
  intros Hmag C Hf Hpt Hno Htop. set (lo := v_y p b) in *. pose proof (c_b _ _ _ _ _ _ _ C) as HB. assert (NV : (0 < v_n p)%nat) by lia. assert (HM : 0 < INR mag) by (apply lt_0_INR; lia).
  pose proof (c_f _ _ _ _ _ _ _ C) as CF. pose proof (c_k _ _ _ _ _ _ _ C) as CK. assert (F0 := forth_0 p b HB). assert (B0 := back_0 p b HB).
  assert (ST : start p = mkch b (forth p b 1) b (back p b 1)).
  { unfold start. rewrite (c_low _ _ _ _ _ _ _ C). cbv zeta. f_equal; [rewrite <- F0 at 1; now apply forth_next|rewrite <- B0 at 1; now apply back_next]. }
  apply (fill_gen p lo top (ready p b l r top) n mag pt dark tp (fun y xl xr => xl <= xr /\ forall x, in_hull p x y <-> xl <= x <= xr) Q Hmag (c_min _ _ _ _ _ _ _ C) (c_max _ _ _ _ _ _ _ C)); auto.
  - intros s y y'. apply (line_poly p b l r top (/ INR mag) first s y y' C).
  - intros _. rewrite ST, <- Hf. right. cbn [h_l h_ln h_r h_rn]. split; [rewrite <- F0 at 2|rewrite <- B0 at 2]; [now apply first_rdy with (1 := CF)|now apply first_rdy with (1 := CK)].
  - intros y Hy. rewrite ST. right. cbn [h_l h_ln h_r h_rn]. pose proof (Rinv_0_lt_compat _ HM).
    split; [rewrite <- F0 at 2; refine (start_rdy _ _ _ _ _ _ (lo - / 2 * / INR mag) _ CF _ _); [rewrite F0|]|rewrite <- B0 at 2; refine (start_rdy _ _ _ _ _ _ (lo - / 2 * / INR mag) _ CK _ _); [rewrite B0|]]; fold lo; lra.
  - intros y xl xr H1 H2 [H3 H4]. auto.
Qed.
