(* A strut of zero width along the rows (C103) *)
From Coquelicot Require Import Coquelicot.
From Verif Require Import Base StrBase RBase UtilModel UtilSpec UtilProofs CBase PropModel PropProofs OptModel PrpModel ApModel ApSpec ApProofs ApProofs3 RectModel RectSpec RectProofs RectProofs2 RectProofs3 RectProofs4 RectProofs5.
Open Scope R_scope.
Section Flat.
Variables (a b c : R) (p : poly).
Hypothesis HN : v_n p = 4%nat.
Hypothesis HY : forall k, v_y p k = c.
Hypothesis HX : v_x p 0%nat = a /\ v_x p 1%nat = a /\ v_x p 2%nat = b /\ v_x p 3%nat = b.
Hypothesis AB : a <= b.
Lemma flat_max : lmax (v_y p) (v_n p) = c.
Proof. rewrite HN. cbn [lmax]. rewrite !HY. unfold Rmax. repeat (destruct (Rle_dec _ _); auto). Qed.
Lemma flat_min : lmin (v_y p) (v_n p) = c.
Proof. rewrite HN. cbn [lmin]. rewrite !HY. unfold Rmin. repeat (destruct (Rle_dec _ _); auto). Qed.
Lemma flat_line y s : y <> c -> scan_line p y s = (s, None).
Proof.
  intros H. unfold scan_line. rewrite HY, flat_max. destruct (Rlt_dec y c); auto. destruct (Rlt_dec c y); auto. lra.
Qed.
Lemma flat_subs pt mag i k cnt s row : (forall q, (k <= q < k + cnt)%nat -> line_y mag i q <> c) -> scan_subs pt p mag i k cnt s row = Ok (s, row).
Proof.
  revert k. induction cnt as [|cnt IH]; intros k H; cbn [scan_subs]; auto. rewrite flat_line by (apply H; lia). cbn [snd fst]. apply IH. intros q Q. apply H. lia.
Qed.
Lemma flat_lowest : lowest p = 0%nat.
Proof.
  destruct HX as (X0 & X1 & X2 & X3). unfold lowest. rewrite flat_min, HN. cbn [first_from]. unfold Reqb at 1. rewrite HY. destruct (Req_EM_T c c); [|contradiction]. cbn [andb].
  assert (E : lmin (fun k => if Reqb (v_y p k) c then v_x p k else lmax (v_x p) 4) 4 = a).
  { cbn [lmin]. unfold Reqb. rewrite !HY. destruct (Req_EM_T c c); [|contradiction]. rewrite X0, X1, X2, X3. unfold Rmin. repeat (destruct (Rle_dec _ _)); lra. }
  rewrite E, X0. unfold Reqb. destruct (Req_EM_T a a); [reflexivity|contradiction].
Qed.
Lemma flat_hit : scan_line p c (start p) = (mkch 1 2 3 2, Some (a, b)).
Proof.
  destruct HX as (X0 & X1 & X2 & X3). unfold scan_line. rewrite HY, flat_max. destruct (Rlt_dec c c); [lra|]. unfold start. rewrite flat_lowest, HN. cbn [vnext vprev Nat.eqb Nat.sub Nat.add]. unfold advance. cbn [h_l h_ln h_r h_rn].
  rewrite !HY. destruct (Rle_dec c c); [|lra]. rewrite HN. cbn [fst snd vnext vprev Nat.eqb Nat.sub Nat.add h_l h_ln h_r h_rn]. unfold crossing. rewrite !HY. destruct (Req_EM_T (c - c) 0) as [_|K]; [|destruct K; ring]. rewrite X1, X3. reflexivity.
Qed.
End Flat.
Lemma scan_subs_app pt p mag i k m1 m2 s row : scan_subs pt p mag i k (m1 + m2) s row = rbind (scan_subs pt p mag i k m1 s row) (fun sr => scan_subs pt p mag i (k + m1) m2 (fst sr) (snd sr)).
Proof.
  revert k s row. induction m1 as [|m1 IH]; intros k s row.
  - cbn [Nat.add scan_subs rbind fst snd]. now rewrite Nat.add_0_r.
  - cbn [Nat.add scan_subs]. destruct (scan_line p (line_y mag i k) s) as [s' o]. cbn [fst snd]. replace (k + S m1)%nat with (S k + m1)%nat by lia. destruct o as [[xl xr]|]; [|apply IH]. destruct (pt xl xr) as [add|]; cbn [rbind]; auto.
Qed.
(* the line through the middle of row i is line h of 2 h + 1 *)
Lemma middle_line h mag i k : mag = (2 * h + 1)%nat -> line_y mag i k = INR i <-> k = h.
Proof.
  intros ->. unfold line_y. assert (P : 0 <= INR h) by apply pos_INR. assert (E : INR (2 * h + 1) = 2 * INR h + 1) by (rewrite plus_INR, mult_INR; simpl; ring). rewrite E. split.
  - intros G. apply INR_eq. assert (K : (1 / 2 + INR k) / (2 * INR h + 1) = 1 / 2) by lra. apply (f_equal (fun q => q * (2 * INR h + 1))) in K. unfold Rdiv in K. rewrite Rmult_assoc, Rinv_l in K by lra. lra.
  - intros ->. field. lra.
Qed.
Lemma flat_image h mag n i0 a b p f : mag = (2 * h + 1)%nat -> v_n p = 4%nat -> (forall k, v_y p k = INR i0) -> v_x p 0%nat = a /\ v_x p 1%nat = a /\ v_x p 2%nat = b /\ v_x p 3%nat = b -> a <= b -> (i0 + 1 <= n)%nat ->
  paint_rect n mag a b = Ok f ->
  forall dark, exists m, fill (paint_rect n mag) (fun hi => if (Z.of_nat n <=? hi + 1)%Z then Z.of_nat n else (hi + 1)%Z) n mag dark p = Ok m /\ frows m = n /\ fcols m = n /\
    forall j, fpx m i0 j = if dark then 1 - (0 + f j) / (INR mag * INR mag) else (0 + f j) / (INR mag * INR mag).
Proof.
  intros HM HN HY HX AB Hi PT dark. unfold fill. rewrite (flat_min _ _ HN HY), (flat_max _ _ HN HY).
  assert (Z0 : ZnearestE (INR i0) = Z.of_nat i0) by (rewrite INR_IZR_INZ; apply ZnearestE_IZR). rewrite Z0. destruct (Z.of_nat i0 <? 0)%Z eqn:L0; [apply Z.ltb_lt in L0; lia|].
  assert (T : Z.to_nat ((if (Z.of_nat n <=? Z.of_nat i0 + 1)%Z then Z.of_nat n else (Z.of_nat i0 + 1)%Z) - Z.of_nat i0) = 1%nat) by (destruct (Z.leb_spec (Z.of_nat n) (Z.of_nat i0 + 1)); lia). rewrite T, Nat2Z.id. cbn [scan_rows].
  assert (SS : scan_subs (paint_rect n mag) p mag i0 0 mag (start p) (fun _ => 0) = Ok (mkch 1 2 3 2, fun j => 0 + f j)).
  { replace mag with (h + (1 + h))%nat at 3 by lia. rewrite scan_subs_app. rewrite (flat_subs _ _ HN HY). 2:{ intros q Q E. apply (middle_line h mag) in E; lia. }
    cbn [rbind fst snd Nat.add]. cbn [scan_subs]. rewrite (proj2 (middle_line h mag i0 h HM) eq_refl). rewrite (flat_hit a b _ _ HN HY HX AB). cbn [snd fst]. rewrite PT. cbn [rbind].
    apply (flat_subs _ _ HN HY). intros q Q E. apply (middle_line h mag) in E; lia. }
  rewrite SS. cbn [rbind snd fst]. eexists. split; [reflexivity|]. split; [reflexivity|]. split; [reflexivity|]. intros j. cbn [fpx]. cbv zeta. rewrite Nat.eqb_refl. reflexivity.
Qed.
Lemma paint_mid n mag c L f j : 0 < L -> (c < j < n)%nat -> INR j + 1 / 2 < INR c + L -> paint_rect n mag (INR c) (INR c + L) = Ok f -> f j = INR mag.
Proof.
  intros LP Hj B PT.
  unfold paint_rect in PT. cbv zeta in PT. assert (Z0 : ZnearestE (INR c) = Z.of_nat c) by (rewrite INR_IZR_INZ; apply ZnearestE_IZR). rewrite Z0 in PT. injection PT as <-. assert (G : (Z.of_nat j < ZnearestE (INR c + L))%Z).
      { apply Z.lt_le_trans with (Z.of_nat j + 1)%Z; [lia|]. apply near_ge. rewrite plus_IZR, <- INR_IZR_INZ. lra. }
      set (r := ZnearestE (INR c + L)) in *. assert (T1 : (Z.of_nat c =? r)%Z = false) by (apply Z.eqb_neq; lia). rewrite T1. cbn [negb]. assert (T2 : (Z.of_nat j =? Z.of_nat c)%Z = false) by (apply Z.eqb_neq; lia). assert (T3 : (Z.of_nat j =? r)%Z = false) by (apply Z.eqb_neq; lia). rewrite T2, T3, !andb_false_r.
      assert (T4 : (1 <? r - Z.of_nat c)%Z = true) by (apply Z.ltb_lt; lia). assert (T5 : (Z.of_nat c + 1 <? Z.of_nat n)%Z = true) by (apply Z.ltb_lt; lia). assert (T6 : (0 <? r)%Z = true) by (apply Z.ltb_lt; lia). rewrite T4, T5, T6. assert (T7 : (Z.of_nat c + 1 <? 0)%Z = false) by (apply Z.ltb_ge; lia). rewrite T7.
      assert (T8 : (Z.of_nat c + 1 <=? Z.of_nat j)%Z = true) by (apply Z.leb_le; lia). assert (T9 : (Z.of_nat j <? (if (Z.of_nat n <? r)%Z then Z.of_nat n else r))%Z = true) by (apply Z.ltb_lt; destruct (Z.of_nat n <? r)%Z; lia). rewrite T8, T9. cbn [andb b2r]. ring.
Qed.
Lemma zero_rectangle w : 0 < w_dx w -> (2 <= w_n w)%nat -> exists m, prop_rectangle 101 w (mkrp (6 / 10) 0 (Some (3 / 10)) (Some 0) 0 false true) = Ok m /\ frows m = w_n w /\ fcols m = w_n w /\
  forall j, (w_n w / 2 < j < w_n w)%nat -> INR j + 1 / 2 < INR (w_n w / 2) + 6 / 10 / w_dx w -> fpx m (w_n w / 2) j = 100 / 101.
Proof.
  intros D N. unfold prop_rectangle, get_sampling. destruct (Req_EM_T (w_dx w) 0) as [|NZ]; [lra|]. cbv zeta. cbn [r_dark].
  set (n := w_n w) in *. set (c := (n / 2)%nat). assert (CN : (c + 1 <= n)%nat) by (unfold c; pose proof (Nat.div_lt n 2 ltac:(lia) ltac:(lia)); lia). set (L := 6 / 10 / w_dx w).
  assert (LP : 0 < L) by (unfold L; apply Rdiv_lt_0_compat; lra).
  set (p := rect_poly w _). assert (HY : forall k, v_y p k = INR c).
  { intros k. unfold p, rect_poly. cbn [v_y r_norm r_xc r_yc r_xsize r_ysize r_rot]. cbv zeta. unfold ocpix, to_pix, get_sampling. fold n. fold c. replace (0 * PI / 180) with 0 by (unfold Rdiv; ring). rewrite cos_0, sin_0. replace (1 / 2 * (0 / w_dx w)) with 0 by (unfold Rdiv; ring). unfold rcy. destruct k as [|[|[|k]]]; unfold Rdiv; ring. }
  assert (HX : v_x p 0%nat = INR c /\ v_x p 1%nat = INR c /\ v_x p 2%nat = INR c + L /\ v_x p 3%nat = INR c + L).
  { unfold p, rect_poly. cbn [v_x r_norm r_xc r_yc r_xsize r_ysize r_rot]. cbv zeta. unfold ocpix, to_pix, get_sampling. fold n. fold c. replace (0 * PI / 180) with 0 by (unfold Rdiv; ring). rewrite cos_0, sin_0. unfold rcx, rcy, L. split; [|split; [|split]]; field; lra. }
  assert (EX : exists f, paint_rect n 101 (INR c) (INR c + L) = Ok f) by (eexists; reflexivity). destruct EX as (f & PT).
  destruct (flat_image 50 101 n c (INR c) (INR c + L) p f eq_refl eq_refl HY HX ltac:(lra) CN PT true) as (m & E & M1 & M2 & V). exists m. split; [exact E|]. split; auto. split; auto. intros j Hj B. rewrite V.
  replace (f j) with (INR 101).
  2:{ symmetry. apply (paint_mid n 101 c L f j LP Hj B PT). }
  rewrite (INR_IZR_INZ 101). change (IZR (Z.of_nat 101)) with 101. field.
Qed.
