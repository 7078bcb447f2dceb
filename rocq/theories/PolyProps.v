(* Theorems for C104: prop_irregular_polygon of a convex polygon *)
From Coquelicot Require Import Coquelicot.
From Verif Require Import UtilProofs.
From Verif Require Import Base StrBase RBase CBase PropModel PrpModel DmSurfProofs2 EllProofs ApModel ApSpec ApProofs ApProofs2 RectModel RectSpec RectProofs RectProofs2 RectProofs3 RectProofs4 RectProofs5 RectProps PolySpec PolyProofs PolyProofs2 PolyProofs3 PolyProofs4.
Open Scope R_scope.
(* every pixel that is not in a cut last column: the mean over mag lines of the length of the polygon's section; DARK complements it *)
Theorem C104_value mag w p norm dark : (1 <= mag)%nat -> 0 < w_dx w -> convex (w_n w) mag (w_dx w) (in_metres w norm p) -> poly_meets (w_n w) (w_dx w) (in_metres w norm p) ->
  exists m, prop_irregular_polygon mag w p norm dark = Ok m /\ frows m = w_n w /\ fcols m = w_n w /\ forall i j, (i < w_n w)%nat -> (j < w_n w)%nat -> not_cut (w_n w) (w_dx w) (in_metres w norm p) j ->
    exists v, poly_mean (w_n w) mag (w_dx w) (in_metres w norm p) i j v /\ fpx m i j = if dark then 1 - v else v.
Proof. apply polygon_ok. Qed.
Print Assumptions C104_value.
Theorem C104_one_value n mag dx p i j v v' : poly_mean n mag dx p i j v -> poly_mean n mag dx p i j v' -> v = v'.
Proof. intros [a [A ->]] [b [B ->]]. f_equal. apply rsum_ext. intros k K. apply (has_length_unique _ _ _ (A k K) (B k K)). Qed.
Print Assumptions C104_one_value.
(* from 0 to 1; 1 on pixels wholly in the polygon, 0 on pixels wholly out of it *)
Theorem C104_range n mag dx p i j v : (1 <= mag)%nat -> poly_mean n mag dx p i j v ->
  let all P := forall x y, INR j - 1 / 2 <= x <= INR j + 1 / 2 -> INR i - 1 / 2 <= y <= INR i + 1 / 2 -> P (metres n dx x) (metres n dx y) : Prop in
  0 <= v <= 1 /\ (all (in_hull p) -> v = 1) /\ (all (fun X Y => ~ in_hull p X Y) -> v = 0).
Proof.
  intros Hm [a [A ->]] all. assert (M : 0 < INR mag) by (apply lt_0_INR; lia). split; [|split].
  - assert (B : INR mag * 0 <= rsum mag a <= INR mag * 1). { apply rsum_bounds. intros k K. destruct (A k K) as [[_ ->]|[x [y [H [-> G]]]]]; [lra|]. pose proof (proj1 (proj2 (G x) ltac:(lra))). pose proof (proj1 (proj2 (G y) ltac:(lra))). lra. }
    destruct (div_between (rsum mag a) 1 (INR mag) M) as [U _]. destruct (div_between (rsum mag a) 0 (INR mag) M) as [_ V]. split; [apply V|apply U]; lra.
  - intros F. rewrite (rsum_ext mag a (fun _ => 1)); [rewrite rsum_const; field; lra|]. intros k K. apply (has_length_unique _ _ _ (A k K)).
    right. exists (INR j - 1 / 2), (INR j + 1 / 2). split; [lra|]. split; [lra|]. intros u. unfold poly_section. split; [tauto|]. intros U. split; auto. apply F; auto. pose proof (row_pos mag k K). lra.
  - intros F. rewrite (rsum_zero mag a); [unfold Rdiv; ring|]. intros k K. apply (has_length_unique _ _ _ (A k K)). left. split; auto. intros u [U G]. apply (F u (INR i - 1 / 2 + (INR k + 1 / 2) / INR mag)); auto. pose proof (row_pos mag k K). lra.
Qed.
Print Assumptions C104_range.
(* polygons of the same hull, in any order of the vertices and from any first vertex, give the same pixels *)
Theorem C104_same_hull mag w p q norm dark : (1 <= mag)%nat -> 0 < w_dx w -> convex (w_n w) mag (w_dx w) (in_metres w norm p) -> convex (w_n w) mag (w_dx w) (in_metres w norm q) ->
  poly_meets (w_n w) (w_dx w) (in_metres w norm p) -> (forall X Y, in_hull (in_metres w norm p) X Y <-> in_hull (in_metres w norm q) X Y) ->
  exists m m', prop_irregular_polygon mag w p norm dark = Ok m /\ prop_irregular_polygon mag w q norm dark = Ok m' /\
    forall i j, (i < w_n w)%nat -> (j < w_n w)%nat -> not_cut (w_n w) (w_dx w) (in_metres w norm p) j -> fpx m i j = fpx m' i j.
Proof.
  intros M D C1 C2 ME H. assert (ME' : poly_meets (w_n w) (w_dx w) (in_metres w norm q)). { intros u v Hv G. apply H in G. destruct (ME u v Hv G) as (u' & U & G'). exists u'. split; auto. now apply H. }
  destruct (polygon_ok mag w p norm dark M D C1 ME) as (m & E & _ & _ & V). destruct (polygon_ok mag w q norm dark M D C2 ME') as (m' & E' & _ & _ & V'). exists m, m'. split; auto. split; auto. intros i j Hi Hj NC.
  assert (NC' : not_cut (w_n w) (w_dx w) (in_metres w norm q) j) by (destruct NC as [NC|NC]; [now left|right; intros u v G; apply (NC u v), H, G]).
  destruct (V i j Hi Hj NC) as (v & [a [A Ev]] & ->). destruct (V' i j Hi Hj NC') as (v' & [b [B Ev']] & ->). assert (v = v') as ->; [|reflexivity]. rewrite Ev, Ev'. f_equal. apply rsum_ext. intros k K.
  apply (has_length_unique _ _ _ (A k K)). eapply has_length_ext; [|apply (B k K)]. intros u. unfold poly_section. now rewrite H.
Qed.
Print Assumptions C104_same_hull.
(* DARK *)
Theorem C104_dark mag w p norm : (1 <= mag)%nat -> 0 < w_dx w -> convex (w_n w) mag (w_dx w) (in_metres w norm p) -> poly_meets (w_n w) (w_dx w) (in_metres w norm p) ->
  exists m d, prop_irregular_polygon mag w p norm false = Ok m /\ prop_irregular_polygon mag w p norm true = Ok d /\ forall i j, (i < w_n w)%nat -> (j < w_n w)%nat -> fpx m i j + fpx d i j = 1.
Proof.
  intros M D C ME. destruct (polygon_ok mag w p norm false M D C ME) as (m & E & _). destruct (polygon_ok mag w p norm true M D C ME) as (d & F & _). exists m, d. split; auto. split; auto. intros i j _ _.
  unfold prop_irregular_polygon, fill in E, F. destruct (Req_EM_T (get_sampling w) 0); [discriminate|]. destruct (v_n p <? 3)%nat; [discriminate|]. cbv zeta in E, F.
  destruct (scan_rows _ _ _ _ _ _ _) as [img|]; [|discriminate]. cbn [rbind] in E, F. injection E as <-. injection F as <-. cbn [fpx]. ring.
Qed.
Print Assumptions C104_dark.
(* fewer than three vertices *)
Theorem C104_few mag w p norm dark : w_dx w <> 0 -> (v_n p < 3)%nat -> prop_irregular_polygon mag w p norm dark = Raise IndexError.
Proof. intros D H. unfold prop_irregular_polygon, get_sampling. destruct (Req_EM_T (w_dx w) 0); [contradiction|]. destruct (Nat.ltb_spec (v_n p) 3); [reflexivity|lia]. Qed.
Print Assumptions C104_few.
(* a house of five vertices, clockwise from its lower left corner *)
Definition house : poly := mkpoly 5 (fun k => match k with 0%nat => -10 | 1%nat => -10 | 2%nat => 0 | 3%nat => 10 | _ => 10 end) (fun k => match k with 0%nat => -10 | 1%nat => 5 | 2%nat => 12 | 3%nat => 5 | _ => -10 end).
Lemma five (P : nat -> Prop) : P 0%nat -> P 1%nat -> P 2%nat -> P 3%nat -> P 4%nat -> forall k, (k < 5)%nat -> P k.
Proof. intros. destruct k as [|[|[|[|[|k]]]]]; auto; lia. Qed.
Lemma house_in_metres w : in_metres w false house = house.
Proof. unfold in_metres, len. reflexivity. Qed.
Lemma house_convex mag : (1 <= mag)%nat -> convex 64 mag 1 house.
Proof.
  intros M. split; [cbn; lia|]. left. assert (IM : 0 < INR mag) by (apply lt_0_INR; lia). assert (M1 : 1 <= INR mag) by (apply (le_INR 1) in M; simpl in M; lra).
  assert (G : 0 < / INR mag <= 1) by (split; [now apply Rinv_0_lt_compat|rewrite <- Rinv_1; apply Rinv_le_contravar; lra]).
  assert (FL : first_line 64 mag 1 <= -30). { unfold first_line, metres. change (64 / 2)%nat with 32%nat. rewrite (INR_IZR_INZ 32). change (IZR (Z.of_nat 32)) with 32. replace (1 / 2 / INR mag) with (/ 2 * / INR mag) by (field; lra). lra. }
  split.
  - intros k m K N. revert m N. revert k K. refine (five _ _ _ _ _ _); refine (five _ _ _ _ _ _); unfold side, forth; cbn; lra.
  - exists 0%nat, 12, 2%nat, 3%nat. split; [|split; [|split; [|split]]].
    + split; [cbn; lia|]. refine (five _ _ _ _ _ _); cbn; [right; split; [reflexivity|right; split; [reflexivity|lia]]|left; lra|left; lra|left; lra|right; split; [reflexivity|left; lra]].
    + cbn; lra.
    + refine (five _ _ _ _ _ _); cbn; lra.
    + split; [lia|]. split; [cbn; lra|]. split; [|split; [cbn; lra|intros _; cbn; lra]]. intros k K. assert (k = 1%nat) as -> by lia. unfold gap_of, forth. replace (1 / INR mag) with (/ INR mag) by (field; lra). cbn. lra.
    + split; [lia|]. split; [cbn; lra|]. split; [|split; [cbn; lra|intros _; cbn; lra]]. intros k K. assert (k = 1%nat \/ k = 2%nat) as [-> | ->] by lia; unfold gap_of, back; (replace (1 / INR mag) with (/ INR mag) by (field; lra)); cbn; lra.
Qed.
Lemma house_meets : poly_meets 64 1 house.
Proof.
  intros u v Hv G. exists u. split; auto.
  assert (A : 1 * metres 64 1 u + 0 * metres 64 1 v <= 10) by (apply (hull_half house _ _ 1 0 10 G); refine (five _ _ _ _ _ _); cbn; lra).
  assert (B : -1 * metres 64 1 u + 0 * metres 64 1 v <= 10) by (apply (hull_half house _ _ (-1) 0 10 G); refine (five _ _ _ _ _ _); cbn; lra).
  unfold metres in A, B. change (64 / 2)%nat with 32%nat in *. rewrite !INR_IZR_INZ in *. change (IZR (Z.of_nat 32)) with 32 in *. change (IZR (Z.of_nat 64)) with 64. lra.
Qed.
Theorem C104_example : exists w m, w_n w = 64%nat /\ w_dx w = 1 /\ convex 64 101 1 house /\ poly_meets 64 1 house /\ prop_irregular_polygon 101 w house false false = Ok m /\ fpx m 32 32 = 1 /\ fpx m 50 32 = 0.
Proof.
  destruct (prop_begin 64 1 64 1) as [w|] eqn:E; [|unfold prop_begin in E; destruct (Req_EM_T 1 0); [lra|]; destruct (Req_EM_T (INR 64 * 1) 0) as [Z|]; [simpl in Z; lra|discriminate]].
  assert (Hw : w_n w = 64%nat /\ w_dx w = 1). { unfold prop_begin in E. destruct (Req_EM_T 1 0); [lra|]. destruct (Req_EM_T (INR 64 * 1) 0); [discriminate|]. injection E as <-. cbn [w_n w_dx]. split; [reflexivity|]. simpl. field. }
  destruct Hw as [Hn Hd]. assert (C := house_convex 101 ltac:(lia)). destruct (polygon_ok 101 w house false false) as (m & Em & _ & _ & V); rewrite ?Hn, ?Hd, ?house_in_metres; auto; [lia|lra|apply house_meets|].
  exists w, m. do 2 (split; [assumption|]). split; [exact C|]. split; [apply house_meets|]. split; [exact Em|]. rewrite Hn, Hd, house_in_metres in V.
  assert (N32 : INR 32 = 32) by (rewrite INR_IZR_INZ; reflexivity). assert (N50 : INR 50 = 50) by (rewrite INR_IZR_INZ; reflexivity).
  split.
  - destruct (V 32%nat 32%nat ltac:(lia) ltac:(lia) ltac:(left; lia)) as (v & PM & ->). apply (C104_range 64 101 1 house 32 32 v ltac:(lia) PM). intros x y Hx Hy. rewrite N32 in Hx, Hy.
    assert (EM : forall t, metres 64 1 t = t - 32) by (intros t; unfold metres; change (64 / 2)%nat with 32%nat; rewrite N32; ring). rewrite !EM.
    apply (hull_segment house (-10) 10); [| |lra].
    + pose proof (hull_mix house _ _ _ _ ((y - 32 + 10) / 15) ltac:(lra) (hull_vertex house 0 ltac:(cbn; lia)) (hull_vertex house 1 ltac:(cbn; lia))) as Q. cbn in Q.
      match type of Q with in_hull _ ?a ?b => replace a with (-10) in Q by lra; replace b with (y - 32) in Q by lra end. exact Q.
    + pose proof (hull_mix house _ _ _ _ ((y - 32 + 10) / 15) ltac:(lra) (hull_vertex house 4 ltac:(cbn; lia)) (hull_vertex house 3 ltac:(cbn; lia))) as Q. cbn in Q.
      match type of Q with in_hull _ ?a ?b => replace a with 10 in Q by lra; replace b with (y - 32) in Q by lra end. exact Q.
  - destruct (V 50%nat 32%nat ltac:(lia) ltac:(lia) ltac:(left; lia)) as (v & PM & ->). apply (C104_range 64 101 1 house 50 32 v ltac:(lia) PM). intros x y Hx Hy G. rewrite N50 in Hy.
    assert (B : -10 <= metres 64 1 y <= 12) by (apply (hull_y house _ _ _ _ G); refine (five _ _ _ _ _ _); cbn; lra). unfold metres in B. change (64 / 2)%nat with 32%nat in B. rewrite N32 in B. lra.
Qed.
Print Assumptions C104_example.
(* closed, as the documentation asks: the first vertex again as the last one, here the highest; the same pixels *)
Definition closed_house : poly := mkpoly 6 (fun k => match k with 0%nat => 0 | 1%nat => 10 | 2%nat => 10 | 3%nat => -10 | 4%nat => -10 | _ => 0 end)
  (fun k => match k with 0%nat => 12 | 1%nat => 5 | 2%nat => -10 | 3%nat => -10 | 4%nat => 5 | _ => 12 end).
Lemma six (P : nat -> Prop) : P 0%nat -> P 1%nat -> P 2%nat -> P 3%nat -> P 4%nat -> P 5%nat -> forall k, (k < 6)%nat -> P k.
Proof. intros. destruct k as [|[|[|[|[|[|k]]]]]]; auto; lia. Qed.
Lemma closed_convex mag : (1 <= mag)%nat -> convex 64 mag 1 closed_house.
Proof.
  intros M. split; [cbn; lia|]. left. assert (IM : 0 < INR mag) by (apply lt_0_INR; lia). assert (M1 : 1 <= INR mag) by (apply (le_INR 1) in M; simpl in M; lra).
  assert (G : 0 < / INR mag <= 1) by (split; [now apply Rinv_0_lt_compat|rewrite <- Rinv_1; apply Rinv_le_contravar; lra]).
  assert (FL : first_line 64 mag 1 <= -30). { unfold first_line, metres. change (64 / 2)%nat with 32%nat. rewrite (INR_IZR_INZ 32). change (IZR (Z.of_nat 32)) with 32. replace (1 / 2 / INR mag) with (/ 2 * / INR mag) by (field; lra). lra. }
  split.
  - intros k m K N. revert m N. revert k K. refine (six _ _ _ _ _ _ _); refine (six _ _ _ _ _ _ _); unfold side, forth; cbn; lra.
  - exists 3%nat, 12, 2%nat, 3%nat. split; [|split; [|split; [|split]]].
    + split; [cbn; lia|]. refine (six _ _ _ _ _ _ _); cbn; [left; lra|left; lra|right; split; [reflexivity|left; lra]|right; split; [reflexivity|right; split; [reflexivity|lia]]|left; lra|left; lra].
    + cbn; lra.
    + refine (six _ _ _ _ _ _ _); cbn; lra.
    + split; [lia|]. split; [cbn; lra|]. split; [|split; [cbn; lra|intros _; cbn; lra]]. intros k K. assert (k = 1%nat) as -> by lia. unfold gap_of, forth. replace (1 / INR mag) with (/ INR mag) by (field; lra). cbn. lra.
    + split; [lia|]. split; [cbn; lra|]. split; [|split; [cbn; lra|intros _; cbn; lra]]. intros k K. assert (k = 1%nat \/ k = 2%nat) as [-> | ->] by lia; unfold gap_of, back; (replace (1 / INR mag) with (/ INR mag) by (field; lra)); cbn; lra.
Qed.
Lemma closed_hull X Y : in_hull house X Y <-> in_hull closed_house X Y.
Proof.
  split; intros (wt & W1 & W2 & W3 & W4); cbn [house closed_house v_n v_x v_y] in *.
  - exists (fun k => match k with 0%nat => wt 2%nat | 1%nat => wt 3%nat | 2%nat => wt 4%nat | 3%nat => wt 0%nat | 4%nat => wt 1%nat | _ => 0 end). cbn [closed_house v_n v_x v_y]. split; [refine (six _ _ _ _ _ _ _); try (apply W1; lia); lra|]. cbn [rsum] in *. lra.
  - exists (fun k => match k with 0%nat => wt 3%nat | 1%nat => wt 4%nat | 2%nat => wt 0%nat + wt 5%nat | 3%nat => wt 1%nat | _ => wt 2%nat end). cbn [house v_n v_x v_y]. split; [refine (five _ _ _ _ _ _); try (apply W1; lia); pose proof (W1 0%nat ltac:(lia)); pose proof (W1 5%nat ltac:(lia)); lra|]. cbn [rsum] in *. lra.
Qed.
Theorem C104_closed_example mag w dark : (1 <= mag)%nat -> w_n w = 64%nat -> w_dx w = 1 -> exists m m', prop_irregular_polygon mag w house false dark = Ok m /\ prop_irregular_polygon mag w closed_house false dark = Ok m' /\
  forall i j, (i < 64)%nat -> (S j < 64)%nat -> fpx m i j = fpx m' i j.
Proof.
  intros M Hn Hd. destruct (C104_same_hull mag w house closed_house false dark M) as (m & m' & E & E' & V); rewrite ?Hn, ?Hd, ?house_in_metres; [lra|now apply house_convex|now apply closed_convex|apply house_meets|apply closed_hull|].
  exists m, m'. split; auto. split; auto. intros i j Hi Hj. rewrite Hn in V. apply V; [lia|lia|left; lia].
Qed.
Print Assumptions C104_closed_example.
(* refuted: an anticlockwise square, the middle of its first side being a vertex: nothing is painted inside *)
Definition lined_square : poly := mkpoly 5 (fun k => match k with 0%nat => -10 | 1%nat => 0 | 2%nat => 10 | 3%nat => 10 | _ => -10 end) (fun k => match k with 0%nat => -10 | 1%nat => -10 | 2%nat => -10 | _ => 10 end).
Definition lined_pix : poly := mkpoly 5 (fun k => match k with 0%nat => 22 | 1%nat => 32 | 2%nat => 42 | 3%nat => 42 | _ => 22 end) (fun k => match k with 0%nat => 22 | 1%nat => 22 | 2%nat => 22 | _ => 42 end).
Lemma lined_is w : w_n w = 64%nat -> w_dx w = 1 -> polygon_pix w false lined_square = lined_pix.
Proof.
  intros Hn Hd. unfold polygon_pix. cbn [lined_square v_x v_y v_n]. destruct (Rlt_dec 0 _) as [G|_]; [lra|]. unfold to_pix, get_sampling, lined_pix. rewrite Hn, Hd. change (64 / 2)%nat with 32%nat. rewrite (INR_IZR_INZ 32). change (IZR (Z.of_nat 32)) with 32.
  f_equal; apply FunctionalExtensionality.functional_extensionality; intros k; destruct k as [|[|[|[|k]]]]; lra.
Qed.
Lemma lined_start : start lined_pix = mkch 0 1 0 4.
Proof.
  unfold start. rewrite (lowest_is lined_pix 0); [reflexivity|]. split; [cbn; lia|]. refine (five _ _ _ _ _ _); cbn; [right; split; [reflexivity|right; split; [reflexivity|lia]]|right; split; [reflexivity|left; lra]|right; split; [reflexivity|left; lra]|left; lra|left; lra].
Qed.
Definition lined_inv (gap y : R) (s : chains) : Prop :=
  (s = mkch 0 1 0 4 /\ y < 22 + gap) \/ (s = mkch 1 2 0 4 /\ y < 22 + 2 * gap) \/ (s = mkch 2 3 0 4) \/ 42 < y.
Definition lined_ends (gap y xl xr : R) : Prop := xr = 22 /\ ((y < 22 + gap /\ xl = 32) \/ xl = 42).
Lemma lined_line gap s y y' : 0 < gap <= 1 -> lined_inv gap y s -> y < y' <= y + gap ->
  lined_inv gap y' (fst (scan_line lined_pix y s)) /\
  (22 <= y <= 42 -> exists xl xr, snd (scan_line lined_pix y s) = Some (xl, xr) /\ lined_ends gap y xl xr) /\
  (~ 22 <= y <= 42 -> snd (scan_line lined_pix y s) = None).
Proof.
  intros G I0 Y. assert (MX : lmax (v_y lined_pix) (v_n lined_pix) = 42) by (change (lmax (v_y lined_pix) 5 = v_y lined_pix 3); apply lmax_is; [lia|]; refine (five _ _ _ _ _ _); cbn; lra).
  unfold scan_line. rewrite MX.
  destruct (Rlt_dec 42 y) as [T|T].
  { assert (E : (if Rlt_dec y (v_y lined_pix (h_l s)) then (s, @None (R * R)) else (s, None)) = (s, None)) by (destruct (Rlt_dec y (v_y lined_pix (h_l s))); reflexivity). rewrite E. cbn [fst snd]. split; [right; right; right; lra|]. split; [lra|auto]. }
  destruct I0 as [[-> L]|[[-> L]|[-> |L]]]; [| | |contradiction]; cbn [h_l h_ln h_r h_rn]; match goal with |- context [Rlt_dec y ?a] => change a with 22 end;
    (destruct (Rlt_dec y 22) as [B|B]; [cbn [fst snd]; split; [unfold lined_inv|split; [lra|auto]]|]).
  - left. split; [reflexivity|lra].
  - unfold advance. cbn [h_l h_ln h_r h_rn]. match goal with |- context [Rle_dec ?a y] => change a with 22 end. destruct (Rle_dec 22 y) as [_|?]; [|lra]. change (v_y lined_pix 4) with 42. destruct (Rle_dec 42 y) as [?|_]; [lra|].
    change (vnext (v_n lined_pix) 1) with 2%nat. cbn [fst snd]. cbn [h_l h_ln h_r h_rn]. split; [right; left; split; [reflexivity|lra]|]. split; [|lra]. intros _. eexists. eexists. split; [reflexivity|].
    unfold crossing, lined_ends. cbn [lined_pix v_x v_y]. destruct (Req_EM_T (22 - 22) 0) as [_|?]; [|lra]. destruct (Req_EM_T (42 - 22) 0) as [?|_]; [lra|]. split; [lra|left; split; [lra|reflexivity]].
  - right. left. split; [reflexivity|lra].
  - unfold advance. cbn [h_l h_ln h_r h_rn]. match goal with |- context [Rle_dec ?a y] => change a with 22 end. destruct (Rle_dec 22 y) as [_|?]; [|lra]. change (v_y lined_pix 4) with 42.
    change (vnext (v_n lined_pix) 2) with 3%nat. cbn [fst snd]. cbn [h_l h_ln h_r h_rn]. destruct (Rle_dec 42 y) as [Q|Q]; cbn [fst snd].
    + split; [right; right; right; lra|]. split; [|lra]. intros _. eexists. eexists. split; [reflexivity|]. change (vprev (v_n lined_pix) 4) with 3%nat. unfold crossing, lined_ends. cbn [lined_pix v_x v_y]. destruct (Req_EM_T (42 - 22) 0) as [?|_]; [lra|]. destruct (Req_EM_T (42 - 42) 0) as [_|?]; [|lra]. split; [lra|right; lra].
    + split; [right; right; left; reflexivity|]. split; [|lra]. intros _. eexists. eexists. split; [reflexivity|]. unfold crossing, lined_ends. cbn [lined_pix v_x v_y]. destruct (Req_EM_T (42 - 22) 0) as [?|_]; [lra|]. split; [lra|right; lra].
  - right. right. left. reflexivity.
  - unfold advance. cbn [h_l h_ln h_r h_rn]. change (v_y lined_pix 3) with 42. change (v_y lined_pix 4) with 42. destruct (Rle_dec 42 y) as [Q|Q]; cbn [fst snd]; cbn [h_l h_ln h_r h_rn].
    + split; [right; right; right; lra|]. split; [|lra]. intros _. eexists. eexists. split; [reflexivity|]. change (vprev (v_n lined_pix) 4) with 3%nat. change (vnext (v_n lined_pix) 3) with 4%nat. unfold crossing, lined_ends. cbn [lined_pix v_x v_y]. destruct (Req_EM_T (42 - 42) 0) as [_|?]; [|lra]. split; [lra|right; lra].
    + split; [right; right; left; reflexivity|]. split; [|lra]. intros _. eexists. eexists. split; [reflexivity|]. unfold crossing, lined_ends. cbn [lined_pix v_x v_y]. destruct (Req_EM_T (42 - 22) 0) as [?|_]; [lra|]. split; [lra|right; lra].
Qed.
Theorem C104_collinear_refuted mag w : (1 <= mag)%nat -> w_n w = 64%nat -> w_dx w = 1 -> exists m, prop_irregular_polygon mag w lined_square false false = Ok m /\
  forall i j, (23 <= i <= 41)%nat -> (23 <= j <= 41)%nat -> fpx m i j = 0 /\
    forall x y, INR j - 1 / 2 <= x <= INR j + 1 / 2 -> INR i - 1 / 2 <= y <= INR i + 1 / 2 -> in_hull (in_metres w false lined_square) (metres 64 1 x) (metres 64 1 y).
Proof.
  intros M Hn Hd. assert (IM : 0 < INR mag) by (apply lt_0_INR; lia). assert (M1 : 1 <= INR mag) by (apply (le_INR 1) in M; simpl in M; lra).
  assert (G : 0 < / INR mag <= 1) by (split; [now apply Rinv_0_lt_compat|rewrite <- Rinv_1; apply Rinv_le_contravar; lra]).
  unfold prop_irregular_polygon, get_sampling. rewrite Hd. destruct (Req_EM_T 1 0) as [?|_]; [lra|]. change (v_n lined_square) with 5%nat. cbn [Nat.ltb Nat.leb]. cbv zeta. rewrite lined_is, Hn by auto.
  destruct (fill_gen lined_pix 22 42 (lined_inv (/ INR mag)) 64 mag (paint_irregular 64 mag) false (fun hi => if (Z.of_nat 64 <? hi + 1)%Z then Z.of_nat 64 else (hi + 1)%Z) (lined_ends (/ INR mag))
    (fun y j v => 22 + / INR mag <= y -> j <> 22%nat -> j <> 42%nat -> v = 0) M) as (m & E & _ & _ & V).
  - apply (lmin_is (v_y lined_pix) 5 0); [lia|]. refine (five _ _ _ _ _ _); cbn; lra.
  - apply (lmax_is (v_y lined_pix) 5 3); [lia|]. refine (five _ _ _ _ _ _); cbn; lra.
  - intros s y y' I0 Y. now apply lined_line.
  - intros L. pose proof (line_y_in mag 0 0 ltac:(lia)). simpl (INR 0) in *. lra.
  - intros y Y. rewrite lined_start. left. split; [reflexivity|lra].
  - intros y xl xr _ _ [-> X]. assert (N22 : ZnearestE 22 = 22%Z) by (apply (ZnearestE_IZR 22)). assert (N32 : ZnearestE 32 = 32%Z) by (apply (ZnearestE_IZR 32)). assert (N42 : ZnearestE 42 = 42%Z) by (apply (ZnearestE_IZR 42)).
    unfold paint_irregular. cbv zeta. destruct X as [[Y ->]| ->]; rewrite N22, ?N32, ?N42; cbn [Z.eqb Pos.eqb negb Z.leb Z.compare Pos.compare Pos.compare_cont Z.ltb Z.of_nat Pos.of_succ_nat Pos.succ].
    + eexists. split; [reflexivity|]. intros j Hj. eexists. split; [match goal with |- ?z = _ => instantiate (1 := z / INR mag); field; lra end|]. intros Q0 _ _. exfalso. lra.
    + eexists. split; [reflexivity|]. intros j Hj. eexists. split; [match goal with |- ?z = _ => instantiate (1 := z / INR mag); field; lra end|].
      intros _ J1 J2. cbn. replace (j =? Pos.to_nat 42)%nat with false by (symmetry; now apply Nat.eqb_neq). replace (j =? Pos.to_nat 22)%nat with false by (symmetry; now apply Nat.eqb_neq). unfold b2r. field. lra.
  - intros; reflexivity.
  - intros hi. apply top_same.
  - exists m. split; [exact E|]. intros i j Hi Hj. split.
    + destruct (V i j ltac:(lia) ltac:(lia)) as (len & L & ->). cbv zeta. rewrite rsum_zero; [unfold Rdiv; ring|]. intros k K. apply (L k K); [|lia|lia].
      assert (C : line_y mag 23 0 <= line_y mag i k). { unfold line_y. assert (INR 23 <= INR i) by (apply le_INR; lia). pose proof (pos_INR k). simpl (INR 0). assert ((1 / 2 + 0) / INR mag <= (1 / 2 + INR k) / INR mag) by (apply Rmult_le_compat_r; lra). lra. }
      unfold line_y in C at 1. simpl (INR 0) in C. rewrite (INR_IZR_INZ 23) in C. change (IZR (Z.of_nat 23)) with 23 in C. replace ((1 / 2 + 0) / INR mag) with (/ 2 * / INR mag) in C by (field; lra).
      lra.
    + intros x y Hx Hy. replace (in_metres w false lined_square) with lined_square by reflexivity.
      assert (IB : 23 <= INR i <= 41) by (rewrite INR_IZR_INZ; split; [apply (IZR_le 23)|apply (IZR_le _ 41)]; lia). assert (JB : 23 <= INR j <= 41) by (rewrite INR_IZR_INZ; split; [apply (IZR_le 23)|apply (IZR_le _ 41)]; lia).
      assert (EM : forall t, metres 64 1 t = t - 32) by (intros t; unfold metres; change (64 / 2)%nat with 32%nat; rewrite (INR_IZR_INZ 32); change (IZR (Z.of_nat 32)) with 32; ring). rewrite !EM.
      apply (hull_segment lined_square (-10) 10); [| |lra].
      * pose proof (hull_mix lined_square _ _ _ _ ((y - 32 + 10) / 20) ltac:(lra) (hull_vertex lined_square 0 ltac:(cbn; lia)) (hull_vertex lined_square 4 ltac:(cbn; lia))) as Q. cbn in Q.
        match type of Q with in_hull _ ?a ?b => replace a with (-10) in Q by lra; replace b with (y - 32) in Q by lra end. exact Q.
      * pose proof (hull_mix lined_square _ _ _ _ ((y - 32 + 10) / 20) ltac:(lra) (hull_vertex lined_square 2 ltac:(cbn; lia)) (hull_vertex lined_square 3 ltac:(cbn; lia))) as Q. cbn in Q.
        match type of Q with in_hull _ ?a ?b => replace a with 10 in Q by lra; replace b with (y - 32) in Q by lra end. exact Q.
Qed.
Print Assumptions C104_collinear_refuted.
Theorem C104_collinear_example : exists w, w_n w = 64%nat /\ w_dx w = 1 /\ exists m, prop_irregular_polygon 101 w lined_square false false = Ok m /\ fpx m 32 32 = 0.
Proof.
  destruct C104_example as (w & _ & Hn & Hd & _). exists w. split; auto. split; auto. destruct (C104_collinear_refuted 101 w ltac:(lia) Hn Hd) as (m & E & V). exists m. split; auto. apply (V 32%nat 32%nat); lia.
Qed.
Print Assumptions C104_collinear_example.
