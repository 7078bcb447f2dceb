(* C103: pupils with a central obscuration and struts *)
From Coquelicot Require Import Coquelicot.
From Coq Require Import Permutation.
From Verif Require Import Base StrBase RBase UtilModel UtilSpec UtilProofs CBase PropModel PropProofs OptModel PrpModel EllModel EllSpec EllProofs EllProps ApModel ApSpec ApProofs ApProofs3 EstModel EstProofs2 RectModel RectSpec RectProofs RectProofs2 RectProofs4 RectProps SimpModel SimpSpec SimpProofs SimpProofs2 SimpProofs3 SimpProofs4.
Open Scope R_scope.
(* every pixel is the fraction of its 101 x 101 samples in the outer ellipse, times that out of the inner one, times the part of it that each strut leaves *)
Theorem C103_value p : usual p -> framed p -> s_hg p = false -> exists f, falco_gen_pupil_Simple p = Ok f /\ frows f = s_npad p /\ fcols f = s_npad p /\
  forall i j, (i < s_npad p)%nat -> (j < s_npad p)%nat -> exists vs, Forall2 (fun a v => strut_cover p a i j v) (s_ang p) vs /\
    fpx f i j = disc_cover p (s_od p) i j * (if Rlt_dec 0 (s_id p) then 1 - disc_cover p (s_id p) i j else 1) * product (map (fun v => 1 - v) vs).
Proof.
  intros U F H. destruct (gray_ok p U H) as (f & E & R1 & R2 & V). exists f. split; auto. split; auto. split; auto. intros i j Hi Hj. destruct (V i j Hi Hj) as (o & h & vs & _ & _ & K & L & EV).
  exists vs. split; auto. destruct (K F) as [-> ->]. exact EV.
Qed.
Print Assumptions C103_value.
(* a strut's part of a pixel is one number *)
Theorem C103_one_value p a i j v v' : strut_cover p a i j v -> strut_cover p a i j v' -> v = v'.
Proof. intros [g [A ->]] [h [B ->]]. f_equal. apply rsum_ext. intros k K. apply (has_length_unique _ _ _ (A k K) (B k K)). Qed.
Print Assumptions C103_one_value.
(* between 0 and 1, for shapes of any place and arrays of any size *)
Theorem C103_range p : usual p -> s_hg p = false -> exists f, falco_gen_pupil_Simple p = Ok f /\ forall i j, (i < s_npad p)%nat -> (j < s_npad p)%nat -> 0 <= fpx f i j <= 1.
Proof.
  intros U H. destruct (gray_ok p U H) as (f & E & R1 & R2 & V). exists f. split; auto. intros i j Hi Hj. destruct (V i j Hi Hj) as (o & h & vs & O & Hh & _ & L & ->).
  pose proof (clear_01 p i j _ _ (u_c p U) (u_b p U) L) as C. set (q := product _) in *. assert (0 <= o * h <= 1) by nra. nra.
Qed.
Print Assumptions C103_range.
Lemma product_ones l : (forall x, In x l -> x = 1) -> product l = 1.
Proof. induction l as [|x l IH]; intros H; cbn; auto. rewrite (H x), IH; [ring| |now left]. intros y Y. apply H. now right. Qed.
Lemma product_zero l : In 0 l -> product l = 0.
Proof. induction l as [|x l IH]; intros H; [destruct H|]. cbn. destruct H as [->|H]; [ring|]. rewrite IH by auto. ring. Qed.
(* 1 on pixels wholly in the outer ellipse and wholly out of the inner one and of the struts *)
Theorem C103_clear p f i j : usual p -> framed p -> s_hg p = false -> falco_gen_pupil_Simple p = Ok f -> (i < s_npad p)%nat -> (j < s_npad p)%nat ->
  all_square p (fun x y => in_disc p (s_od p) x y /\ (0 < s_id p -> ~ in_disc p (s_id p) x y) /\ forall a, In a (s_ang p) -> ~ blocked p a x y) i j -> fpx f i j = 1.
Proof.
  intros U F H E Hi Hj A. destruct (C103_value p U F H) as (f' & E' & _ & _ & V). rewrite E in E'. injection E' as <-. destruct (V i j Hi Hj) as (vs & L & ->). pose proof (u_b p U) as B. pose proof (u_c p U) as C.
  rewrite (disc_full p (s_od p) i j B) by (intros u v Hu Hv; apply (A u v Hu Hv)).
  replace (if Rlt_dec 0 (s_id p) then 1 - disc_cover p (s_id p) i j else 1) with 1. 2:{ destruct (Rlt_dec 0 (s_id p)) as [I0|I0]; auto. rewrite (disc_empty p (s_id p) i j B); [ring|]. intros u v Hu Hv. apply (A u v Hu Hv). auto. }
  rewrite product_ones; [ring|]. intros x X. apply in_map_iff in X. destruct X as (v & <- & X).
  assert (G : exists a, In a (s_ang p) /\ strut_cover p a i j v). { clear - L X. induction L as [|a u l us H L IH]; [destruct X|]. destruct X as [<-|X]; [exists a; split; auto; now left|]. destruct (IH X) as (b & ? & ?). exists b. split; auto. now right. }
  destruct G as (a & Ia & G). rewrite (cover_none p a i j v C B G); [ring|]. intros u w Hu Hw. apply (A u w Hu Hw). auto.
Qed.
Print Assumptions C103_clear.
(* 0 on pixels wholly out of the outer ellipse, or wholly in the inner one, or wholly in one strut *)
Theorem C103_dark p f i j : usual p -> framed p -> s_hg p = false -> falco_gen_pupil_Simple p = Ok f -> (i < s_npad p)%nat -> (j < s_npad p)%nat ->
  all_square p (fun x y => ~ in_disc p (s_od p) x y) i j \/ (0 < s_id p /\ all_square p (in_disc p (s_id p)) i j) \/ (exists a, In a (s_ang p) /\ all_square p (blocked p a) i j) -> fpx f i j = 0.
Proof.
  intros U F H E Hi Hj A. destruct (C103_value p U F H) as (f' & E' & _ & _ & V). rewrite E in E'. injection E' as <-. destruct (V i j Hi Hj) as (vs & L & ->). pose proof (u_b p U) as B. pose proof (u_c p U) as C.
  destruct A as [A|[[I0 A]|[a [Ia A]]]].
  - rewrite (disc_empty p (s_od p) i j B A). ring.
  - destruct (Rlt_dec 0 (s_id p)); [|contradiction]. rewrite (disc_full p (s_id p) i j B A). ring.
  - rewrite (product_zero (map _ _)); [ring|]. apply in_map_iff. assert (G : exists v, In v vs /\ strut_cover p a i j v). { clear - L Ia. induction L as [|b u l us H L IH]; [destruct Ia|]. destruct Ia as [->|Ia]; [exists u; split; auto; now left|]. destruct (IH Ia) as (w & ? & ?). exists w. split; auto. now right. }
    destruct G as (v & Iv & G). exists v. split; auto. rewrite (cover_full p a i j v C B G A). ring.
Qed.
Print Assumptions C103_dark.
(* the order of the struts does not matter *)
Lemma product_perm l l' : Permutation l l' -> product l = product l'.
Proof. induction 1 as [|x l l' H IH|x y l|l l' l2 H1 IH1 H2 IH2]; cbn; [reflexivity|now rewrite IH|ring|congruence]. Qed.
Lemma perm_forall2 {A B} (P : A -> B -> Prop) l l' : Permutation l l' -> forall vs, Forall2 P l vs -> exists vs', Permutation vs vs' /\ Forall2 P l' vs'.
Proof.
  induction 1 as [|x l l' H IH|x y l|l l' l'' H1 IH1 H2 IH2]; intros vs F.
  - inversion F; subst. exists []. split; constructor.
  - inversion F as [|? v ? us G F']; subst. destruct (IH us F') as (us' & Q & F''). exists (v :: us'). split; constructor; auto.
  - inversion F as [|? v ? us G F']; subst. inversion F' as [|? w ? ws G' F'']; subst. exists (w :: v :: ws). split; [apply perm_swap|]. constructor; auto.
  - destruct (IH1 vs F) as (us & Q & F'). destruct (IH2 us F') as (ws & Q' & F''). exists ws. split; auto. eapply perm_trans; eauto.
Qed.
Lemma forall2_unique p i j l vs us : Forall2 (fun a v => strut_cover p a i j v) l vs -> Forall2 (fun a v => strut_cover p a i j v) l us -> vs = us.
Proof.
  intros F. revert us. induction F as [|a v l vs H F IH]; intros us G; inversion G as [|? u ? ws K G']; subst; auto. f_equal; [eapply C103_one_value; eauto|now apply IH].
Qed.
Definition with_struts (p : simple) (l : list R) : simple :=
  mks (s_nbeam p) (s_npad p) (s_od p) (s_wstrut p) l (s_id p) (s_centering p) (s_xst p) (s_clock p) (s_xs p) (s_ys p) (s_hg p).
Theorem C103_order p l f : usual p -> framed p -> s_hg p = false -> Permutation (s_ang p) l -> falco_gen_pupil_Simple p = Ok f ->
  exists g, falco_gen_pupil_Simple (with_struts p l) = Ok g /\ frows g = frows f /\ fcols g = fcols f /\ forall i j, (i < s_npad p)%nat -> (j < s_npad p)%nat -> fpx g i j = fpx f i j.
Proof.
  intros U F H Q E. destruct (C103_value p U F H) as (f' & E' & A1 & A2 & V). rewrite E in E'. injection E' as <-.
  assert (U' : usual (with_struts p l)). { destruct U as [C N B O I0 X W]. constructor; auto. destruct W as [W|[W W']]; [now left|right]. split; auto. cbn. rewrite W in Q. now apply Permutation_nil. }
  destruct (C103_value (with_struts p l) U' F H) as (g & G & B1 & B2 & V'). exists g. split; auto. split; [now rewrite A1, B1|]. split; [now rewrite A2, B2|]. intros i j Hi Hj.
  destruct (V i j Hi Hj) as (vs & L & ->). destruct (V' i j Hi Hj) as (us & K & ->). cbn [s_ang with_struts] in K. destruct (perm_forall2 _ _ _ Q vs L) as (ws & P & L').
  change (Forall2 (fun a v => strut_cover p a i j v) l us) in K. rewrite (forall2_unique p i j l us ws K L'). f_equal. apply product_perm. apply Permutation_map. now apply Permutation_sym.
Qed.
Print Assumptions C103_order.
(* clocking turns the ellipses and the struts together, counter-clockwise when +y is up, about the point (xShear, yShear) *)
Definition with_clock (p : simple) (c : R) : simple :=
  mks (s_nbeam p) (s_npad p) (s_od p) (s_wstrut p) (s_ang p) (s_id p) (s_centering p) (s_xst p) c (s_xs p) (s_ys p) (s_hg p).
Theorem C103_clocking p c d a x y : let t := PI * c / 180 in
  let x' := s_xs p + cos t * (x - s_xs p) - sin t * (y - s_ys p) in let y' := s_ys p + sin t * (x - s_xs p) + cos t * (y - s_ys p) in
  (in_disc (with_clock p (s_clock p + c)) d x' y' <-> in_disc p d x y) /\ (in_strut (with_clock p (s_clock p + c)) a x' y' <-> in_strut p a x y).
Proof.
  cbv zeta. unfold in_disc, in_strut, along, across. cbn [s_clock s_xs s_ys s_xst s_wstrut with_clock]. cbv zeta.
  replace (PI * (s_clock p + c) / 180) with (PI * s_clock p / 180 + PI * c / 180) by field. replace (PI * (a + (s_clock p + c)) / 180) with (PI * (a + s_clock p) / 180 + PI * c / 180) by field.
  set (s := PI * s_clock p / 180). set (r := PI * (a + s_clock p) / 180). set (t := PI * c / 180). rewrite !cos_plus, !sin_plus. pose proof (sq_cs t) as Q.
  set (X := x - s_xs p). set (Y := y - s_ys p).
  replace (s_xs p + cos t * X - sin t * Y - s_xs p) with (cos t * X - sin t * Y) by ring. replace (s_ys p + sin t * X + cos t * Y - s_ys p) with (sin t * X + cos t * Y) by ring.
  assert (R1 : forall q, (cos q * cos t - sin q * sin t) * (cos t * X - sin t * Y) + (sin q * cos t + cos q * sin t) * (sin t * X + cos t * Y) = cos q * X + sin q * Y).
  { intros q. replace ((cos q * cos t - sin q * sin t) * (cos t * X - sin t * Y) + (sin q * cos t + cos q * sin t) * (sin t * X + cos t * Y)) with ((cos t * cos t + sin t * sin t) * (cos q * X + sin q * Y)) by ring. rewrite Q. ring. }
  assert (R2 : forall q, (cos q * cos t - sin q * sin t) * (sin t * X + cos t * Y) - (sin q * cos t + cos q * sin t) * (cos t * X - sin t * Y) = cos q * Y - sin q * X).
  { intros q. replace ((cos q * cos t - sin q * sin t) * (sin t * X + cos t * Y) - (sin q * cos t + cos q * sin t) * (cos t * X - sin t * Y)) with ((cos t * cos t + sin t * sin t) * (cos q * Y - sin q * X)) by ring. rewrite Q. ring. }
  split.
  - replace (- (sin s * cos t + cos s * sin t) * (cos t * X - sin t * Y) + (cos s * cos t - sin s * sin t) * (sin t * X + cos t * Y)) with ((cos s * cos t - sin s * sin t) * (sin t * X + cos t * Y) - (sin s * cos t + cos s * sin t) * (cos t * X - sin t * Y)) by ring.
    rewrite R1, R2. replace (- sin s * X + cos s * Y) with (cos s * Y - sin s * X) by ring. tauto.
  - rewrite R1, R2. tauto.
Qed.
Print Assumptions C103_clocking.
(* errors: a negative strut width, an unknown centering, an inner diameter larger than the outer, a zero diameter or stretch *)
Theorem C103_errors p : 
  (s_wstrut p < 0 -> falco_gen_pupil_Simple p = Raise TypeError) /\
  (0 <= s_wstrut p -> s_centering p <> "pixel"%string -> s_centering p <> "interpixel"%string -> falco_gen_pupil_Simple p = Raise ValueError) /\
  (0 <= s_wstrut p -> cpos p -> s_od p < s_id p -> falco_gen_pupil_Simple p = Raise ValueError) /\
  (0 <= s_wstrut p -> cpos p -> s_id p <= s_od p -> s_hg p = false -> (2 <= s_npad p)%nat -> s_od p = 0 \/ s_xst p = 0 -> falco_gen_pupil_Simple p = Raise ZeroDivisionError).
Proof.
  unfold falco_gen_pupil_Simple, cpos. split; [|split; [|split]].
  - intros H. destruct (Rlt_dec (s_wstrut p) 0); [reflexivity|contradiction].
  - intros H C1 C2. destruct (Rlt_dec (s_wstrut p) 0); [lra|]. destruct (String.eqb_spec (s_centering p) "pixel"); [contradiction|]. destruct (String.eqb_spec (s_centering p) "interpixel"); [contradiction|]. reflexivity.
  - intros H C D. destruct (Rlt_dec (s_wstrut p) 0); [lra|]. destruct C as [-> | ->]; cbn [String.eqb Ascii.eqb Bool.eqb orb negb]; (destruct (Rlt_dec (s_od p) (s_id p)); [reflexivity|contradiction]).
  - intros H C D HG N Z. destruct (Rlt_dec (s_wstrut p) 0); [lra|]. assert (CE : (String.eqb (s_centering p) "pixel" || String.eqb (s_centering p) "interpixel")%bool = true) by (destruct C as [-> | ->]; reflexivity). rewrite CE. cbn [negb].
    destruct (Rlt_dec (s_od p) (s_id p)); [lra|]. rewrite HG. unfold gray_pupil, falco_gen_ellipse. cbn [e_centering e_narray e_mag e_rx e_ry disc]. rewrite CE. cbn [negb]. destruct (Nat.ltb_spec (s_npad p) 2); [lia|]. destruct (Req_EM_T 1 0); [lra|].
    destruct (Req_EM_T (s_xst p * (5 / 10) * s_od p) 0) as [_|K]; [reflexivity|]. destruct K. destruct Z as [-> | ->]; ring.
Qed.
Print Assumptions C103_errors.
(* a strut reaches across the pupil when the pupil's diameters are at most 1.2 *)
Theorem C103_struts_reach p a x y : 0 < s_od p -> 0 < s_xst p -> s_od p <= 12 / 10 -> s_xst p * s_od p <= 12 / 10 -> in_disc p (s_od p) x y ->
  (in_strut p a x y <-> 0 <= along p a x y /\ Rabs (across p a x y) <= s_wstrut p / 2).
Proof.
  intros O X O1 X1 D. unfold in_strut. split; [tauto|]. intros [A B]. split; auto. split; auto. unfold along in *. cbv zeta in *. set (t := PI * (a + s_clock p) / 180) in *. unfold in_disc in D. cbv zeta in D. set (r := PI * s_clock p / 180) in *.
  set (dx := x - s_xs p) in *. set (dy := y - s_ys p) in *. set (u := cos r * dx + sin r * dy) in *. set (v := - sin r * dx + cos r * dy) in *. pose proof (sq_cs r) as Q. pose proof (sq_cs t) as Q'.
  assert (E : dx * dx + dy * dy = u * u + v * v). { unfold u, v. replace ((cos r * dx + sin r * dy) * (cos r * dx + sin r * dy) + (- sin r * dx + cos r * dy) * (- sin r * dx + cos r * dy)) with ((cos r * cos r + sin r * sin r) * (dx * dx + dy * dy)) by ring. rewrite Q. ring. }
  assert (S1 : forall q h, 0 < h -> h <= 6 / 10 -> q * q <= 36 / 100 * (q / h) ^ 2).
  { intros q h H1 H2. replace (q * q) with (h * h * (q / h) ^ 2) by (field; lra). apply Rmult_le_compat_r; [apply pow2_ge_0|nra]. }
  assert (XP : 0 < s_xst p * s_od p) by now apply Rmult_lt_0_compat. pose proof (S1 u (s_xst p * s_od p / 2) ltac:(lra) ltac:(lra)). pose proof (S1 v (s_od p / 2) ltac:(lra) ltac:(lra)).
  assert (N : dx * dx + dy * dy <= 36 / 100) by lra. set (al := cos t * dx + sin t * dy) in *. assert (al * al <= 36 / 100).
  { apply Rle_trans with (dx * dx + dy * dy); auto. assert (E2 : (dx * dx + dy * dy) * (cos t * cos t + sin t * sin t) = al * al + (cos t * dy - sin t * dx) * (cos t * dy - sin t * dx)) by (unfold al; ring). rewrite Q', Rmult_1_r in E2. rewrite E2. pose proof (Rle_0_sqr (cos t * dy - sin t * dx)) as K. unfold Rsqr in K. lra. }
  nra.
Qed.
Print Assumptions C103_struts_reach.
(* wider pupils: the struts stop at a distance of 0.6, pixels in line with a strut further out are bright *)
Definition wide : simple := mks 100 256 2 (5 / 100) [0] (2 / 10) "pixel" 1 0 0 0 false.
Lemma pos_wide u : pos wide u = (u - 128) / 100.
Proof. unfold pos. cbn [s_centering s_npad s_nbeam wide]. cbn [String.eqb Ascii.eqb Bool.eqb]. rewrite INR_IZR_INZ. change (IZR (Z.of_nat 256)) with 256. lra. Qed.
Lemma usual_wide : usual wide /\ framed wide.
Proof.
  split.
  - constructor; [now left|cbn; lia|cbn; lra|cbn; lra|cbn; lra|cbn; lra|left; cbn; lra].
  - unfold framed. cbv zeta. left. split; [reflexivity|]. left. rewrite pos_wide. cbn [s_xs s_nbeam wide]. rewrite Rabs_left by lra. lra.
Qed.
Theorem C103_short_struts_refuted : exists f, falco_gen_pupil_Simple wide = Ok f /\ fpx f 128 208 = 1 /\
  all_square wide (fun x y => in_disc wide (s_od wide) x y /\ 0 <= along wide 0 x y /\ Rabs (across wide 0 x y) <= s_wstrut wide / 2) 128 208.
Proof.
  destruct usual_wide as [U F]. destruct (C103_value wide U F eq_refl) as (f & E & _ & _ & _). exists f. split; auto.
  assert (B : all_square wide (fun x y => 79 / 100 <= x <= 81 / 100 /\ - (1 / 100) <= y <= 1 / 100) 128 208).
  { intros u v Hu Hv. rewrite !pos_wide. rewrite INR_IZR_INZ in Hu, Hv. change (IZR (Z.of_nat 208)) with 208 in Hu. change (IZR (Z.of_nat 128)) with 128 in Hv. split; split; lra. }
  assert (AL : forall x y, along wide 0 x y = x /\ across wide 0 x y = y). { intros x y. unfold along, across. cbn [s_clock s_xs s_ys wide]. replace (PI * (0 + 0) / 180) with 0 by field. rewrite cos_0, sin_0. split; ring. }
  assert (DI : forall d x y, 0 < d -> in_disc wide d x y <-> x * x + y * y <= d * d / 4). { intros d x y D. unfold in_disc. cbn [s_clock s_xs s_ys s_xst wide]. replace (PI * 0 / 180) with 0 by field. rewrite cos_0, sin_0. cbv zeta. replace (((1 * (x - 0) + 0 * (y - 0)) / (1 * d / 2)) ^ 2 + ((- 0 * (x - 0) + 1 * (y - 0)) / (d / 2)) ^ 2) with ((x * x + y * y) / (d * d / 4)) by (field; lra).
    assert (P : 0 < d * d / 4) by nra. split; intros G; [|apply Rmult_le_reg_r with (d * d / 4); auto; unfold Rdiv at 1; rewrite Rmult_assoc, Rinv_l; lra]. apply Rmult_le_compat_r with (r := d * d / 4) in G; [|lra]. unfold Rdiv at 1 in G. rewrite Rmult_assoc, Rinv_l in G; lra. }
  split.
  - apply (C103_clear wide f 128 208 U F eq_refl E); [cbn; lia|cbn; lia|]. intros u v Hu Hv. destruct (B u v Hu Hv) as [B1 B2]. set (x := pos wide u) in *. set (y := pos wide v) in *. split; [|split].
    + apply DI; cbn; [lra|nra].
    + intros _ G. apply DI in G; cbn in *; nra.
    + intros a [<-|[]] G. unfold blocked, in_strut, misplaced in G. cbn [s_npad wide] in G. change (Nat.even 256) with true in G. cbv iota in G. rewrite !Rplus_0_r in G. destruct (AL x y) as [A1 A2]. rewrite A1 in G. lra.
  - intros u v Hu Hv. destruct (B u v Hu Hv) as [B1 B2]. set (x := pos wide u) in *. set (y := pos wide v) in *. destruct (AL x y) as [-> ->]. split; [apply DI; cbn; [lra|nra]|]. split; [lra|]. cbn. apply Rabs_le. lra.
Qed.
Print Assumptions C103_short_struts_refuted.
(* odd arrays: a strut of the width of a pixel whose axis is along the edge between two rows blocks all of the lower one *)
Definition odd_array : simple := mks 100 257 1 (1 / 100) [0] 0 "pixel" 1 0 0 0 false.
Lemma pos_odd u : pos odd_array u = (u - 257 / 2) / 100.
Proof. unfold pos. cbn [s_centering s_npad s_nbeam odd_array]. cbn [String.eqb Ascii.eqb Bool.eqb]. rewrite INR_IZR_INZ. change (IZR (Z.of_nat 257)) with 257. lra. Qed.
Lemma usual_odd : usual odd_array /\ framed odd_array.
Proof.
  split.
  - constructor; [now left|cbn; lia|cbn; lra|cbn; lra|cbn; lra|cbn; lra|left; cbn; lra].
  - unfold framed. cbv zeta. left. split; [reflexivity|]. left. rewrite pos_odd. cbn [s_xs s_nbeam odd_array]. rewrite Rabs_left by lra. lra.
Qed.
Theorem C103_odd_refuted : exists f, falco_gen_pupil_Simple odd_array = Ok f /\ fpx f 128 150 = 0 /\ disc_cover odd_array 1 128 150 = 1 /\
  forall u v, INR 150 - 1 / 2 <= u <= INR 150 + 1 / 2 -> INR 128 - 1 / 2 <= v < INR 128 -> ~ in_strut odd_array 0 (pos odd_array u) (pos odd_array v).
Proof.
  destruct usual_odd as [U F]. destruct (C103_value odd_array U F eq_refl) as (f & E & _ & _ & _). exists f. split; auto.
  assert (AL : forall x y, along odd_array 0 x y = x /\ across odd_array 0 x y = y). { intros x y. unfold along, across. cbn [s_clock s_xs s_ys odd_array]. replace (PI * (0 + 0) / 180) with 0 by field. rewrite cos_0, sin_0. split; ring. }
  assert (N1 : INR 150 = 150) by (rewrite INR_IZR_INZ; reflexivity). assert (N2 : INR 128 = 128) by (rewrite INR_IZR_INZ; reflexivity). split; [|split].
  - apply (C103_dark odd_array f 128 150 U F eq_refl E); [cbn; lia|cbn; lia|]. right. right. exists 0. split; [now left|]. intros u v Hu Hv. rewrite N1 in Hu. rewrite N2 in Hv. rewrite !pos_odd. unfold blocked, in_strut, misplaced. cbn [s_npad s_nbeam s_wstrut odd_array]. change (Nat.even 257) with false. cbv iota.
    match goal with |- context [along odd_array 0 ?x ?y] => destruct (AL x y) as [-> ->] end. split; [lra|]. apply Rabs_le. lra.
  - apply (disc_full odd_array 1 128 150); [cbn; lra|]. intros u v Hu Hv. rewrite N1 in Hu. rewrite N2 in Hv. rewrite !pos_odd. unfold in_disc. cbn [s_clock s_xs s_ys s_xst odd_array]. replace (PI * 0 / 180) with 0 by field. rewrite cos_0, sin_0. cbv zeta. 
    set (x := (u - 257 / 2) / 100). set (y := (v - 257 / 2) / 100). assert (0 <= x <= 3 / 10) by (unfold x; lra). assert (- (1 / 10) <= y <= 1 / 10) by (unfold y; lra).
    replace (((1 * (x - 0) + 0 * (y - 0)) / (1 * 1 / 2)) ^ 2 + ((- 0 * (x - 0) + 1 * (y - 0)) / (1 / 2)) ^ 2) with (4 * (x * x + y * y)) by field. nra.
  - intros u v Hu Hv [_ G]. rewrite N2 in Hv. match goal with _ : Rabs (across odd_array 0 ?x ?y) <= _ |- _ => destruct (AL x y) as [_ A2]; rewrite A2 in G end. rewrite pos_odd in G. cbn in G. rewrite Rabs_left in G by lra. lra.
Qed.
Print Assumptions C103_odd_refuted.
(* the default width of the struts, 0: a strut along the rows dims its row by 1/101 *)
Theorem C103_zero_width_refuted p a g : s_ang p = [a] -> a + s_clock p = 0 -> s_wstrut p = 0 -> s_hg p = false -> s_centering p = "pixel"%string -> s_xs p = 0 -> s_ys p = 0 ->
  usual (with_struts p []) -> falco_gen_pupil_Simple (with_struts p []) = Ok g ->
  exists f, falco_gen_pupil_Simple p = Ok f /\
    forall j, (s_npad p / 2 < j < s_npad p)%nat -> INR j + 1 / 2 < INR (s_npad p / 2) + 6 / 10 * s_nbeam p -> fpx f (s_npad p / 2) j = 100 / 101 * fpx g (s_npad p / 2) j.
Proof.
  intros A AC W HG C X Y [_ N B O I0 XS _] G. cbn [s_npad s_nbeam s_od s_id s_xst with_struts] in *. unfold falco_gen_pupil_Simple in *. cbn [s_wstrut s_centering s_od s_id s_hg with_struts] in G. rewrite W, HG, C in *. destruct (Rlt_dec 0 0); [lra|]. cbn [String.eqb Ascii.eqb Bool.eqb orb negb] in *. destruct (Rlt_dec (s_od p) (s_id p)); [lra|].
  unfold gray_pupil in *. change (disc (with_struts p []) (s_od (with_struts p []))) with (disc p (s_od p)) in G. change (disc (with_struts p []) (s_id (with_struts p []))) with (disc p (s_id p)) in G.
  destruct (falco_gen_ellipse (disc p (s_od p))) as [fo|]; [|discriminate]. cbn [rbind] in *. cbn [s_id with_struts] in G.
  match type of G with rbind ?o _ = _ => destruct o as [fi|]; [|discriminate] end. cbn [rbind] in *. unfold strut_mask in G. cbn [s_ang with_struts rbind] in G. injection G as <-.
  assert (SM : exists s, strut_mask p = Ok (Some s) /\ forall j, (s_npad p / 2 < j < s_npad p)%nat -> INR j + 1 / 2 < INR (s_npad p / 2) + 6 / 10 * s_nbeam p -> fpx s (s_npad p / 2) j = 100 / 101).
  { unfold strut_mask. rewrite A. destruct (Req_EM_T (s_nbeam p) 0); [lra|]. cbv zeta. assert (NP : 2 <= INR (s_npad p)) by (apply le_INR in N; simpl (INR 2) in N; lra).
    assert (E1 : INR (s_npad p) * (1 / (INR (s_npad p) * (1 / s_nbeam p))) = s_nbeam p) by (field; lra).
    unfold prop_begin. cbv zeta. rewrite E1. destruct (Req_EM_T (1 / 10 ^ 6) 0) as [Z|Z]; [lra|]. destruct (Req_EM_T (s_nbeam p) 0); [lra|]. cbn [rbind add_struts]. rewrite AC, W. unfold rectangular_obscuration, cosd, sind, cshift. rewrite C, X, Y. cbn [String.eqb Ascii.eqb Bool.eqb]. rewrite !Rmult_0_l, cos_0, sin_0.
    replace (6 / 10 / 2 * 1 + 0 + 0) with (3 / 10) by field. replace (6 / 10 / 2 * 0 + 0 + 0) with 0 by ring.
    match goal with |- context [prop_rectangle 101 ?w _] => destruct (zero_rectangle w) as (m & E & M1 & M2 & V); [cbn; unfold Rdiv; rewrite Rmult_1_l; now apply Rinv_0_lt_compat|exact N|]; rewrite E; cbn [rbind]; destruct (times_ok w m (conj eq_refl eq_refl) M1 M2) as (F & T & T1 & T2 & TV) end.
    rewrite T. cbn [rbind]. eexists. split; [reflexivity|]. intros j Hj Lj. unfold amplitude. cbn [set_arr w_arr roll2 frows fcols fpx w_n w_dx] in *. rewrite T1, T2. rewrite TV by (apply roll_lt; lia). rewrite !roll_back by lia. rewrite V; [|lia|].
    - rewrite Cmult_1_l, Cmod_R. apply Rabs_pos_eq. lra.
    - replace (6 / 10 / (1 / s_nbeam p)) with (6 / 10 * s_nbeam p) by (field; lra). exact Lj. }
  destruct SM as (s & -> & V). cbn [rbind]. eexists. split; [reflexivity|]. intros j Hj Lj. cbn [fpx]. rewrite V by auto. cbn [s_npad with_struts]. ring.
Qed.
Print Assumptions C103_zero_width_refuted.
Theorem C103_zero_width_example : exists f, falco_gen_pupil_Simple (with_struts (simple_default 100 256 1) [0]) = Ok f /\ fpx f 128 150 = 100 / 101.
Proof.
  set (p := with_struts (simple_default 100 256 1) [0]). assert (U : usual (with_struts p [])) by (constructor; [now left|cbn; lia|cbn; lra|cbn; lra|cbn; lra|cbn; lra|right; split; reflexivity]).
  assert (PP : forall u, pos (with_struts p []) u = (u - 128) / 100). { intros u. unfold pos. cbn [s_centering s_npad s_nbeam with_struts simple_default p]. cbn [String.eqb Ascii.eqb Bool.eqb]. rewrite INR_IZR_INZ. change (IZR (Z.of_nat 256)) with 256. lra. }
  assert (F : framed (with_struts p [])). { unfold framed. cbv zeta. left. split; [reflexivity|]. left. rewrite PP. cbn [s_xs s_nbeam with_struts simple_default p]. rewrite Rabs_left by lra. lra. }
  destruct (C103_value _ U F eq_refl) as (g & E & _ & _ & _). destruct (C103_zero_width_refuted p 0 g eq_refl ltac:(cbn; ring) eq_refl eq_refl eq_refl eq_refl eq_refl U E) as (f & E' & V). exists f. split; [exact E'|].
  assert (K : fpx g 128 150 = 1).
  { apply (C103_clear _ g 128 150 U F eq_refl E); [cbn; lia|cbn; lia|]. intros u v Hu Hv. rewrite INR_IZR_INZ in Hu, Hv. change (IZR (Z.of_nat 150)) with 150 in Hu. change (IZR (Z.of_nat 128)) with 128 in Hv. rewrite !PP. split; [|split].
    - unfold in_disc. cbn [s_clock s_xs s_ys s_xst s_od with_struts simple_default p]. replace (PI * 0 / 180) with 0 by field. rewrite cos_0, sin_0. cbv zeta. set (x := (u - 128) / 100). set (y := (v - 128) / 100). assert (0 <= x <= 3 / 10) by (unfold x; lra). assert (- (1 / 10) <= y <= 1 / 10) by (unfold y; lra).
      replace (((1 * (x - 0) + 0 * (y - 0)) / (1 * 1 / 2)) ^ 2 + ((- 0 * (x - 0) + 1 * (y - 0)) / (1 / 2)) ^ 2) with (4 * (x * x + y * y)) by field. nra.
    - cbn. intros Q. lra.
    - intros b []. }
  specialize (V 150%nat). change (s_npad p / 2)%nat with 128%nat in V. rewrite V, K; [lra|cbn; lia|]. rewrite !INR_IZR_INZ. change (IZR (Z.of_nat 150)) with 150. change (IZR (Z.of_nat 128)) with 128. cbn. lra.
Qed.
Print Assumptions C103_zero_width_example.
(* ---- hyper-gaussians ---- *)
Theorem C103_smooth_value p : usual p -> s_hg p = true -> exists f, falco_gen_pupil_Simple p = Ok f /\ frows f = s_npad p /\ fcols f = s_npad p /\
  forall i j, (i < s_npad p)%nat -> (j < s_npad p)%nat -> let x := pos p (INR j) in let y := pos p (INR i) in
    fpx f i j = (smooth 1000 (ratio p (s_od p) x y) - (if Rlt_dec 0 (s_id p) then smooth 1000 (ratio p (s_id p) x y) else 0)) * product (map (fun a => spider p a x y) (s_ang p)).
Proof. apply hg_ok. Qed.
Print Assumptions C103_smooth_value.
Lemma spiders_01 p l x y : 0 <= product (map (fun a => spider p a x y) l) <= 1.
Proof. apply product_01. intros q Q. apply in_map_iff in Q. destruct Q as (a & <- & _). apply spider_01. Qed.
Lemma rings_01 p x y : 0 < s_od p -> s_id p <= s_od p -> 0 <= smooth 1000 (ratio p (s_od p) x y) - (if Rlt_dec 0 (s_id p) then smooth 1000 (ratio p (s_id p) x y) else 0) <= 1.
Proof.
  intros O I0. pose proof (ratio_pos p (s_od p) x y O) as R1. pose proof (smooth_01 1000 (ratio p (s_od p) x y) (pow_le _ 1000 R1)) as S1. destruct (Rlt_dec 0 (s_id p)) as [H|H]; [|lra].
  pose proof (ratio_pos p (s_id p) x y H) as R2. pose proof (smooth_01 1000 (ratio p (s_id p) x y) (pow_le _ 1000 R2)) as S2. pose proof (smooth_mono 1000 _ _ R1 (ratio_le p (s_id p) (s_od p) x y H I0)). lra.
Qed.
Theorem C103_smooth_range p f i j : usual p -> s_hg p = true -> falco_gen_pupil_Simple p = Ok f -> (i < s_npad p)%nat -> (j < s_npad p)%nat -> 0 <= fpx f i j <= 1.
Proof.
  intros U H E Hi Hj. destruct (hg_ok p U H) as (f' & E' & _ & _ & V). rewrite E in E'. injection E' as <-. rewrite V by auto. set (x := pos p (INR j)). set (y := pos p (INR i)).
  pose proof (rings_01 p x y (u_od p U) (u_id p U)) as A. pose proof (spiders_01 p (s_ang p) x y) as B. set (q := product _) in *. set (r := _ - _) in *. nra.
Qed.
Print Assumptions C103_smooth_range.
(* inside: at most t^1000 lost at the outer edge, s^-1000 at the inner one, and a factor 1 - u^-100 for each spider *)
Theorem C103_smooth_inside p f i j t s u : usual p -> s_hg p = true -> falco_gen_pupil_Simple p = Ok f -> (i < s_npad p)%nat -> (j < s_npad p)%nat -> 1 <= s -> 1 <= u ->
  let x := pos p (INR j) in let y := pos p (INR i) in
  ratio p (s_od p) x y <= t -> t ^ 1000 + / s ^ 1000 <= 1 -> (0 < s_id p -> s <= ratio p (s_id p) x y) ->
  (forall a, In a (s_ang p) -> hg_along p a x y <= 0 \/ u <= Rabs (hg_across p a x y / (s_wstrut p / 2))) ->
  (1 - t ^ 1000 - / s ^ 1000) * (1 - / u ^ 100) ^ length (s_ang p) <= fpx f i j.
Proof.
  intros U H E Hi Hj Hs Hu x y R1 TS R2 R3. destruct (hg_ok p U H) as (f' & E' & _ & _ & V). rewrite E in E'. injection E' as <-. rewrite V by auto. fold x. fold y.
  assert (SP : 0 < / s ^ 1000) by (apply Rinv_0_lt_compat, pow_lt; lra). assert (UP : 0 < / u ^ 100 <= 1).
  { split; [apply Rinv_0_lt_compat, pow_lt; lra|]. rewrite <- Rinv_1. apply Rinv_le_contravar; [lra|]. apply pow_R1_Rle. lra. }
  apply Rmult_le_compat.
  - lra.
  - apply pow_le. lra.
  - pose proof (ratio_pos p (s_od p) x y (u_od p U)) as P1. pose proof (smooth_low 1000 (ratio p (s_od p) x y)). pose proof (pow_incr (ratio p (s_od p) x y) t 1000 (conj P1 R1)).
    destruct (Rlt_dec 0 (s_id p)) as [G|G]; [|lra]. pose proof (smooth_high 1000 (ratio p (s_id p) x y) s ltac:(lra) (R2 G)). lra.
  - set (w := 1 - / u ^ 100) in *. assert (W : 0 <= w <= 1 /\ w = 1 - / u ^ 100) by (split; [unfold w; lra|reflexivity]). clearbody w. destruct W as [W WE]. clear - W WE Hu R3. induction (s_ang p) as [|a l IH]; cbn [length map product pow]; [lra|]. apply Rmult_le_compat.
    + lra.
    + apply pow_le. lra.
    + unfold spider. destruct (Rlt_dec 0 (hg_along p a x y)) as [G|G]; [|apply W]. rewrite WE. destruct (R3 a (or_introl eq_refl)) as [K|K]; [lra|]. set (q := hg_across p a x y / (s_wstrut p / 2)) in *. pose proof (smooth_high 100 (Rabs q) u ltac:(lra) K) as M. unfold smooth in M. rewrite abs_pow100 in M. unfold smooth. lra.
    + apply IH. intros b Hb. apply R3. now right.
Qed.
Print Assumptions C103_smooth_inside.
(* outside: at most t^-1000 beyond the outer edge, s^1000 within the inner one, u^100 on a spider *)
Theorem C103_smooth_outside p f i j t : usual p -> s_hg p = true -> falco_gen_pupil_Simple p = Ok f -> (i < s_npad p)%nat -> (j < s_npad p)%nat -> 0 < t ->
  let x := pos p (INR j) in let y := pos p (INR i) in
  (t <= ratio p (s_od p) x y -> fpx f i j <= / t ^ 1000) /\
  (0 < s_id p -> ratio p (s_id p) x y <= t -> fpx f i j <= t ^ 1000) /\
  (forall a, In a (s_ang p) -> 0 < hg_along p a x y -> Rabs (hg_across p a x y / (s_wstrut p / 2)) <= t -> fpx f i j <= t ^ 100).
Proof.
  intros U H E Hi Hj T x y. destruct (hg_ok p U H) as (f' & E' & _ & _ & V). rewrite E in E'. injection E' as <-. rewrite V by auto. fold x. fold y. cbv zeta.
  pose proof (rings_01 p x y (u_od p U) (u_id p U)) as A. pose proof (spiders_01 p (s_ang p) x y) as B. set (q := product _) in *. set (r := _ - _) in *. assert (RQ : r * q <= r /\ r * q <= q) by nra. pose proof (ratio_pos p (s_od p) x y (u_od p U)) as P1. split; [|split].
  - intros K. apply Rle_trans with r; [apply RQ|]. pose proof (smooth_high 1000 _ t T K) as M. unfold r. destruct (Rlt_dec 0 (s_id p)) as [G|G]; [|lra]. pose proof (smooth_01 1000 (ratio p (s_id p) x y) (pow_le _ 1000 (ratio_pos p (s_id p) x y G))). lra.
  - intros G K. apply Rle_trans with r; [apply RQ|]. unfold r. destruct (Rlt_dec 0 (s_id p)); [|contradiction]. pose proof (ratio_pos p (s_id p) x y G) as P2. pose proof (smooth_low 1000 (ratio p (s_id p) x y)). pose proof (pow_incr (ratio p (s_id p) x y) t 1000 (conj P2 K)). pose proof (smooth_01 1000 (ratio p (s_od p) x y) (pow_le _ 1000 P1)). lra.
  - intros a Ia G K. apply Rle_trans with q; [apply RQ|]. unfold q. clear - Ia G K. assert (L : spider p a x y <= t ^ 100).
    { unfold spider. destruct (Rlt_dec 0 (hg_along p a x y)); [|contradiction]. set (z := hg_across p a x y / (s_wstrut p / 2)) in *. pose proof (smooth_low 100 z). pose proof (pow_incr (Rabs z) t 100 (conj (Rabs_pos z) K)) as M. rewrite abs_pow100 in M. lra. }
    induction (s_ang p) as [|b l IH]; [destruct Ia|]. cbn [map product]. pose proof (spiders_01 p l x y) as B. pose proof (spider_01 p b x y). destruct Ia as [->|Ia]; [nra|]. specialize (IH Ia). nra.
Qed.
Print Assumptions C103_smooth_outside.
(* hyper-gaussian pupils neither turn with the clocking nor move with the shears *)
Theorem C103_smooth_unmoved_refuted p c x y : s_hg p = true ->
  falco_gen_pupil_Simple (mks (s_nbeam p) (s_npad p) (s_od p) (s_wstrut p) (s_ang p) (s_id p) (s_centering p) (s_xst p) c x y true) = falco_gen_pupil_Simple p.
Proof. intros H. unfold falco_gen_pupil_Simple. cbn [s_wstrut s_centering s_od s_id s_hg]. rewrite H. reflexivity. Qed.
Print Assumptions C103_smooth_unmoved_refuted.
(* such arguments exist: a turned, shifted, stretched pupil with an obscuration and three struts; the same with hyper-gaussians *)
Theorem C103_example : let p h := mks 309 350 (95 / 100) (1 / 100) [90; 210; 330] (3 / 10) "interpixel" 1 15 (1 / 100) (- (2 / 100)) h in
  usual (p false) /\ framed (p false) /\ usual (p true) /\ exists f g, falco_gen_pupil_Simple (p false) = Ok f /\ falco_gen_pupil_Simple (p true) = Ok g.
Proof.
  intros p. assert (U : forall h, usual (p h)) by (intros h; constructor; [now right|cbn; lia|cbn; lra|cbn; lra|cbn; lra|cbn; lra|left; cbn; lra]).
  assert (F : framed (p false)). { unfold framed. cbv zeta. left. split; [reflexivity|]. left. unfold pos. cbn [s_centering s_npad s_nbeam s_xs p]. cbn [String.eqb Ascii.eqb Bool.eqb]. rewrite INR_IZR_INZ. change (IZR (Z.of_nat 350)) with 350. rewrite Rabs_left by lra. lra. }
  split; [apply U|]. split; [exact F|]. split; [apply U|]. destruct (C103_value (p false) (U false) F eq_refl) as (f & E & _). destruct (hg_ok (p true) (U true) eq_refl) as (g & G & _). exists f, g. auto.
Qed.
Print Assumptions C103_example.
