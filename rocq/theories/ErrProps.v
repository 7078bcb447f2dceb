(* C98: PROPER's error maps *)
From Verif Require Import Base StrBase RBase CtrlModel UtilModel DmSurfModel CubModel CubProofs CubProps DmcModel CBase PropModel PropProofs OptModel PrpModel PrpSpec PrpProofs5 ErrModel ErrSpec ErrProofs ErrProofs2.
Open Scope R_scope.

(* The interpolation that the library does, on any number of threads and with any schedule, has the properties used below *)
Theorem C98_library : grid_exact threaded_cubic /\ grid_quadratic threaded_cubic /\ row_exact threaded_cubic /\
  forall g c nt ws r k, (0 < nt)%nat -> (r < ydim c)%nat -> (k < xdim c)%nat -> wrapper_schedule Forder (nc g) (nr g) (fun X Y => px g Y X) c nt ws ->
    cubic_conv_threaded Forder (nc g) (nr g) (fun X Y => px g Y X) c nt ws r k = threaded_cubic g c r k.
Proof. split; [exact threaded_exact|]. split; [exact threaded_quadratic|]. split; [exact threaded_row|]. intros g c nt ws r k N R K W. now apply (threaded_is Forder g c nt ws r k). Qed.
Print Assumptions C98_library.

(* A map with the sampling of the wavefront, on a grid of even size: pixel (j, i) of the wavefront gets the phase of the map's number at the same distance
   from the map's centre (cx, cy), the centre being the keywords' or, by default, half the number of ROWS in x and of columns in y.  A shift of m pixels in x
   moves the map by m pixels in x AND in y; the shift in y does nothing. *)
Theorem C98_placed : forall ip mg w f xs ys k cx cy m, grid_exact ip -> square_wf w -> Nat.even (w_n w) = true -> 0 < w_dx w -> plain_keys k ->
  pixel_width w f k = Some (w_dx w) -> centre_is f k (IZR cx) (IZR cy) -> xs = IZR m * w_dx w ->
  exists d w', prop_errormap ip mg w f xs ys k = Ok (d, w') /\ square_wf w' /\ w_n w' = w_n w /\ frows d = w_n w /\ fcols d = w_n w /\
    forall j i X Y, (j < w_n w)%nat -> (i < w_n w)%nat -> X = (cx + off (w_n w) i - m)%Z -> Y = (cy + off (w_n w) j - m)%Z -> (2 <= X <= nc (m_data f) - 2)%Z -> (2 <= Y <= nr (m_data f) - 2)%Z ->
      fpx d j i = unit_factor k * px (m_data f) Y X /\
      fpx (get_wavefront w') j i = Cmult (fpx (get_wavefront w) j i) (cis (2 * PI / w_lam w * (path_factor k * px (m_data f) Y X))).
Proof.
  intros ip mg w f xs ys k cx cy m GE SW EV Hd PK HP HC HX.
  destruct (read_ok ip w f xs ys k (w_dx w) (IZR cx) (IZR cy) HP HC ltac:(lra)) as (d0 & ER & R1 & C1 & V).
  destruct (errormap_core ip mg w f xs ys k d0 SW PK R1 C1 ER) as (d & w' & EE & S1 & S2 & D1 & D2 & VE). exists d, w'. repeat (split; [assumption|]).
  intros j i X Y Hj Hi EX EY BX BY. pose proof (VE j i Hj Hi) as VV. cbv beta zeta in VV. rewrite !half_even2 in VV by auto.
  assert (E : fpx d0 j i = px (m_data f) Y X).
  { rewrite V by auto. apply GE; auto; unfold axis; subst; unfold off; rewrite minus_IZR, plus_IZR, minus_IZR, <- !INR_IZR_INZ; field; lra. }
  now rewrite E in VV.
Qed.
Print Assumptions C98_placed.
(* square map, no shift, default centre *)
Theorem C98_square : forall ip mg w f k N, grid_exact ip -> square_wf w -> Nat.even (w_n w) = true -> 0 < w_dx w -> plain_keys k -> pixel_width w f k = Some (w_dx w) -> e_xc k = None -> e_yc k = None ->
  nr (m_data f) = Z.of_nat N -> nc (m_data f) = Z.of_nat N ->
  exists d w', prop_errormap ip mg w f 0 0 k = Ok (d, w') /\
    forall j i J L, (j < w_n w)%nat -> (i < w_n w)%nat -> (2 <= J <= N - 2)%nat -> (2 <= L <= N - 2)%nat -> off (w_n w) j = off N J -> off (w_n w) i = off N L ->
      fpx (get_wavefront w') j i = Cmult (fpx (get_wavefront w) j i) (cis (2 * PI / w_lam w * (path_factor k * px (m_data f) (Z.of_nat J) (Z.of_nat L)))).
Proof.
  intros ip mg w f k N GE SW EV Hd PK HP X1 Y1 HR HC. assert (MC : centre_is f k (IZR (Z.of_nat N / 2)) (IZR (Z.of_nat N / 2))) by (unfold centre_is; rewrite X1, Y1, HR, HC; auto).
  destruct (C98_placed ip mg w f 0 0 k _ _ 0%Z GE SW EV Hd PK HP MC ltac:(lra)) as (d & w' & E & _ & _ & _ & _ & V). exists d, w'. split; [auto|]. intros j i J L Hj Hi HJ HL OJ OL.
  assert (HN : (Z.of_nat N / 2)%Z = Z.of_nat (N / 2)) by (symmetry; apply (Nat2Z.inj_div N 2)).
  apply (V j i (Z.of_nat L) (Z.of_nat J)); auto; rewrite ?HR, ?HC, ?HN; unfold off in *; lia.
Qed.
Print Assumptions C98_square.
Theorem C98_yshift_ignored : forall ip mg w f xs ys ys' k, prop_errormap ip mg w f xs ys k = prop_errormap ip mg w f xs ys' k.
Proof. intros. reflexivity. Qed.
Print Assumptions C98_yshift_ignored.

(* On a grid of odd size the map is one pixel off in both directions, although it is also returned *)
Theorem C98_odd_grid_refuted : forall ip mg w f ys k cx cy, grid_exact ip -> square_wf w -> Nat.even (w_n w) = false -> 0 < w_dx w -> plain_keys k ->
  pixel_width w f k = Some (w_dx w) -> centre_is f k (IZR cx) (IZR cy) ->
  exists d w', prop_errormap ip mg w f 0 ys k = Ok (d, w') /\
    forall j i X Y, (S j < w_n w)%nat -> (S i < w_n w)%nat -> X = (cx + off (w_n w) i)%Z -> Y = (cy + off (w_n w) j)%Z -> (2 <= X + 1 <= nc (m_data f) - 2)%Z -> (2 <= Y + 1 <= nr (m_data f) - 2)%Z ->
      fpx d j i = unit_factor k * px (m_data f) (Y + 1) (X + 1) /\
      fpx (get_wavefront w') j i = Cmult (fpx (get_wavefront w) j i) (cis (2 * PI / w_lam w * (path_factor k * px (m_data f) (Y + 1) (X + 1)))).
Proof.
  intros ip mg w f ys k cx cy GE SW EV Hd PK HP HC.
  destruct (read_ok ip w f 0 ys k (w_dx w) (IZR cx) (IZR cy) HP HC ltac:(lra)) as (d0 & ER & R1 & C1 & V).
  destruct (errormap_core ip mg w f 0 ys k d0 SW PK R1 C1 ER) as (d & w' & EE & S1 & S2 & D1 & D2 & VE). exists d, w'. split; [auto|].
  intros j i X Y Hj Hi EX EY BX BY. pose proof (VE j i ltac:(lia) ltac:(lia)) as VV. cbv beta zeta in VV. rewrite !half_odd2 in VV by auto.
  assert (E : fpx d0 (S j) (S i) = px (m_data f) (Y + 1) (X + 1)).
  { rewrite V by auto. apply GE; auto; unfold axis; subst; unfold off; rewrite !plus_IZR, minus_IZR, <- !INR_IZR_INZ, S_INR; field; lra. }
  now rewrite E in VV.
Qed.
Print Assumptions C98_odd_grid_refuted.

(* Any sampling: maps that are quadratic in x and y (tilt, focus, astigmatism) are resampled exactly *)
Theorem C98_quadratic_resampled : forall ip mg w f xs ys k p cx cy c, grid_quadratic ip -> square_wf w -> Nat.even (w_n w) = true -> 0 < p -> plain_keys k ->
  pixel_width w f k = Some p -> centre_is f k cx cy -> (forall Y X, px (m_data f) Y X = biquadratic c (IZR X) (IZR Y)) ->
  exists d w', prop_errormap ip mg w f xs ys k = Ok (d, w') /\
    forall j i, (j < w_n w)%nat -> (i < w_n w)%nat -> let x := cx + (IZR (off (w_n w) i) * w_dx w - xs) / p in let y := cy + (IZR (off (w_n w) j) * w_dx w - xs) / p in
      (2 <= roundval x < nc (m_data f) - 2)%Z -> (2 <= roundval y < nr (m_data f) - 2)%Z ->
      fpx d j i = unit_factor k * biquadratic c x y /\
      fpx (get_wavefront w') j i = Cmult (fpx (get_wavefront w) j i) (cis (2 * PI / w_lam w * (path_factor k * biquadratic c x y))).
Proof.
  intros ip mg w f xs ys k p cx cy c GQ SW EV Hp PK HP HC HQ.
  destruct (read_ok ip w f xs ys k p cx cy HP HC ltac:(lra)) as (d0 & ER & R1 & C1 & V).
  destruct (errormap_core ip mg w f xs ys k d0 SW PK R1 C1 ER) as (d & w' & EE & S1 & S2 & D1 & D2 & VE). exists d, w'. split; [auto|].
  intros j i Hj Hi x y BX BY. pose proof (VE j i Hj Hi) as VV. cbv beta zeta in VV. rewrite !half_even2 in VV by auto.
  assert (AX : axis (w_n w) (w_dx w) p (cx - xs / p) i = x) by (unfold axis, x, off; rewrite minus_IZR, <- !INR_IZR_INZ; field; lra).
  assert (AY : axis (w_n w) (w_dx w) p (cy - xs / p) j = y) by (unfold axis, y, off; rewrite minus_IZR, <- !INR_IZR_INZ; field; lra).
  assert (E : fpx d0 j i = biquadratic c x y). { rewrite V by auto. rewrite (GQ (m_data f) c (w_n w) _ _ j i Hj Hi HQ); rewrite ?AX, ?AY; auto. }
  now rewrite E in VV.
Qed.
Print Assumptions C98_quadratic_resampled.

(* Borders: a map of the wavefront's own size loses its outermost numbers: the first two columns show the third, the last column the one before it *)
Theorem C98_border_refuted : forall mg w f k N, square_wf w -> Nat.even (w_n w) = true -> 0 < w_dx w -> plain_keys k -> pixel_width w f k = Some (w_dx w) -> e_xc k = None -> e_yc k = None ->
  w_n w = N -> nr (m_data f) = Z.of_nat N -> nc (m_data f) = Z.of_nat N -> (4 <= N)%nat ->
  exists d w', prop_errormap threaded_cubic mg w f 0 0 k = Ok (d, w') /\ forall j i, (2 <= j <= N - 2)%nat -> (i < N)%nat ->
    fpx d j i = unit_factor k * px (m_data f) (Z.of_nat j) (if Nat.ltb i 2 then 2 else if Nat.ltb (N - 2) i then Z.of_nat N - 2 else Z.of_nat i)%Z.
Proof.
  intros mg w f k N SW EV Hd PK HP X1 Y1 HN HR HC H4.
  assert (MC : centre_is f k (INR (N / 2)) (INR (N / 2))). { unfold centre_is. rewrite X1, Y1, HR, HC. assert (H : (Z.of_nat N / 2)%Z = Z.of_nat (N / 2)) by (symmetry; apply (Nat2Z.inj_div N 2)). rewrite H, <- INR_IZR_INZ. auto. }
  destruct (read_ok threaded_cubic w f 0 0 k (w_dx w) _ _ HP MC ltac:(lra)) as (d0 & ER & R1 & C1 & V).
  destruct (errormap_core threaded_cubic mg w f 0 0 k d0 SW PK R1 C1 ER) as (d & w' & EE & S1 & S2 & D1 & D2 & VE). exists d, w'. split; [auto|].
  intros j i Hj Hi. pose proof (VE j i ltac:(lia) ltac:(lia)) as VV. cbv beta zeta in VV. rewrite !half_even2 in VV by (auto; lia). destruct VV as [-> _]. f_equal. rewrite V by lia. rewrite HN in *.
  assert (A : forall q, axis N (w_dx w) (w_dx w) (INR (N / 2) - 0 / w_dx w) q = IZR (Z.of_nat q)) by (intros q; unfold axis; rewrite <- INR_IZR_INZ; field; lra).
  rewrite threaded_square by lia. unfold plain_cubic. rewrite HR, HC. set (co := Axes N N _ _).
  assert (EX : at_x co j i = IZR (Z.of_nat i)) by (apply A). assert (EY : at_y co j i = IZR (Z.of_nat j)) by (apply A).
  destruct (C88_border (Z.of_nat N) (Z.of_nat N) (fun X Y => px (m_data f) Y X) co j i (Z.of_nat i) (Z.of_nat j) Hi ltac:(lia) EX EY ltac:(lia)) as [B1 B2].
  destruct (Nat.ltb_spec i 2); [rewrite B1 by lia; reflexivity|]. destruct (Nat.ltb_spec (N - 2) i); [rewrite B2 by lia; reflexivity|].
  exact (C88_pixels (Z.of_nat N) (Z.of_nat N) (fun X Y => px (m_data f) Y X) co j i _ _ Hi EX EY ltac:(lia) ltac:(lia)).
Qed.
Print Assumptions C98_border_refuted.

(* Writing a map and reading it: the number under SAMPLING is the pixel width, unless RADIUS_PIX is given, when the radius of the pilot beam is
   and the width is not written *)
Theorem C98_written : forall w a wk k f, prop_writemap a wk = Ok f -> m_data f = a /\ m_radpix f = k_rad wk /\ (k_rad wk <> None -> m_pixsize f = None) /\
  pixel_width w f k = match k_rad wk with Some r => Some (get_beamradius w / r) | None => match e_sam k with Some p => Some p | None => k_sam wk end end.
Proof.
  intros w a wk k f E. unfold prop_writemap in E. unfold pixel_width. destruct (k_rad wk), (k_sam wk); try discriminate; injection E as <-; cbn; (repeat split); try congruence; destruct (e_sam k); reflexivity.
Qed.
Print Assumptions C98_written.
Theorem C98_written_needs_scale : forall a wk, prop_writemap a wk = Raise ValueError <-> k_rad wk = None /\ k_sam wk = None.
Proof. intros a wk. unfold prop_writemap. destruct (k_rad wk), (k_sam wk); (split; [intros H; try discriminate H; auto|intros [H1 H2]; try discriminate H1; try discriminate H2; reflexivity]). Qed.
Print Assumptions C98_written_needs_scale.

(* What fails.  Amplitude maps always; one of XC_MAP, YC_MAP alone; XC_MAP without YC_MAP is dropped silently if SAMPLING is given; no kind of map *)
Theorem C98_amplitude_fails : forall ip mg w f xs ys k, e_amp k = true -> exists e, prop_errormap ip mg w f xs ys k = Raise e /\ (e_nm k = false -> e = NameError).
Proof. intros ip mg w f xs ys k H. unfold prop_errormap. rewrite H. destruct (e_nm k); eexists; split; try reflexivity. discriminate. Qed.
Print Assumptions C98_amplitude_fails.
Theorem C98_one_coordinate : forall ip mg w f xs ys k, e_amp k = false -> (e_nm k && e_um k = false)%bool ->
  (forall x, e_xc k = Some x -> e_yc k = None -> e_sam k = None -> prop_errormap ip mg w f xs ys k = Raise NameError) /\
  (forall y, e_xc k = None -> e_yc k = Some y -> e_sam k = None -> prop_errormap ip mg w f xs ys k = Raise NameError) /\
  (forall p, e_sam k = Some p -> (e_xc k = None \/ e_yc k = None) ->
     prop_errormap ip mg w f xs ys k = prop_errormap ip mg w f xs ys (mkek (e_amp k) (e_nm k) (e_um k) (e_mirror k) (e_wave k) None None (e_sam k) (e_rot k) (e_mag k) (e_mul k))).
Proof.
  intros ip mg w f xs ys k HA HU. split; [|split].
  - intros x E1 E2 E3. unfold prop_errormap. now rewrite HA, HU, E1, E2, E3.
  - intros y E1 E2 E3. unfold prop_errormap. now rewrite HA, HU, E1, E2, E3.
  - intros p E [N|N]; unfold prop_errormap; cbn [e_amp e_nm e_um e_mirror e_wave e_xc e_yc e_sam e_rot e_mag e_mul]; rewrite HA, HU, E, N; [destruct (e_yc k); reflexivity|]. destruct (e_xc k); reflexivity.
Qed.
Print Assumptions C98_one_coordinate.
Theorem C98_kind_required : forall ip mg w f xs ys k, e_mirror k = false -> e_wave k = false -> forall r, prop_errormap ip mg w f xs ys k <> Ok r.
Proof.
  intros ip mg w f xs ys k M W r E. unfold prop_errormap in E. rewrite M, W in E. destruct (e_amp k); [destruct (e_nm k); discriminate|]. destruct (e_nm k && e_um k)%bool; [discriminate|].
  destruct (match e_xc k with Some _ => _ | None => _ end); cbn [rbind] in E; [|discriminate]. match type of E with context [rbind ?x _] => destruct x; cbn [rbind] in E end; discriminate.
Qed.
Print Assumptions C98_kind_required.

(* Rotation.  A quarter turn moves every number to the place turned by 90 degrees counter-clockwise (x to the right, y up) about the centre; so do repeated turns *)
Theorem C98_quarter_turn : forall ip f n q, row_exact ip -> frows f = n -> fcols f = n -> exists g, prop_rotate ip f (90 * INR q) (mkrk None None None None None) = Ok g /\ frows g = n /\ fcols g = n /\
  forall j i J L, (j < n)%nat -> (i < n)%nat -> (2 <= J <= n - 2)%nat -> (2 <= L <= n - 2)%nat -> (off n i, off n j) = turn q (off n L, off n J) -> fpx g j i = fpx f J L.
Proof. exact rotate_quarter. Qed.
Print Assumptions C98_quarter_turn.
Theorem C98_rotate_keywords_fail : forall ip f th k, (r_xc k <> None \/ r_yc k <> None \/ r_xs k <> None \/ r_ys k <> None) -> prop_rotate ip f th k = Raise NameError.
Proof. intros ip f th k H. unfold prop_rotate. destruct (r_xc k), (r_yc k), (r_xs k), (r_ys k); try reflexivity. destruct H as [H|[H|[H|H]]]; congruence. Qed.
Print Assumptions C98_rotate_keywords_fail.
(* At other angles the threaded library interpolates all pixels of a row in x with the fraction of the row's first: a ramp turned by 60 degrees has a step of 4 where
   3.5 is right, and where the library without threads has 3.5 *)
Theorem C98_rotate_threads_refuted : let f := mkf 9 9 (fun _ i => INR i) in exists g h, prop_rotate threaded_cubic f 60 (mkrk None None None None None) = Ok g /\ fpx g 4 3 = 4 /\
  prop_rotate plain_cubic f 60 (mkrk None None None None None) = Ok h /\ fpx h 4 3 = 7 / 2.
Proof. exact rotate_ramp. Qed.
Print Assumptions C98_rotate_threads_refuted.

(* Examples that meet the hypotheses, and three results other than documented: a map whose number in row Y, column X is 10 Y + X *)
Definition ex_wf : wavefront := mkw (mkf 8 8 (fun _ _ => RtoC 1)) 1 1 true true 0 0 4 1 1 8.
Definition ex_map (rows cols : Z) : mapfile := mkmap "wavefront" None (Some 1) (rows / 2) (cols / 2) (mkarr rows cols (fun Y X => 10 * IZR Y + IZR X)).
Definition ex_keys : ekeys := mkek false false false false true None None None None None None.
(* centred square map: 44 at the centre; shifted by one pixel in x: 33, not 43; shifted by one in y: 44, not 34; eight rows and twelve columns: 64, not 46 *)
Theorem C98_examples_refuted : forall mg, exists d1 w1 d2 w2 d3 w3 d4 w4,
  prop_errormap threaded_cubic mg ex_wf (ex_map 8 8) 0 0 ex_keys = Ok (d1, w1) /\ fpx d1 4 4 = 44 /\ fpx (get_wavefront w1) 4 4 = cis (2 * PI * 44) /\ prop_errormap threaded_cubic mg ex_wf (ex_map 8 8) 1 0 ex_keys = Ok (d2, w2) /\ fpx d2 4 4 = 33 /\ prop_errormap threaded_cubic mg ex_wf (ex_map 8 8) 0 1 ex_keys = Ok (d3, w3) /\ fpx d3 4 4 = 44 /\ prop_errormap threaded_cubic mg ex_wf (ex_map 8 12) 0 0 ex_keys = Ok (d4, w4) /\ fpx d4 4 4 = 64.
Proof.
  intros mg. assert (SW : square_wf ex_wf) by (split; reflexivity). assert (PK : plain_keys ex_keys) by (repeat split).
  assert (PW : forall a b, pixel_width ex_wf (ex_map a b) ex_keys = Some (w_dx ex_wf)) by reflexivity.
  assert (U : unit_factor ex_keys = 1) by (unfold unit_factor; cbn; lra). assert (PF : path_factor ex_keys = 1) by (unfold path_factor; cbn; lra).
  destruct (C98_placed threaded_cubic mg ex_wf (ex_map 8 8) 0 0 ex_keys 4 4 0 threaded_exact SW eq_refl ltac:(cbn; lra) PK (PW _ _) ltac:(cbn; auto) ltac:(cbn; lra)) as (d1 & w1 & E1 & _ & _ & _ & _ & V1).
  destruct (C98_placed threaded_cubic mg ex_wf (ex_map 8 8) 1 0 ex_keys 4 4 1 threaded_exact SW eq_refl ltac:(cbn; lra) PK (PW _ _) ltac:(cbn; auto) ltac:(cbn; lra)) as (d2 & w2 & E2 & _ & _ & _ & _ & V2).
  destruct (C98_placed threaded_cubic mg ex_wf (ex_map 8 8) 0 1 ex_keys 4 4 0 threaded_exact SW eq_refl ltac:(cbn; lra) PK (PW _ _) ltac:(cbn; auto) ltac:(cbn; lra)) as (d3 & w3 & E3 & _ & _ & _ & _ & V3).
  destruct (C98_placed threaded_cubic mg ex_wf (ex_map 8 12) 0 0 ex_keys 4 6 0 threaded_exact SW eq_refl ltac:(cbn; lra) PK (PW _ _) ltac:(cbn; auto) ltac:(cbn; lra)) as (d4 & w4 & E4 & _ & _ & _ & _ & V4).
  exists d1, w1, d2, w2, d3, w3, d4, w4. rewrite U in *. rewrite PF in *.
  split; [exact E1|]. destruct (V1 4%nat 4%nat 4%Z 4%Z) as [A1 B1]; [cbn; lia|cbn; lia|reflexivity|reflexivity|cbn; lia|cbn; lia|]. split; [rewrite A1; cbn; lra|]. split.
  { rewrite B1. unfold get_wavefront, shift_center. cbn [ex_wf w_arr fpx roll2 w_lam ex_map m_data px]. replace (2 * PI / 1 * (1 * (10 * 4 + 4))) with (2 * PI * 44) by field. apply Cmult_1_l. }
  split; [exact E2|]. destruct (V2 4%nat 4%nat 3%Z 3%Z) as [A2 _]; [cbn; lia|cbn; lia|reflexivity|reflexivity|cbn; lia|cbn; lia|]. split; [rewrite A2; cbn; lra|].
  split; [exact E3|]. destruct (V3 4%nat 4%nat 4%Z 4%Z) as [A3 _]; [cbn; lia|cbn; lia|reflexivity|reflexivity|cbn; lia|cbn; lia|]. split; [rewrite A3; cbn; lra|].
  split; [exact E4|]. destruct (V4 4%nat 4%nat 4%Z 6%Z) as [A4 _]; [cbn; lia|cbn; lia|reflexivity|reflexivity|cbn; lia|cbn; lia|]. rewrite A4. cbn. lra.
Qed.
Print Assumptions C98_examples_refuted.
