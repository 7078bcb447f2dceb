(* C101: PROPER's ellipses, apertures and obscurations; annular focal plane masks and DM stops *)
From Coquelicot Require Import Coquelicot.
From Verif Require Import Base StrBase RBase UtilModel UtilSpec UtilProofs CBase PropModel PropProofs OptModel PrpModel PrpProofs PrpProofs5 DmSurfProofs2 EllProofs ApModel ApSpec ApProofs ApProofs2 ApProofs3.
Open Scope R_scope.

(* prop_ellipse: every pixel is the fraction of its nsub x nsub samples that are in the ellipse, for every size, place and rotation of an ellipse
   that meets the array; DARK is the complement *)
Theorem C101_ellipse nsub w xr yr xc yc rot norm : Nat.odd nsub = true -> (2 <= w_n w)%nat -> 0 < w_dx w -> 0 < len w norm xr -> 0 < len w norm yr ->
  meets_grid (w_n w) (w_dx w) (len w norm xr) (len w norm yr) (len w norm xc) (len w norm yc) rot ->
  exists m d, prop_ellipse nsub w (mkep xr yr xc yc rot norm false) = Ok m /\ prop_ellipse nsub w (mkep xr yr xc yc rot norm true) = Ok d /\
    frows m = w_n w /\ fcols m = w_n w /\ frows d = w_n w /\ fcols d = w_n w /\
    (forall i j, (i < w_n w)%nat -> (j < w_n w)%nat ->
      covers (w_n w) nsub (w_dx w) (len w norm xr) (len w norm yr) (len w norm xc) (len w norm yc) rot (fpx m i j) (Z.of_nat i) (Z.of_nat j)) /\
    forall i j, fpx d i j = 1 - fpx m i j.
Proof. intros O N D X Y M. exact (ellipse_ok nsub w (mkep xr yr xc yc rot norm false) O N D X Y M). Qed.
Print Assumptions C101_ellipse.
(* the fraction is of this pixel alone: the samples of a pixel are in it *)
Theorem C101_samples n nsub dx j k : Nat.odd nsub = true -> 0 < dx -> (k < nsub)%nat ->
  (IZR j - INR (n / 2) - 1 / 2) * dx < sample n nsub dx j k < (IZR j - INR (n / 2) + 1 / 2) * dx.
Proof.
  intros O D K. pose proof (sub_small nsub k O K) as S. unfold sub_off in S. rewrite (odd_half nsub O) in S. unfold sample. set (q := (INR k - (INR nsub - 1) / 2) / INR nsub) in *. split; apply Rmult_lt_compat_r; auto; nra.
Qed.
Print Assumptions C101_samples.
(* an ellipse beyond the left or right edge, or above or below, is an IndexError instead of an empty image *)
Theorem C101_off_grid nsub w xr yr xc yc rot norm dark : (1 <= w_n w)%nat -> 0 < w_dx w ->
  let t := rot * PI / 180 in let L := len w norm in
  let ex := Rabs (L xr * cos t) + Rabs (L yr * sin t) in let ey := Rabs (L xr * sin t) + Rabs (L yr * cos t) in
  let lo := - (INR (w_n w / 2) + 3 / 2) * w_dx w in let hi := (INR (w_n w) - INR (w_n w / 2) + 1 / 2) * w_dx w in
  L xc + ex < lo \/ hi < L xc - ex \/ L yc + ey < lo \/ hi < L yc - ey ->
  prop_ellipse nsub w (mkep xr yr xc yc rot norm dark) = Raise IndexError.
Proof.
  intros N D t L ex ey lo hi H. set (n := w_n w) in *. set (dx := w_dx w) in *.
  assert (TP : forall x, to_pix w norm x = L x / dx) by (intros x; apply to_pix_len; unfold dx in D; lra).
  unfold prop_ellipse. cbn [a_xr a_yr a_xc a_yc a_rot a_norm a_dark]. unfold get_sampling, cpix. fold n dx t. rewrite !TP. destruct (Req_EM_T dx 0); [lra|]. cbv zeta.
  set (cx := INR (n / 2) + L xc / dx). set (cy := INR (n / 2) + L yc / dx). set (X := L xr / dx). set (Y := L yr / dx).
  assert (AX : Rabs (X * cos t) + Rabs (Y * sin t) = ex / dx).
  { unfold ex, X, Y. replace (L xr / dx * cos t) with (L xr * cos t * / dx) by (field; lra). replace (L yr / dx * sin t) with (L yr * sin t * / dx) by (field; lra). rewrite (Rabs_mult (L xr * cos t)), (Rabs_mult (L yr * sin t)), (Rabs_pos_eq (/ dx)) by (left; now apply Rinv_0_lt_compat). field. lra. }
  assert (AY : Rabs (X * sin t) + Rabs (Y * cos t) = ey / dx).
  { unfold ey, X, Y. replace (L xr / dx * sin t) with (L xr * sin t * / dx) by (field; lra). replace (L yr / dx * cos t) with (L yr * cos t * / dx) by (field; lra). rewrite (Rabs_mult (L xr * sin t)), (Rabs_mult (L yr * cos t)), (Rabs_pos_eq (/ dx)) by (left; now apply Rinv_0_lt_compat). field. lra. }
  assert (BX : cx - ex / dx <= min4 (xbox X Y t cx) /\ max4 (xbox X Y t cx) <= cx + ex / dx).
  { rewrite <- AX. split; [apply min4_is|apply max4_is]; intros [|[|[|[|k]]]] K; try lia; unfold xbox, corner_x, corner_y; unfold Rabs; destruct (Rcase_abs (X * cos t)), (Rcase_abs (Y * sin t)); nra. }
  assert (BY : cy - ey / dx <= min4 (ybox X Y t cy) /\ max4 (ybox X Y t cy) <= cy + ey / dx).
  { rewrite <- AY. split; [apply min4_is|apply max4_is]; intros [|[|[|[|k]]]] K; try lia; unfold ybox, corner_x, corner_y; unfold Rabs; destruct (Rcase_abs (X * sin t)), (Rcase_abs (Y * cos t)); nra. }
  assert (DIV : forall a b, a < b * dx -> a / dx < b) by (intros a b Q; apply Rmult_lt_reg_r with dx; auto; unfold Rdiv; rewrite Rmult_assoc, Rinv_l by lra; lra).
  assert (DIV2 : forall a b, b * dx < a -> b < a / dx) by (intros a b Q; apply Rmult_lt_reg_r with dx; auto; unfold Rdiv; rewrite Rmult_assoc, Rinv_l by lra; lra).
  assert (Q : (cx + ex / dx < - (3 / 2) \/ INR n + 1 / 2 < cx - ex / dx) \/ (cy + ey / dx < - (3 / 2) \/ INR n + 1 / 2 < cy - ey / dx)).
  { unfold cx, cy. destruct H as [H|[H|[H|H]]].
    - left. left. assert ((L xc + ex) / dx < - (INR (n / 2) + 3 / 2)) by (apply DIV; unfold lo in H; lra). unfold Rdiv in *. lra.
    - left. right. assert (INR n - INR (n / 2) + 1 / 2 < (L xc - ex) / dx) by (apply DIV2; unfold hi in H; lra). unfold Rdiv in *. lra.
    - right. left. assert ((L yc + ey) / dx < - (INR (n / 2) + 3 / 2)) by (apply DIV; unfold lo in H; lra). unfold Rdiv in *. lra.
    - right. right. assert (INR n - INR (n / 2) + 1 / 2 < (L yc - ey) / dx) by (apply DIV2; unfold hi in H; lra). unfold Rdiv in *. lra. }
  assert (Z1 : forall lo hi, lo <= hi \/ True -> hi < - (3 / 2) -> lo <= hi -> (clipz n (ZnearestE hi + 1) - clipz n (ZnearestE lo - 1) + 1 < 2)%Z).
  { intros a b _ K1 K2. destruct (near_up b) as [U _]. destruct (near_up a) as [U2 _]. assert (ZnearestE b < 0)%Z by (apply lt_IZR; lra). assert (ZnearestE a < 0)%Z by (apply lt_IZR; lra). unfold clipz. lia. }
  assert (Z2 : forall lo hi, INR n + 1 / 2 < lo -> (clipz n (ZnearestE hi + 1) - clipz n (ZnearestE lo - 1) + 1 < 2)%Z).
  { intros a b K1. destruct (near_up a) as [_ U]. assert (Z.of_nat n - 1 < ZnearestE a - 1 + 1)%Z by (apply lt_IZR; rewrite plus_IZR, !minus_IZR, <- INR_IZR_INZ; lra). unfold clipz. lia. }
  assert (M1 : min4 (xbox X Y t cx) <= max4 (xbox X Y t cx)) by (eapply Rle_trans; [apply (min4_le _ 0%nat); lia|apply (max4_ge _ 0%nat); lia]).
  assert (M2 : min4 (ybox X Y t cy) <= max4 (ybox X Y t cy)) by (eapply Rle_trans; [apply (min4_le _ 0%nat); lia|apply (max4_ge _ 0%nat); lia]).
  assert (QQ : (clipz n (ZnearestE (max4 (xbox X Y t cx)) + 1) - clipz n (ZnearestE (min4 (xbox X Y t cx)) - 1) + 1 < 2)%Z \/ (clipz n (ZnearestE (max4 (ybox X Y t cy)) + 1) - clipz n (ZnearestE (min4 (ybox X Y t cy)) - 1) + 1 < 2)%Z).
  { destruct Q as [[Q|Q]|[Q|Q]]; [left; apply Z1; auto; lra|left; apply Z2; lra|right; apply Z1; auto; lra|right; apply Z2; lra]. }
  destruct (Z.ltb_spec (clipz n (ZnearestE (max4 (xbox X Y t cx)) + 1) - clipz n (ZnearestE (min4 (xbox X Y t cx)) - 1) + 1) 2) as [|Z3]; [reflexivity|].
  destruct (Z.ltb_spec (clipz n (ZnearestE (max4 (ybox X Y t cy)) + 1) - clipz n (ZnearestE (min4 (ybox X Y t cy)) - 1) + 1) 2) as [|Z4]; [reflexivity|]. exfalso. destruct QQ; lia.
Qed.
Print Assumptions C101_off_grid.
(* an ellipse of no width raises, on every grid *)
Theorem C101_no_radius nsub w xr yr xc yc rot dark : (xr = 0 \/ yr = 0) -> exists e, prop_ellipse nsub w (mkep xr yr xc yc rot false dark) = Raise e.
Proof.
  intros H. unfold prop_ellipse. cbn [a_xr a_yr a_xc a_yc a_rot a_norm a_dark to_pix]. destruct (Req_EM_T (get_sampling w) 0) as [|D]; [eauto|]. cbv zeta. destruct (_ <? 2)%Z; [eauto|]. destruct (_ <? 2)%Z; [eauto|].
  destruct (Req_EM_T (xr / get_sampling w) 0) as [|X]; [eauto|]. destruct (Req_EM_T (yr / get_sampling w) 0) as [|Y]; [eauto|]. exfalso. destruct H as [-> | ->]; [apply X|apply Y]; field; auto.
Qed.
Print Assumptions C101_no_radius.
(* apertures and obscurations multiply the field by the coverage and by its complement, on even grids *)
Theorem C101_aperture nsub w xr yr xc yc rot norm : Nat.odd nsub = true -> square_w w -> (2 <= w_n w)%nat -> Nat.even (w_n w) = true -> 0 < w_dx w -> 0 < len w norm xr -> 0 < len w norm yr ->
  meets_grid (w_n w) (w_dx w) (len w norm xr) (len w norm yr) (len w norm xc) (len w norm yc) rot ->
  exists w1 w2, elliptical_aperture nsub w xr yr xc yc rot norm = Ok w1 /\ elliptical_obscuration nsub w xr yr xc yc rot norm = Ok w2 /\
    square_w w1 /\ square_w w2 /\ w1 = set_arr w (w_arr w1) /\ w2 = set_arr w (w_arr w2) /\
    forall i j, (i < w_n w)%nat -> (j < w_n w)%nat -> exists v, covers (w_n w) nsub (w_dx w) (len w norm xr) (len w norm yr) (len w norm xc) (len w norm yc) rot v (Z.of_nat i) (Z.of_nat j) /\
      centred w1 i j = Cmult (centred w i j) (RtoC v) /\ centred w2 i j = Cmult (centred w i j) (RtoC (1 - v)).
Proof.
  intros O S N EV D X Y M. destruct (C101_ellipse nsub w xr yr xc yc rot norm O N D X Y M) as (m & d & E1 & E2 & M1 & M2 & D1 & D2 & V & U).
  destruct (times_ok w m S M1 M2) as (F & T & T1 & T2 & TV). destruct (times_ok w d S D1 D2) as (G & T' & T1' & T2' & TV'). destruct S as [S1 S2].
  unfold elliptical_aperture, elliptical_obscuration. rewrite E1, E2. cbn [rbind]. exists (set_arr w F), (set_arr w G). split; [exact T|]. split; [exact T'|]. split; [split; auto|]. split; [split; auto|]. split; [reflexivity|]. split; [reflexivity|].
  intros i j Hi Hj. exists (fpx m i j). split; [now apply V|]. unfold centred. cbn [shift_center roll2 set_arr w_arr frows fcols fpx]. rewrite T1, T2, T1', T2', S1, S2. rewrite TV, TV' by (apply roll_lt; lia). rewrite !roll_twice_even by auto. rewrite U. auto.
Qed.
Print Assumptions C101_aperture.
(* the circular ones are elliptical ones *)
Theorem C101_circular nsub w r xc yc norm : circular_aperture nsub w r xc yc norm = elliptical_aperture nsub w r r xc yc 0 norm /\ circular_obscuration nsub w r xc yc norm = elliptical_obscuration nsub w r r xc yc 0 norm.
Proof. split; reflexivity. Qed.
(* an aperture and the obscuration of the same place share the field *)
Theorem C101_babinet nsub w xr yr xc yc rot norm w1 w2 : square_w w -> elliptical_aperture nsub w xr yr xc yc rot norm = Ok w1 -> elliptical_obscuration nsub w xr yr xc yc rot norm = Ok w2 ->
  forall i j, (i < w_n w)%nat -> (j < w_n w)%nat -> Cplus (fpx (w_arr w1) i j) (fpx (w_arr w2) i j) = fpx (w_arr w) i j.
Proof.
  intros S E1 E2 i j Hi Hj. unfold elliptical_aperture in E1. unfold elliptical_obscuration in E2.
  destruct (prop_ellipse nsub w (mkep xr yr xc yc rot norm false)) as [m|] eqn:P1; [|discriminate]. destruct (prop_ellipse nsub w (mkep xr yr xc yc rot norm true)) as [d|] eqn:P2; [|discriminate]. cbn [rbind] in E1, E2.
  assert (Q : frows m = w_n w /\ fcols m = w_n w /\ frows d = w_n w /\ fcols d = w_n w /\ forall i j, fpx d i j = 1 - fpx m i j).
  { unfold prop_ellipse in P1, P2. cbn [a_xr a_yr a_xc a_yc a_rot a_norm a_dark] in P1, P2. destruct (Req_EM_T (get_sampling w) 0); [discriminate|]. cbv zeta in P1, P2. destruct (_ <? 2)%Z; [discriminate|]. destruct (_ <? 2)%Z; [discriminate|].
    destruct (Req_EM_T (to_pix w norm xr) 0); [discriminate|]. destruct (Req_EM_T (to_pix w norm yr) 0); [discriminate|]. injection P1 as <-. injection P2 as <-. cbn [frows fcols fpx]. repeat (split; [reflexivity|]). intros a b. destruct (_ && _ && _ && _)%bool; lra. }
  destruct Q as (A & B & A' & B' & U). destruct (times_ok w m S A B) as (F & T & _ & _ & TV). destruct (times_ok w d S A' B') as (G & T' & _ & _ & TV'). rewrite T in E1. rewrite T' in E2. injection E1 as <-. injection E2 as <-. cbn [set_arr w_arr].
  rewrite TV, TV' by auto. rewrite U. rewrite RtoC_minus. ring.
Qed.
Print Assumptions C101_babinet.
(* on odd grids the mask is one pixel away from where it should be *)
Theorem C101_odd_grid_refuted nsub w xr yr xc yc rot norm : Nat.odd nsub = true -> square_w w -> (2 <= w_n w)%nat -> Nat.odd (w_n w) = true -> 0 < w_dx w -> 0 < len w norm xr -> 0 < len w norm yr ->
  meets_grid (w_n w) (w_dx w) (len w norm xr) (len w norm yr) (len w norm xc) (len w norm yc) rot ->
  exists w1, elliptical_aperture nsub w xr yr xc yc rot norm = Ok w1 /\
    forall i j, (i < w_n w)%nat -> (j < w_n w)%nat -> exists v, centred w1 i j = Cmult (centred w i j) (RtoC v) /\
      covers (w_n w) nsub (w_dx w) (len w norm xr) (len w norm yr) (len w norm xc) (len w norm yc) rot v (Z.of_nat ((i + 1) mod w_n w)) (Z.of_nat ((j + 1) mod w_n w)).
Proof.
  intros O S N EV D X Y M. destruct (C101_ellipse nsub w xr yr xc yc rot norm O N D X Y M) as (m & d & E1 & E2 & M1 & M2 & D1 & D2 & V & U).
  destruct (times_ok w m S M1 M2) as (F & T & T1 & T2 & TV). destruct S as [S1 S2]. unfold elliptical_aperture. rewrite E1. cbn [rbind]. exists (set_arr w F). split; [exact T|].
  intros i j Hi Hj. exists (fpx m ((i + 1) mod w_n w)%nat ((j + 1) mod w_n w)%nat). split.
  - unfold centred. cbn [shift_center roll2 set_arr w_arr frows fcols fpx]. rewrite T1, T2, S1, S2. rewrite TV by (apply roll_lt; lia). now rewrite !roll_twice_odd by auto.
  - apply V; apply Nat.mod_upper_bound; lia.
Qed.
Print Assumptions C101_odd_grid_refuted.
(* ---- FALCO's masks ---- *)
(* the annular mask: inside the outer circle 1, in the inner spot the amplitude given, antialiased 101 x 101; any array size, offset and centring *)
Theorem C101_annular p N : 0 < n_res p -> 0 < n_in p -> 0 < rho_max p -> valid_centering (n_centering p) -> (2 <= N)%nat -> n_narray p = Some N \/ n_narray p = None /\ default_size p N ->
  let dx := 1 / n_res p in let xc := n_xo p + half_pixel (n_centering p) dx in let yc := n_yo p + half_pixel (n_centering p) dx in
  between_pixels N dx xc -> between_pixels N dx yc ->
  exists f, gen_annular_fpm p = Ok f /\ frows f = N /\ fcols f = N /\
    forall i j, (i < N)%nat -> (j < N)%nat -> exists vi vo, covers N 101 dx (n_in p) (n_in p) xc yc 0 vi (Z.of_nat i) (Z.of_nat j) /\
      (match n_out p with Some r => covers N 101 dx r r xc yc 0 vo (Z.of_nat i) (Z.of_nat j) | None => vo = 1 end) /\
      fpx f i j = vo * ((1 - vi) + n_amp p * vi).
Proof.
  intros R I M VC N2 SZ dx xc yc BX BY. assert (D : 0 < dx) by (unfold dx; apply Rdiv_lt_0_compat; lra). assert (NP : 0 < INR N) by (apply lt_0_INR; lia).
  assert (SIZE : (do nd <- annular_size p (rho_max p); Ok (match n_narray p with Some n => n | None => nd end)) = Ok N).
  { unfold annular_size. destruct VC as [VC|VC]; rewrite VC; cbn [String.eqb Ascii.eqb Bool.eqb rbind]; f_equal; (destruct SZ as [SZ|[SZ DS]]; rewrite SZ; [reflexivity|]); apply Nat2Z.inj; 
    unfold default_size, largest_offset in DS; rewrite VC in DS; cbn [String.eqb Ascii.eqb Bool.eqb] in DS; destruct DS as (K1 & K2 & K3);
    match goal with |- context [ceil_even ?x] => destruct (ceil_even_least x) as (L1 & L2 & L3); match type of K2 with ?y <= _ => replace y with x in * by (field; lra) end end; rewrite Z2Nat.id by (pose proof (K3 _ L1 L2); lia); apply Z.le_antisymm; auto. }
  unfold gen_annular_fpm. fold (rho_max p). destruct (Req_EM_T (n_res p) 0); [lra|]. destruct (annular_size p (rho_max p)) as [nd|]; [|discriminate]. cbn [rbind] in SIZE |- *. injection SIZE as ->. cbv zeta. fold dx.
  destruct (Req_EM_T (INR N * dx) 0) as [Z|_]; [nra|]. set (cs := if String.eqb (n_centering p) "interpixel" then - (INR N * dx) / 2 / INR N else 0).
  assert (EXC : 0 + cs + n_xo p = xc) by (unfold cs, xc, half_pixel; destruct (String.eqb _ _); [field; lra|ring]). assert (EYC : 0 + cs + n_yo p = yc) by (unfold cs, yc, half_pixel; destruct (String.eqb _ _); [field; lra|ring]). rewrite EXC, EYC.
  set (dm := 2 * n_res p * rho_max p). assert (DM : 0 < dm) by (unfold dm; nra). assert (DXE : dm / (INR N * (dm / (INR N * dx))) = dx) by (field; lra).
  assert (G : forall r, meets_grid N dx r r xc yc 0) by (intros r; apply centre_meets; assumption).
  destruct (plane_stop 101 dm (/ 1000000) N (dm / (INR N * dx)) (rho_max p) xc yc eq_refl N2 ltac:(lra) ltac:(rewrite DXE; exact D)) as (w & w1 & E1 & WN & WD & E2 & W1N & W1D & A1 & A2 & A3 & A4 & A5 & A6).
  { replace (INR N * (dm / (INR N * dx))) with (dm / dx) by (field; lra). apply Rgt_not_eq, Rdiv_lt_0_compat; lra. }
  { exact M. }
  { rewrite DXE. apply G. }
  cbv zeta in *. rewrite DXE in *. rewrite E1. cbn [rbind].
  assert (SPOT : forall ww, w_n ww = N -> w_dx ww = dx -> exists s, prop_ellipse 101 ww (mkep (n_in p) (n_in p) xc yc 0 false true) = Ok s /\
     forall i j, (i < N)%nat -> (j < N)%nat -> exists vi, covers N 101 dx (n_in p) (n_in p) xc yc 0 vi (Z.of_nat i) (Z.of_nat j) /\ fpx s i j = 1 - vi).
  { intros ww Q1 Q2. destruct (C101_ellipse 101 ww (n_in p) (n_in p) xc yc 0 false eq_refl) as (m & d & _ & F2 & _ & _ & _ & _ & V & U); rewrite ?Q1, ?Q2 in *; cbn [len]; auto. exists d. split; [exact F2|]. intros i j Hi Hj. exists (fpx m i j). split; [now apply V|apply U]. }
  destruct (n_out p) as [r|] eqn:NO.
  - assert (RM : rho_max p = r) by (unfold rho_max; now rewrite NO). rewrite RM in E2. rewrite E2. cbn [rbind]. destruct (SPOT w1 W1N W1D) as (s & F & V). rewrite F. cbn [rbind]. eexists. split; [reflexivity|]. cbn [frows fcols fpx]. split; [exact A3|]. split; [exact A4|].
    intros i j Hi Hj. destruct (V i j Hi Hj) as (vi & C & E). exists vi, (fpx (amplitude w1) i j). split; [exact C|]. split; [rewrite <- RM; now apply A6|]. rewrite E. ring.
  - cbn [rbind]. destruct (SPOT w WN WD) as (s & F & V). rewrite F. cbn [rbind]. eexists. split; [reflexivity|]. cbn [frows fcols fpx]. split; [exact A1|]. split; [exact A2|].
    intros i j Hi Hj. destruct (V i j Hi Hj) as (vi & C & E). exists vi, 1. split; [exact C|]. split; [reflexivity|]. rewrite A5 by auto. rewrite E. ring.
Qed.
Print Assumptions C101_annular.
Lemma sq_le2 a b : a ^ 2 + b ^ 2 <= 1 -> -1 <= a <= 1 /\ -1 <= b <= 1.
Proof. intros H. repeat split; nra. Qed.
(* its own size fits: the disc does not reach beyond the array, and every smaller even array would be too small for some sign of the offset *)
Theorem C101_annular_size p N : 0 < n_res p -> 1 <= 2 * rho_max p * n_res p -> valid_centering (n_centering p) -> default_size p N ->
  let dx := 1 / n_res p in let xc := n_xo p + half_pixel (n_centering p) dx in let yc := n_yo p + half_pixel (n_centering p) dx in
  (2 <= N)%nat /\ between_pixels N dx xc /\ between_pixels N dx yc /\
  (forall i j, ~ in_array N i j -> coverage N 101 dx 1 (rho_max p) (rho_max p) xc yc 0 i j = 0) /\
  (forall k, (2 * k < Z.of_nat N)%Z -> (IZR k - (if String.eqb (n_centering p) "pixel" then 1 / 2 else 0)) * dx < rho_max p + largest_offset p).
Proof.
  intros R M VC DS dx xc yc. assert (D : 0 < dx) by (unfold dx; apply Rdiv_lt_0_compat; lra). assert (RD : n_res p * dx = 1) by (unfold dx; field; lra).
  set (o := largest_offset p). assert (OX : Rabs (n_xo p) <= o) by apply Rmax_l. assert (OY : Rabs (n_yo p) <= o) by apply Rmax_r. apply Rabs_le_between in OX. apply Rabs_le_between in OY. set (rho := rho_max p) in *.
  destruct DS as ((h & HH) & K2 & K3). fold o rho in K2, K3. assert (RHO : 0 < rho) by nra. assert (O0 : 0 <= o) by lra.
  set (px := if String.eqb (n_centering p) "pixel" then 1 else 0) in *. assert (PX : px = 0 \/ px = 1) by (unfold px; destruct (String.eqb _ _); auto).
  assert (HP : half_pixel (n_centering p) dx = - (1 - px) * (dx / 2)).
  { unfold half_pixel, px. destruct VC as [VC|VC]; rewrite VC; cbn [String.eqb Ascii.eqb Bool.eqb]; lra. }
  assert (H1 : (1 <= h)%Z). { assert (0 < IZR (Z.of_nat N)) by nra. assert (0 < Z.of_nat N)%Z by (apply lt_IZR; lra). lia. }
  assert (NH : (N / 2)%nat = Z.to_nat h) by (replace N with (2 * Z.to_nat h)%nat by lia; rewrite Nat.mul_comm, Nat.div_mul by lia; reflexivity).
  assert (IH : INR (N / 2) = IZR h) by (rewrite NH, INR_IZR_INZ, Z2Nat.id by lia; reflexivity). assert (IN : INR N = 2 * IZR h) by (rewrite INR_IZR_INZ, HH, mult_IZR; reflexivity).
  rewrite HH, mult_IZR in K2. assert (B : rho + o + px * (dx / 2) <= IZR h * dx). { assert (Q : (2 * (rho + o) * n_res p + px) * dx <= 2 * IZR h * dx) by (apply Rmult_le_compat_r; lra). replace ((2 * (rho + o) * n_res p + px) * dx) with (2 * (rho + o) * (n_res p * dx) + px * dx) in Q by ring. rewrite RD in Q. lra. }
  assert (RH : dx / 2 <= rho). { assert (Q : 1 * dx <= 2 * rho * n_res p * dx) by (apply Rmult_le_compat_r; lra). replace (2 * rho * n_res p * dx) with (2 * rho * (n_res p * dx)) in Q by ring. rewrite RD in Q. lra. }
  split; [lia|]. unfold between_pixels, xc, yc. rewrite HP, IH, IN. split; [destruct PX as [-> | ->]; split; nra|]. split; [destruct PX as [-> | ->]; split; nra|]. split.
  - intros i j NI. apply cov_none; [reflexivity|]. intros k l Hk Hl Q. unfold inside in Q. cbv zeta in Q. replace (0 * PI / 180) with 0 in Q by field. rewrite cos_0, sin_0 in Q. rewrite !Rmult_0_l, !Rmult_1_l, Rminus_0_r, Rplus_0_l in Q.
    assert (BOX : forall z q, -1 <= z / rho <= 1 -> q = z -> - rho <= q <= rho). { intros z q [Z1 Z2] ->. assert (E : z = z / rho * rho) by (field; lra). rewrite E. split; nra. }
    set (ux := sample N 101 dx j k) in *. set (uy := sample N 101 dx i l) in *.
    pose proof (sq_le2 _ _ Q) as [QX QY]. apply (fun h => BOX _ _ h eq_refl) in QX. apply (fun h => BOX _ _ h eq_refl) in QY.
    pose proof (C101_samples N 101 dx j k eq_refl D Hk) as SX. pose proof (C101_samples N 101 dx i l eq_refl D Hl) as SY. fold ux in SX. fold uy in SY. rewrite IH in SX, SY.
    assert (CASES : (j <= -1 \/ 2 * h <= j \/ i <= -1 \/ 2 * h <= i)%Z) by (unfold in_array in NI; lia).
    destruct CASES as [C|[C|[C|C]]]; apply IZR_le in C; try rewrite mult_IZR in C.
    + assert ((IZR j - IZR h + 1 / 2) * dx <= (- IZR h - 1 / 2) * dx) by (apply Rmult_le_compat_r; lra). destruct PX as [-> | ->]; lra.
    + assert ((IZR h - 1 / 2) * dx <= (IZR j - IZR h - 1 / 2) * dx) by (apply Rmult_le_compat_r; lra). destruct PX as [-> | ->]; lra.
    + assert ((IZR i - IZR h + 1 / 2) * dx <= (- IZR h - 1 / 2) * dx) by (apply Rmult_le_compat_r; lra). destruct PX as [-> | ->]; lra.
    + assert ((IZR h - 1 / 2) * dx <= (IZR i - IZR h - 1 / 2) * dx) by (apply Rmult_le_compat_r; lra). destruct PX as [-> | ->]; lra.
  - intros k Hk. destruct (Rle_dec (rho + o) ((IZR k - (if String.eqb (n_centering p) "pixel" then 1 / 2 else 0)) * dx)) as [Q|Q]; [|lra]. exfalso. specialize (K3 (2 * k)%Z ltac:(eauto)).
    assert (Z.of_nat N <= 2 * k)%Z; [|lia]. apply K3. rewrite mult_IZR. assert (PX2 : (if String.eqb (n_centering p) "pixel" then 1 / 2 else 0) = px / 2) by (unfold px; destruct (String.eqb _ _); field). rewrite PX2 in Q.
    assert (T : (rho + o) * n_res p <= (IZR k - px / 2) * dx * n_res p) by (apply Rmult_le_compat_r; lra). replace ((IZR k - px / 2) * dx * n_res p) with ((IZR k - px / 2) * (n_res p * dx)) in T by ring. rewrite RD in T. lra.
Qed.
Print Assumptions C101_annular_size.
(* the stop of a DM: coverage by the disc, in the size the code chooses *)
Theorem C101_dm_stop nsub dx diam s N : Nat.odd nsub = true -> 0 < dx -> 0 < diam -> valid_centering s -> least_even (diam / dx + (if String.eqb s "pixel" then 1 / 2 else 0)) (Z.of_nat N) ->
  exists f, gen_dm_stop nsub dx diam s = Ok f /\ frows f = N /\ fcols f = N /\
    forall i j, (i < N)%nat -> (j < N)%nat -> covers N nsub dx (diam / 2) (diam / 2) (half_pixel s dx) (half_pixel s dx) 0 (fpx f i j) (Z.of_nat i) (Z.of_nat j).
Proof.
  intros O D DD VC ((h & HH) & K2 & K3). assert (DP : 0 < diam / dx) by (apply Rdiv_lt_0_compat; auto). assert (NB : (String.eqb s "pixel" || String.eqb s "interpixel")%bool = true) by (destruct VC as [-> | ->]; reflexivity).
  assert (SZ : Z.to_nat (ceil_even (diam / dx + (if String.eqb s "pixel" then 1 / 2 else 0))) = N).
  { match goal with |- context [ceil_even ?x] => destruct (ceil_even_least x) as (L1 & L2 & L3); set (y := x) in * end. assert (E : ceil_even y = Z.of_nat N) by (apply Z.le_antisymm; [apply L3; eauto|apply K3; auto]). rewrite E. apply Nat2Z.id. }
  assert (H1 : (1 <= h)%Z). { assert (0 < IZR (Z.of_nat N)) by (destruct (String.eqb s "pixel"); lra). assert (0 < Z.of_nat N)%Z by (apply lt_IZR; lra). lia. }
  assert (NH : (N / 2)%nat = Z.to_nat h) by (replace N with (2 * Z.to_nat h)%nat by lia; rewrite Nat.mul_comm, Nat.div_mul by lia; reflexivity).
  assert (IH : INR (N / 2) = IZR h) by (rewrite NH, INR_IZR_INZ, Z2Nat.id by lia; reflexivity). assert (IN : INR N = 2 * IZR h) by (rewrite INR_IZR_INZ, HH, mult_IZR; reflexivity). assert (N2 : (2 <= N)%nat) by lia. apply IZR_le in H1.
  unfold gen_dm_stop. destruct (Rle_dec dx 0); [lra|]. destruct (Rle_dec diam 0); [lra|]. rewrite NB. cbn [negb]. rewrite SZ.
  assert (CS : - dx / 2 * (if String.eqb s "interpixel" then 1 else 0) = half_pixel s dx) by (unfold half_pixel; destruct (String.eqb s "interpixel"); field). cbv zeta. rewrite CS.
  assert (DXE : INR N * dx / (INR N * 1) = dx) by (field; lra).
  destruct (plane_stop nsub (INR N * dx) (/ 1000000) N 1 (diam / 2) (half_pixel s dx) (half_pixel s dx) O N2 ltac:(lra) ltac:(rewrite DXE; exact D) ltac:(lra) ltac:(lra)) as (w & w1 & E1 & WN & WD & E2 & W1N & W1D & A1 & A2 & A3 & A4 & A5 & A6).
  { rewrite DXE. apply centre_meets; rewrite IH, IN; unfold half_pixel; destruct (String.eqb s "interpixel"); split; nra. }
  cbv zeta in *. rewrite DXE in *. rewrite E1. cbn [rbind]. rewrite E2. cbn [rbind]. eexists. split; [reflexivity|]. auto.
Qed.
Print Assumptions C101_dm_stop.
Lemma cov_some n nsub dx tol xr yr xc yc rot i j k l : Nat.odd nsub = true -> (k < nsub)%nat -> (l < nsub)%nat -> inside tol xr yr xc yc rot (sample n nsub dx j k) (sample n nsub dx i l) ->
  / (INR nsub * INR nsub) <= coverage n nsub dx tol xr yr xc yc rot i j.
Proof.
  intros O Hk Hl I. unfold coverage. assert (P : 0 < INR nsub) by (apply lt_0_INR; lia). set (l0 := filter _ _). assert (Q : In (k, l) l0).
  { unfold l0. apply filter_In. split; [apply in_prod; apply in_seq; lia|]. cbn [fst snd]. destruct (inside_dec _ _ _ _ _ _ _ _); tauto. }
  assert (1 <= INR (length l0)). { change 1 with (INR 1). apply le_INR. destruct l0; [destruct Q|cbn; lia]. }
  unfold Rdiv. rewrite <- (Rmult_1_l (/ (INR nsub * INR nsub))) at 1. apply Rmult_le_compat_r; [left; apply Rinv_0_lt_compat; nra|auto].
Qed.
(* "no extra zero padding": half a pixel too little when pixel-centred; a stop 9.5 pixels wide gets 10 pixels and loses its last column *)
Theorem C101_dm_stop_refuted : exists f, gen_dm_stop 11 1 (19 / 2) "pixel" = Ok f /\ frows f = 10%nat /\ fcols f = 10%nat /\ / 121 <= coverage 10 11 1 1 (19 / 4) (19 / 4) (half_pixel "pixel" 1) (half_pixel "pixel" 1) 0 5 10.
Proof.
  destruct (C101_dm_stop 11 1 (19 / 2) "pixel" 10 eq_refl ltac:(lra) ltac:(lra) (or_introl eq_refl)) as (f & E & F1 & F2 & _).
  { cbn [String.eqb Ascii.eqb Bool.eqb]. split; [exists 5%Z; reflexivity|]. split; [cbn; lra|]. intros m (k & ->) H. rewrite mult_IZR in H. assert (4 < k)%Z by (apply lt_IZR; lra). lia. }
  exists f. split; [exact E|]. split; [exact F1|]. split; [exact F2|]. replace (/ 121) with (/ (INR 11 * INR 11)) by (simpl; field). apply (cov_some _ _ _ _ _ _ _ _ _ _ _ 0 5); [reflexivity|lia|lia|].
  unfold inside, half_pixel, sample. cbn [String.eqb Ascii.eqb Bool.eqb]. cbv zeta. replace (0 * PI / 180) with 0 by field. rewrite cos_0, sin_0. replace (10 / 2)%nat with 5%nat by reflexivity. simpl INR. lra.
Qed.
Print Assumptions C101_dm_stop_refuted.
Lemma sq_lt3 a b : a ^ 2 + b ^ 2 <= 5 -> -3 < a < 3 /\ -3 < b < 3.
Proof. intros H. repeat split; nra. Qed.
Lemma filter_le {A} (f g : A -> bool) l : (forall x, In x l -> f x = true -> g x = true) -> (length (filter f l) <= length (filter g l))%nat.
Proof.
  induction l as [|a l IH]; intros H; [auto|]. cbn [filter]. specialize (IH ltac:(intros; apply H; auto; now right)). destruct (f a) eqn:E; [rewrite (H a (or_introl eq_refl) E)|destruct (g a)]; cbn [length]; lia.
Qed.
(* the stop depends on what was computed before: generating an annular mask sets the library's antialiasing to 101, it is 11 at first *)
Theorem C101_dm_stop_history : exists dx diam f g, gen_dm_stop 11 dx diam "pixel" = Ok f /\ gen_dm_stop 101 dx diam "pixel" = Ok g /\ fpx g 1 1 < fpx f 1 1.
Proof.
  assert (SZ : least_even (1 / 25 / 1 + (if String.eqb "pixel" "pixel" then 1 / 2 else 0)) (Z.of_nat 2)).
  { cbn [String.eqb Ascii.eqb Bool.eqb]. split; [exists 1%Z; reflexivity|]. split; [cbn; lra|]. intros m (k & ->) H. rewrite mult_IZR in H. assert (0 < k)%Z by (apply lt_IZR; lra). lia. }
  destruct (C101_dm_stop 11 1 (1 / 25) "pixel" 2 eq_refl ltac:(lra) ltac:(lra) (or_introl eq_refl) SZ) as (f & E & _ & _ & V). destruct (C101_dm_stop 101 1 (1 / 25) "pixel" 2 eq_refl ltac:(lra) ltac:(lra) (or_introl eq_refl) SZ) as (g & E' & _ & _ & V').
  exists 1, (1 / 25), f, g. split; [exact E|]. split; [exact E'|]. destruct (V 1%nat 1%nat ltac:(lia) ltac:(lia)) as [A _]. destruct (V' 1%nat 1%nat ltac:(lia) ltac:(lia)) as [_ B].
  eapply Rle_lt_trans; [exact B|]. eapply Rlt_le_trans; [|exact A]. eapply Rlt_le_trans.
  2:{ apply (cov_some _ _ _ _ _ _ _ _ _ _ _ 5 5); [reflexivity|lia|lia|]. unfold inside, half_pixel, sample. cbn [String.eqb Ascii.eqb Bool.eqb]. cbv zeta. replace (0 * PI / 180) with 0 by field. rewrite cos_0, sin_0. replace (2 / 2)%nat with 1%nat by reflexivity. simpl INR. simpl IZR. lra. }
  unfold coverage. assert (L : (length (filter (fun kl => if inside_dec (1 + / 10 ^ 10) (1 / 25 / 2) (1 / 25 / 2) (half_pixel "pixel" 1) (half_pixel "pixel" 1) 0 (sample 2 101 1 (Z.of_nat 1) (fst kl)) (sample 2 101 1 (Z.of_nat 1) (snd kl)) then true else false) (list_prod (seq 0 101) (seq 0 101))) <=
     length (filter (fun kl => ((48 <=? fst kl) && (fst kl <=? 52) && (48 <=? snd kl) && (snd kl <=? 52))%nat) (list_prod (seq 0 101) (seq 0 101))))%nat).
  { apply filter_le. intros [k l] _ H. cbn [fst snd] in *. destruct (inside_dec _ _ _ _ _ _ _ _) as [I|]; [|discriminate]. clear H. unfold inside, half_pixel, sample in I. cbn [String.eqb Ascii.eqb Bool.eqb] in I. cbv zeta in I. replace (0 * PI / 180) with 0 in I by field. rewrite cos_0, sin_0 in I. replace (2 / 2)%nat with 1%nat in I by reflexivity.
    replace (INR 101) with 101 in I by (rewrite INR_IZR_INZ; reflexivity). replace (INR 1) with 1 in I by reflexivity. simpl IZR in I. set (x := INR k) in *. set (y := INR l) in *.
    assert (I2 : (x - 50) ^ 2 + (y - 50) ^ 2 <= 5). { replace ((1 * ((1 - 1 + (x - (101 - 1) / 2) / 101) * 1 - 0) - 0 * ((1 - 1 + (y - (101 - 1) / 2) / 101) * 1 - 0)) / (1 / 25 / 2)) with ((x - 50) * (50 / 101)) in I by field. replace ((0 * ((1 - 1 + (x - (101 - 1) / 2) / 101) * 1 - 0) + 1 * ((1 - 1 + (y - (101 - 1) / 2) / 101) * 1 - 0)) / (1 / 25 / 2)) with ((y - 50) * (50 / 101)) in I by field. 
      assert (/ 10 ^ 10 <= / 100) by (apply Rinv_le_contravar; lra). nra. }
    pose proof (sq_lt3 _ _ I2) as [B1 B2]. assert (C1 : 47 < x < 53) by lra. assert (C2 : 47 < y < 53) by lra. clear B1 B2. rename C1 into B1. rename C2 into B2. unfold x, y in B1, B2. rewrite INR_IZR_INZ in B1, B2. destruct B1 as [B1 B1']. destruct B2 as [B2 B2']. apply lt_IZR in B1, B1', B2, B2'. 
    rewrite !andb_true_iff, !Nat.leb_le. lia. }
  match type of L with (_ <= ?r)%nat => replace r with 25%nat in L by (vm_compute; reflexivity) end. apply le_INR in L. replace (INR 25) with 25 in L by (simpl; ring). replace (INR 101) with 101 by (rewrite INR_IZR_INZ; reflexivity). replace (INR 11) with 11 by (simpl; ring).
  apply Rle_lt_trans with (25 / (101 * 101)); [apply Rmult_le_compat_r; lra|lra].
Qed.
Print Assumptions C101_dm_stop_history.
(* the hypotheses above are met: an annulus of radii 1 and 3 lambda/D, 10 pixels per lambda/D, on its own array of 62 pixels *)
Example C101_example : let p := mkan 10 1 (Some 3) 0 0 "pixel" (1 / 2) None in default_size p 62 /\ 1 <= 2 * rho_max p * n_res p /\ exists f, gen_annular_fpm p = Ok f /\ frows f = 62%nat.
Proof.
  intros p. assert (DS : default_size p 62).
  { unfold default_size, p, rho_max, largest_offset. cbn [n_out n_in n_xo n_yo n_res n_centering String.eqb Ascii.eqb Bool.eqb]. rewrite Rabs_R0, Rmax_left by lra. split; [exists 31%Z; reflexivity|]. split; [cbn; lra|]. intros m (k & ->) H. rewrite mult_IZR in H. assert (30 < k)%Z by (apply lt_IZR; lra). lia. }
  split; [exact DS|]. assert (RH : 1 <= 2 * rho_max p * n_res p) by (unfold p, rho_max; cbn; lra). split; [exact RH|].
  destruct (C101_annular_size p 62 ltac:(unfold p; cbn; lra) RH (or_introl eq_refl) DS) as (N2 & BX & BY & _). destruct (C101_annular p 62 ltac:(unfold p; cbn; lra) ltac:(unfold p; cbn; lra) ltac:(unfold p, rho_max; cbn; lra) (or_introl eq_refl) N2 (or_intror (conj eq_refl DS)) BX BY) as (f & E & F1 & _). exists f. auto.
Qed.
Print Assumptions C101_example.
