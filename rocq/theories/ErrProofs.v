(* Proofs for C98 *)
From Coq Require Import FunctionalExtensionality.
From Verif Require Import Base StrBase RBase CtrlModel UtilModel DmSurfModel CubModel CubProofs CubProps DmcModel CBase PropModel PropProofs OptModel PrpModel PrpSpec PrpProofs5 ErrModel ErrSpec.
Open Scope R_scope.
Lemma threaded_is o g c nt ws r k : (0 < nt)%nat -> (r < ydim c)%nat -> (k < xdim c)%nat -> o = Forder ->
  wrapper_schedule o (nc g) (nr g) (fun X Y => px g Y X) c nt ws -> cubic_conv_threaded o (nc g) (nr g) (fun X Y => px g Y X) c nt ws r k = threaded_cubic g c r k.
Proof.
  intros N R K -> W. unfold cubic_conv_threaded. rewrite (schedule_result _ _ _ _ _ _ _ _ _ N W). destruct (Nat.ltb_spec (r * xdim c + k) (xdim c * ydim c)); [reflexivity|nia].
Qed.
Lemma threaded_square g n xv yv r k : (r < n)%nat -> (k < n)%nat -> threaded_cubic g (Axes n n xv yv) r k = plain_cubic g (Axes n n xv yv) r k.
Proof.
  intros R K. unfold threaded_cubic, plain_cubic, cubic_conv, conv_px, thread_px. cbn [xdim ydim flat_x flat_y]. cbv zeta.
  assert (D : ((r * n + k) / n = r)%nat) by (symmetry; apply Nat.div_unique with k; lia). assert (M : ((r * n + k) mod n = k)%nat) by (symmetry; apply Nat.mod_unique with r; lia).
  rewrite D, M, (Nat.mod_small k n), D, M by lia. reflexivity.
Qed.
Lemma plain_exact : grid_exact plain_cubic.
Proof. intros g n xv yv r k X Y R K EX EY HX HY. unfold plain_cubic. exact (C88_pixels (nc g) (nr g) (fun X Y => px g Y X) (Axes n n xv yv) r k X Y K EX EY HX HY). Qed.
Lemma threaded_exact : grid_exact threaded_cubic.
Proof. intros g n xv yv r k X Y R K EX EY HX HY. rewrite threaded_square by auto. now apply plain_exact. Qed.
Lemma plain_quadratic : grid_quadratic plain_cubic.
Proof.
  intros g c n xv yv r k R K V HX HY. unfold plain_cubic. transitivity (cubic_conv Forder (nc g) (nr g) (fun X Y => biquadratic c (IZR X) (IZR Y)) (Axes n n xv yv) r k); [|exact (C88_biquadratic (nc g) (nr g) c (Axes n n xv yv) r k K HX HY)]. unfold cubic_conv, conv_px, pixel_sum. apply rsum_ext. intros j _. cbv zeta. destruct (_ || _)%bool; auto. apply rsum_ext. intros i _. destruct (_ || _)%bool; auto. f_equal. cbn [in_memory]. apply V.
Qed.
Lemma threaded_quadratic : grid_quadratic threaded_cubic.
Proof. intros g c n xv yv r k R K V HX HY. rewrite threaded_square by auto. now apply plain_quadratic. Qed.
Lemma plain_row : row_exact plain_cubic.
Proof. intros g n xv yv k X Y K _ EX EY HX HY. unfold plain_cubic. exact (C88_pixels (nc g) (nr g) (fun X Y => px g Y X) (Points n 1 xv yv) 0 k X Y K EX EY HX HY). Qed.
Lemma threaded_row : row_exact threaded_cubic.
Proof.
  intros g n xv yv k X Y K A EX EY HX HY. unfold threaded_cubic, thread_px. cbn [xdim ydim flat_x flat_y Nat.mul Nat.add]. cbv zeta. rewrite Nat.div_1_r, Nat.mod_1_r, Nat.mul_1_r, Nat.add_0_r. rewrite (Nat.div_small k n), (Nat.mod_small k n) by lia.
  rewrite (Nat.div_small 0 n), (Nat.mod_small 0 n) by lia. destruct (A 0%nat) as (a & b & Ea & Eb); [lia|]. rewrite Ea, EX, EY, !frac_int. unfold CubModel.pix. cbv zeta. rewrite !round_int.
  destruct (Z.ltb_spec X 2); [lia|]. destruct (Z.ltb_spec (nc g - 2) X); [lia|]. destruct (Z.ltb_spec Y 2); [lia|]. destruct (Z.ltb_spec (nr g - 2) Y); [lia|]. rewrite pixel_sum_node by lia. now rewrite mem_F by lia.
Qed.
(* two shifts by half the array *)
Lemma half_odd2 n i : Nat.even n = false -> (S i < n)%nat -> roll_ix n (half n) (roll_ix n (half n) i) = S i.
Proof.
  intros E Hi. rewrite roll_roll by lia. rewrite (roll_congr n (half n + half n) (-1)) by (try lia; unfold half; rewrite <- Nat.negb_odd in E; apply negb_false_iff, Nat.odd_spec in E; destruct E as [q ->]; replace ((2 * q + 1) / 2)%nat with q by (apply Nat.div_unique with 1%nat; lia); replace (Z.of_nat q + Z.of_nat q)%Z with (-1 + 1 * Z.of_nat (2 * q + 1))%Z by lia; apply Z_mod_plus_full).
  unfold roll_ix. rewrite Z.mod_small by lia. lia.
Qed.
(* the phase a map gives *)
Lemma applied w k d0 : square_wf w -> frows d0 = w_n w -> fcols d0 = w_n w -> plain_keys k ->
  let d := fscale (unit_factor k) d0 in
  exists E, (if e_mirror k then imul (w_arr w) (mkf (w_n w) (w_n w) (fun i j => cis (-4 * PI / w_lam w * fpx d i j)))
             else if e_wave k then imul (w_arr w) (mkf (w_n w) (w_n w) (fun i j => cis (2 * PI / w_lam w * fpx d i j)))
             else Raise ValueError) = Ok E /\ frows E = w_n w /\ fcols E = w_n w /\
    forall i j, (i < w_n w)%nat -> (j < w_n w)%nat -> fpx E i j = Cmult (fpx (w_arr w) i j) (cis (2 * PI / w_lam w * (path_factor k * fpx d0 i j))).
Proof.
  intros [A1 A2] R1 C1 (_ & _ & _ & _ & HT) d. destruct (e_mirror k) eqn:M.
  - destruct (imul_sq (w_n w) (w_arr w) (mkf (w_n w) (w_n w) (fun i j => cis (-4 * PI / w_lam w * fpx d i j)))) as (E & H1 & [H2 H2'] & H3); [split; auto|split; reflexivity|].
    exists E. split; [auto|]. split; [auto|]. split; [auto|]. intros i j Hi Hj. rewrite H3 by auto. cbn [fpx]. f_equal. f_equal. unfold path_factor, d, fscale, unit_factor. rewrite M. cbn [fpx]. unfold Rdiv. ring.
  - cbn [orb] in HT. rewrite HT. destruct (imul_sq (w_n w) (w_arr w) (mkf (w_n w) (w_n w) (fun i j => cis (2 * PI / w_lam w * fpx d i j)))) as (E & H1 & [H2 H2'] & H3); [split; auto|split; reflexivity|].
    exists E. split; [auto|]. split; [auto|]. split; [auto|]. intros i j Hi Hj. rewrite H3 by auto. cbn [fpx]. f_equal. f_equal. unfold path_factor, d, fscale, unit_factor. rewrite M. cbn [fpx]. unfold Rdiv. ring.
Qed.
(* the call, once the map has been read *)
Lemma errormap_core ip mg w f xs ys k d : square_wf w -> plain_keys k -> frows d = w_n w -> fcols d = w_n w ->
  (match e_xc k, e_yc k, e_sam k with
   | None, None, None => readmap ip w f xs ys None None None
   | Some x, Some y, Some p => readmap ip w f xs ys (Some x) (Some y) (Some p)
   | Some x, Some y, None => readmap ip w f xs ys (Some x) (Some y) None
   | _, _, Some p => readmap ip w f xs ys None None (Some p)
   | _, _, None => Raise NameError
   end = Ok (shift_center d)) ->
  exists m w', prop_errormap ip mg w f xs ys k = Ok (m, w') /\ square_wf w' /\ w_n w' = w_n w /\ frows m = w_n w /\ fcols m = w_n w /\
    forall j i, (j < w_n w)%nat -> (i < w_n w)%nat -> let n := w_n w in let two := fun p => roll_ix n (half n) (roll_ix n (half n) p) in
      fpx m j i = unit_factor k * fpx d (two j) (two i) /\
      fpx (get_wavefront w') j i = Cmult (fpx (get_wavefront w) j i) (cis (2 * PI / w_lam w * (path_factor k * fpx d (two j) (two i)))).
Proof.
  intros SW PK R1 C1 ER. pose proof PK as (P1 & P2 & P3 & P4 & P5). unfold prop_errormap. rewrite P1, P2, P3, P4, ER. cbn [rbind].
  assert (FS : forall a b c : R, forall x : field R, fscale a (fscale b x) = fscale (a * b) x) by (intros a b _ x; unfold fscale; cbn [frows fcols fpx]; f_equal; apply functional_extensionality; intros i; apply functional_extensionality; intros j; ring).
  assert (F1 : forall x : field R, fscale 1 x = x) by (intros x; destruct x as [r c p]; unfold fscale; cbn [frows fcols fpx]; f_equal; apply functional_extensionality; intros i; apply functional_extensionality; intros j; ring).
  match goal with |- context [match e_mul k with Some a => fscale a ?D3 | None => ?D3 end] => assert (ED : match e_mul k with Some a => fscale a D3 | None => D3 end = fscale (unit_factor k) (shift_center d)) end.
  { unfold unit_factor. destruct (e_um k), (e_nm k); cbn [andb] in P2; try discriminate; destruct (e_mul k); rewrite ?FS, ?Rmult_1_r, ?Rmult_1_l, ?F1 by auto; rewrite ?(Rmult_comm (1 / 10 ^ 6)), ?(Rmult_comm (1 / 10 ^ 9)); auto; exact 0. }
  cbv zeta. rewrite ED. clear ED. set (ds := shift_center d). assert (S1 : frows ds = w_n w) by exact R1. assert (S2 : fcols ds = w_n w) by exact C1.
  destruct (applied w k ds SW S1 S2 PK) as (E & EE & E1 & E2 & EV). cbv zeta in EE.
  assert (FR : frows (fscale (unit_factor k) ds) = w_n w) by exact S1. assert (FC : fcols (fscale (unit_factor k) ds) = w_n w) by exact S2. rewrite FR, FC. rewrite EE. cbn [rbind]. eexists. eexists. split; [reflexivity|]. split; [split; cbn; auto|]. split; [reflexivity|]. split; [exact S1|]. split; [exact S2|].
  intros j i Hj Hi. cbv zeta. pose proof SW as [A1 A2]. assert (Hn : (1 <= w_n w)%nat) by lia. split.
  - unfold shift_center at 1. cbn [fpx roll2 fscale frows fcols]. rewrite S1, S2. unfold ds, shift_center. cbn [fpx roll2]. rewrite R1, C1. reflexivity.
  - unfold get_wavefront, shift_center at 1. cbn [fpx roll2 set_arr w_arr]. rewrite E1, E2, EV by (apply roll_lt; lia). unfold shift_center. cbn [fpx roll2]. rewrite A1, A2. unfold ds, shift_center. cbn [fpx roll2]. rewrite R1, C1. reflexivity.
Qed.
