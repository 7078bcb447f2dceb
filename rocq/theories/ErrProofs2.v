(* Proofs for C98: reading and rotating *)
From Coq Require Import FunctionalExtensionality.
From Verif Require Import Base StrBase RBase CtrlModel UtilModel DmSurfModel CubModel CubProofs CubProps DmcModel CBase PropModel PropProofs OptModel PrpModel PrpSpec PrpProofs5 ErrModel ErrSpec ErrProofs.
Open Scope R_scope.
Lemma read_ok ip w f xs ys k p cx cy : pixel_width w f k = Some p -> centre_is f k cx cy -> p <> 0 ->
  exists d, (match e_xc k, e_yc k, e_sam k with
   | None, None, None => readmap ip w f xs ys None None None
   | Some x, Some y, Some p => readmap ip w f xs ys (Some x) (Some y) (Some p)
   | Some x, Some y, None => readmap ip w f xs ys (Some x) (Some y) None
   | _, _, Some p => readmap ip w f xs ys None None (Some p)
   | _, _, None => Raise NameError
   end = Ok (shift_center d)) /\ frows d = w_n w /\ fcols d = w_n w /\
   forall j i, fpx d j i = ip (m_data f) (Axes (w_n w) (w_n w) (axis (w_n w) (w_dx w) p (cx - xs / p)) (axis (w_n w) (w_dx w) p (cy - xs / p))) j i.
Proof.
  intros HP HC H0. exists (mkf (w_n w) (w_n w) (ip (m_data f) (Axes (w_n w) (w_n w) (axis (w_n w) (w_dx w) p (cx - xs / p)) (axis (w_n w) (w_dx w) p (cy - xs / p))))).
  split; [|split; [reflexivity|split; [reflexivity|reflexivity]]].
  assert (G : forall rxc ryc rsam, (match m_radpix f with Some r => Some (get_beamradius w / r) | None => match rsam with Some p => Some p | None => m_pixsize f end end = Some p) ->
    (match rxc, ryc with Some x, Some y => cx = x /\ cy = y | None, _ => cx = IZR (nr (m_data f) / 2) /\ cy = IZR (nc (m_data f) / 2) | _, _ => False end) ->
    readmap ip w f xs ys rxc ryc rsam = Ok (shift_center (mkf (w_n w) (w_n w) (ip (m_data f) (Axes (w_n w) (w_n w) (axis (w_n w) (w_dx w) p (cx - xs / p)) (axis (w_n w) (w_dx w) p (cy - xs / p))))))).
  { intros rxc ryc rsam E1 E2. unfold readmap.
    assert (EP : match m_radpix f, rsam, m_pixsize f with Some r, _, _ => Ok (get_beamradius w / r) | None, None, None => Raise ValueError | None, None, Some p => Ok p | None, Some p, _ => Ok p end = Ok p).
    { destruct (m_radpix f); [injection E1 as <-; reflexivity|]. destruct rsam; [injection E1 as <-; reflexivity|]. rewrite E1. reflexivity. }
    rewrite EP. cbn [rbind]. assert (EC : match rxc, ryc with None, _ => Ok (IZR (nr (m_data f) / 2), IZR (nc (m_data f) / 2)) | Some x, Some y => Ok (x, y) | Some _, None => Raise KeyError end = Ok (cx, cy)).
    { destruct rxc, ryc; destruct E2 as [-> ->] || contradiction; reflexivity. }
    rewrite EC. cbn [rbind fst snd]. unfold resamplemap. destruct (Req_EM_T p 0); [contradiction|]. reflexivity. }
  unfold pixel_width in HP. unfold centre_is in HC. destruct (e_xc k), (e_yc k); try contradiction; destruct (e_sam k); apply G; auto.
Qed.
Lemma turn4 q p : turn (S (S (S (S q)))) p = turn q p. Proof. cbn [turn]. destruct (turn q p) as [x y]. now rewrite !Z.opp_involutive. Qed.
(* cosine and sine of quarter turns, as a pair of integers *)
Lemma quarter_trig q : exists c s, cos (- (90 * INR q) * PI / 180) = IZR c /\ sin (- (90 * INR q) * PI / 180) = IZR s /\ forall x y, turn q (x, y) = (c * x + s * y, - s * x + c * y)%Z.
Proof.
  induction q as [|q (c & s & C & Si & T)].
  - exists 1%Z, 0%Z. replace (- (90 * INR 0) * PI / 180) with 0 by (cbn; field). rewrite cos_0, sin_0. repeat split. intros x y. cbn [turn]. f_equal; ring.
  - exists s, (- c)%Z. replace (- (90 * INR (S q)) * PI / 180) with (- (90 * INR q) * PI / 180 - PI / 2) by (rewrite S_INR; field). rewrite cos_minus, sin_minus, cos_PI2, sin_PI2, C, Si.
    split; [ring|]. split; [rewrite opp_IZR; ring|]. intros x y. cbn [turn]. rewrite T. f_equal; ring.
Qed.
Lemma trig_one c s q : cos (- (90 * INR q) * PI / 180) = IZR c -> sin (- (90 * INR q) * PI / 180) = IZR s -> (c * c + s * s = 1)%Z.
Proof. intros C Si. apply eq_IZR. rewrite plus_IZR, !mult_IZR, <- C, <- Si. pose proof (sin2_cos2 (- (90 * INR q) * PI / 180)) as H. unfold Rsqr in H. lra. Qed.
Lemma rotate_quarter ip f n q : row_exact ip -> frows f = n -> fcols f = n -> exists g, prop_rotate ip f (90 * INR q) (mkrk None None None None None) = Ok g /\ frows g = n /\ fcols g = n /\
  forall j i J L, (j < n)%nat -> (i < n)%nat -> (2 <= J <= n - 2)%nat -> (2 <= L <= n - 2)%nat -> (off n i, off n j) = turn q (off n L, off n J) -> fpx g j i = fpx f J L.
Proof.
  intros RE R1 C1. unfold prop_rotate. cbn [r_xc r_yc r_xs r_ys]. eexists. split; [reflexivity|]. cbn [frows fcols fpx]. split; [auto|]. split; [auto|]. intros j i J L Hj Hi HJ HL T. rewrite R1.
  destruct (quarter_trig q) as (c & s & EC & ES & TT). pose proof (trig_one c s q EC ES) as O. rewrite EC, ES. rewrite TT in T. injection T as T1 T2.
  assert (XX : forall a, (INR a - INR (n / 2) - 0) = IZR (off n a)) by (intros a; unfold off; rewrite minus_IZR, <- !INR_IZR_INZ; ring).
  assert (H : ip (to_arr f) (Points n 1 (fun _ i0 : nat => (INR i0 - INR (n / 2) - 0) * IZR c - (INR j - INR (n / 2) - 0) * IZR s + INR (n / 2)) (fun _ i0 : nat => (INR i0 - INR (n / 2) - 0) * IZR s + (INR j - INR (n / 2) - 0) * IZR c + INR (n / 2))) 0%nat i = px (to_arr f) (Z.of_nat J) (Z.of_nat L)).
  { apply RE; auto.
    - intros a Ha. exists (off n a * c - off n j * s + Z.of_nat (n / 2))%Z, (off n a * s + off n j * c + Z.of_nat (n / 2))%Z. rewrite !XX. rewrite !plus_IZR, minus_IZR, !mult_IZR, <- !INR_IZR_INZ. split; ring.
    - rewrite !XX, T1, T2. replace (Z.of_nat L) with (off n L * (c * c + s * s) + Z.of_nat (n / 2))%Z by (rewrite O; unfold off; lia). rewrite <- mult_IZR, <- mult_IZR, <- minus_IZR, INR_IZR_INZ, <- plus_IZR. f_equal. ring.
    - rewrite !XX, T1, T2. replace (Z.of_nat J) with (off n J * (c * c + s * s) + Z.of_nat (n / 2))%Z by (rewrite O; unfold off; lia). rewrite <- mult_IZR, <- mult_IZR, <- plus_IZR, INR_IZR_INZ, <- plus_IZR. f_equal. ring.
    - cbn [to_arr nc]. rewrite C1. lia.
    - cbn [to_arr nr]. rewrite R1. lia. }
  rewrite H. cbn [to_arr px]. now rewrite !Nat2Z.id.
Qed.
Lemma cos60 : cos (- (60) * PI / 180) = 1 / 2. Proof. replace (- (60) * PI / 180) with (- (PI / 3)) by field. rewrite cos_neg. apply cos_PI3. Qed.
Lemma sin60 : sin (- (60) * PI / 180) = - (sqrt 3 / 2). Proof. replace (- (60) * PI / 180) with (- (PI / 3)) by field. rewrite sin_neg, sin_PI3. reflexivity. Qed.
Lemma sqrt3 : 17 / 10 < sqrt 3 < 18 / 10.
Proof. assert (0 <= sqrt 3) by apply sqrt_pos. assert (sqrt 3 * sqrt 3 = 3) by (apply sqrt_sqrt; lra). split; nra. Qed.
(* a ramp in x seen by the routine *)
Lemma ramp_sum a fx fy px py : (forall X Y, (0 <= X < 9)%Z -> (0 <= Y < 9)%Z -> a X Y = IZR X) -> Rabs fx <= 1 / 2 -> Rabs fy <= 1 / 2 -> (2 <= px < 7)%Z -> (2 <= py < 7)%Z -> pixel_sum (in_memory Forder 9 9 a) 9 9 fx fy px py = IZR px - fx.
Proof.
  intros A F G HX HY. rewrite pixel_sum_in by lia.
  rewrite (rsum_ext 5 _ (fun j => wt fy j * ((IZR px - fx) + 0 * (IZR py + (INR j - 2)) + 0 * (IZR py + (INR j - 2)) ^ 2))); [rewrite wt_quadratic by auto; ring|].
  intros j J. f_equal. rewrite (rsum_ext 5 _ (fun i => wt fx i * (0 + 1 * (IZR px + (INR i - 2)) + 0 * (IZR px + (INR i - 2)) ^ 2))); [rewrite wt_quadratic by auto; ring|].
  intros i I0. f_equal. rewrite mem_F by lia. rewrite A by lia. rewrite minus_IZR, plus_IZR, <- INR_IZR_INZ. ring.
Qed.
Lemma rotate_ramp : let f := mkf 9 9 (fun _ i => INR i) in exists g h, prop_rotate threaded_cubic f 60 (mkrk None None None None None) = Ok g /\ fpx g 4 3 = 4 /\
  prop_rotate plain_cubic f 60 (mkrk None None None None None) = Ok h /\ fpx h 4 3 = 7 / 2.
Proof.
  intros f. unfold prop_rotate. cbn [r_xc r_yc r_xs r_ys]. eexists. eexists. split; [reflexivity|]. cbn [fpx]. rewrite cos60, sin60. change (frows f) with 9%nat. change (9 / 2)%nat with 4%nat.
  pose proof sqrt3 as Q3. set (yv := fun _ i0 : nat => (INR i0 - INR 4 - 0) * - (sqrt 3 / 2) + (INR 4 - INR 4 - 0) * (1 / 2) + INR 4). set (xv := fun _ i0 : nat => (INR i0 - INR 4 - 0) * (1 / 2) - (INR 4 - INR 4 - 0) * - (sqrt 3 / 2) + INR 4).
  assert (X0 : xv 0%nat 0%nat = IZR 2) by (unfold xv; cbn; lra). assert (X3 : xv 0%nat 3%nat = 7 / 2) by (unfold xv; cbn; lra). assert (Y3 : yv 0%nat 3%nat = 4 + sqrt 3 / 2) by (unfold yv; cbn; lra).
  assert (RX : roundval (7 / 2) = 4%Z) by (unfold roundval; destruct (Rlt_dec 0 (7 / 2)); [|lra]; apply Zfloor_imp; cbn; lra).
  assert (RY : roundval (4 + sqrt 3 / 2) = 5%Z) by (unfold roundval; destruct (Rlt_dec 0 (4 + sqrt 3 / 2)); [|lra]; apply Zfloor_imp; cbn; lra).
  assert (FY : Rabs (frac (4 + sqrt 3 / 2)) <= 1 / 2) by (unfold frac; rewrite RY; rewrite Rabs_pos_eq; lra).
  assert (PX : CubModel.pix 9 (7 / 2) = 4%Z) by (rewrite CubProofs.pix_in; rewrite RX; lia). assert (PY : CubModel.pix 9 (4 + sqrt 3 / 2) = 5%Z) by (rewrite CubProofs.pix_in; rewrite RY; lia).
  assert (A : forall X Y, (0 <= X < 9)%Z -> (0 <= Y < 9)%Z -> px (to_arr f) Y X = IZR X) by (intros X Y HX HY; cbn [to_arr px f fpx]; rewrite INR_IZR_INZ, Z2Nat.id by lia; reflexivity).
  split; [|split; [reflexivity|]].
  - unfold threaded_cubic, thread_px. cbn [xdim ydim flat_x flat_y]. cbv zeta. change ((0 * 9 + 3) / 1)%nat with 3%nat. change ((0 * 9 + 3) mod 1)%nat with 0%nat. change ((3 * 1 + 0) / 9)%nat with 0%nat. change ((3 * 1 + 0) mod 9)%nat with 3%nat. change (0 / 9)%nat with 0%nat. change (0 mod 9)%nat with 0%nat.
    rewrite X0, X3, Y3, frac_int. change (nc (to_arr f)) with 9%Z. change (nr (to_arr f)) with 9%Z. rewrite PX, PY. rewrite ramp_sum; auto; try lia; [lra|rewrite Rabs_R0; lra].
  - cbn [fpx]. change (plain_cubic (to_arr f) (Points 9 1 xv yv) 0%nat 3%nat = 7 / 2). unfold plain_cubic, cubic_conv, conv_px. cbn [xdim flat_x flat_y]. change ((0 * 9 + 3) / 9)%nat with 0%nat. change ((0 * 9 + 3) mod 9)%nat with 3%nat. rewrite X3, Y3. change (nc (to_arr f)) with 9%Z. change (nr (to_arr f)) with 9%Z. rewrite PX, PY.
    rewrite ramp_sum; auto; try lia; unfold frac; rewrite RX; [lra|rewrite Rabs_pos_eq; lra].
Qed.
