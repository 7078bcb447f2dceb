(* C88: cubic-convolution interpolation *)
From Coq Require Import Permutation.
From Verif Require Import Base RBase CubModel CubProofs.
Open Scope R_scope.
(* the coordinates asked for at row r, column k of the output *)
Definition at_x (c : coords) (r k : nat) : R := match c with Axes _ _ xv _ => xv k | Points _ _ xv _ => xv r k end.
Definition at_y (c : coords) (r k : nat) : R := match c with Axes _ _ _ yv => yv r | Points _ _ _ yv => yv r k end.
Lemma flat_at c r k : (k < xdim c)%nat -> flat_x c (r * xdim c + k) = at_x c r k /\ flat_y c (r * xdim c + k) = at_y c r k.
Proof.
  intros K. assert (D : ((r * xdim c + k) / xdim c = r)%nat) by (symmetry; apply Nat.div_unique with k; lia). assert (M : ((r * xdim c + k) mod xdim c = k)%nat) by (symmetry; apply Nat.mod_unique with r; lia).
  destruct c as [m n xv yv|m n xv yv]; cbn [xdim flat_x flat_y at_x at_y] in *; rewrite D, M; auto.
Qed.
(* the value asked for: rows of the picture are y, columns x, so that the routine wants the transpose of a C-ordered array *)
Lemma mem_F s0 s1 a X Y : (0 <= X < s0)%Z -> in_memory Forder s0 s1 a (Y * s0 + X) = a X Y.
Proof. intros H. cbn [in_memory]. rewrite Z.add_comm, Z_mod_plus_full, Z_div_plus_full by lia. rewrite Z.mod_small, Z.div_small by lia. reflexivity. Qed.
(* biquadratic pictures are reproduced exactly inside *)
Definition biquadratic (c : nat -> nat -> R) (x y : R) : R := rsum 3 (fun l => rsum 3 (fun k => c k l * x ^ k) * y ^ l).
Theorem C88_biquadratic s0 s1 c co r k : (k < xdim co)%nat -> (2 <= roundval (at_x co r k) < s0 - 2)%Z -> (2 <= roundval (at_y co r k) < s1 - 2)%Z ->
  cubic_conv Forder s0 s1 (fun X Y => biquadratic c (IZR X) (IZR Y)) co r k = biquadratic c (at_x co r k) (at_y co r k).
Proof.
  intros K HX HY. unfold cubic_conv, conv_px. destruct (flat_at co r k K) as (-> & ->). set (x := at_x co r k) in *. set (y := at_y co r k) in *.
  rewrite !pix_in by auto. rewrite pixel_sum_in by auto.
  set (px := roundval x) in *. set (py := roundval y) in *. assert (Ex : x = IZR px - frac x) by (unfold frac; fold px; ring). assert (Ey : y = IZR py - frac y) by (unfold frac; fold py; ring).
  assert (In1 : forall j, (j < 5)%nat -> rsum 5 (fun i => wt (frac x) i * in_memory Forder s0 s1 (fun X Y => biquadratic c (IZR X) (IZR Y)) ((py + Z.of_nat j - 2) * s0 + (px + Z.of_nat i - 2))) = biquadratic c x (IZR py + (INR j - 2))).
  { intros j J. rewrite (rsum_ext 5 _ (fun i => wt (frac x) i * (rsum 3 (fun l => c 0%nat l * (IZR py + (INR j - 2)) ^ l) + rsum 3 (fun l => c 1%nat l * (IZR py + (INR j - 2)) ^ l) * (IZR px + (INR i - 2)) + rsum 3 (fun l => c 2%nat l * (IZR py + (INR j - 2)) ^ l) * (IZR px + (INR i - 2)) ^ 2))).
    - rewrite wt_quadratic by apply frac_small. rewrite <- Ex. unfold biquadratic. cbn [rsum pow]. ring.
    - intros i I. f_equal. rewrite mem_F by lia. rewrite !minus_IZR, !plus_IZR, <- !INR_IZR_INZ. replace (IZR px + INR i - 2) with (IZR px + (INR i - 2)) by ring. replace (IZR py + INR j - 2) with (IZR py + (INR j - 2)) by ring. unfold biquadratic. cbn [rsum pow]. ring. }
  rewrite (rsum_ext 5 _ (fun j => wt (frac y) j * (rsum 3 (fun k => c k 0%nat * x ^ k) + rsum 3 (fun k => c k 1%nat * x ^ k) * (IZR py + (INR j - 2)) + rsum 3 (fun k => c k 2%nat * x ^ k) * (IZR py + (INR j - 2)) ^ 2))).
  - rewrite wt_quadratic by apply frac_small. rewrite <- Ey. unfold biquadratic. cbn [rsum pow]. ring.
  - intros j J. rewrite In1 by auto. f_equal. unfold biquadratic. cbn [rsum pow]. ring.
Qed.
(* pixels are reproduced at their own positions, for any picture, from the third to the last but one *)
Theorem C88_pixels s0 s1 a co r k X Y : (k < xdim co)%nat -> at_x co r k = IZR X -> at_y co r k = IZR Y -> (2 <= X <= s0 - 2)%Z -> (2 <= Y <= s1 - 2)%Z -> cubic_conv Forder s0 s1 a co r k = a X Y.
Proof.
  intros K EX EY HX HY. unfold cubic_conv, conv_px. destruct (flat_at co r k K) as (-> & ->). rewrite EX, EY, !frac_int. unfold pix. cbv zeta. rewrite !round_int.
  destruct (Z.ltb_spec X 2); [lia|]. destruct (Z.ltb_spec (s0 - 2) X); [lia|]. destruct (Z.ltb_spec Y 2); [lia|]. destruct (Z.ltb_spec (s1 - 2) Y); [lia|]. rewrite pixel_sum_node by lia. apply mem_F. lia.
Qed.
(* the value depends on the picture linearly *)
Theorem C88_linear o s0 s1 a b u v co r k : cubic_conv o s0 s1 (fun X Y => u * a X Y + v * b X Y) co r k = u * cubic_conv o s0 s1 a co r k + v * cubic_conv o s0 s1 b co r k.
Proof.
  unfold cubic_conv, conv_px. rewrite <- pixel_sum_lin. unfold pixel_sum. apply rsum_ext. intros j _. cbv zeta. destruct (_ || _)%bool; auto. apply rsum_ext. intros i _. destruct (_ || _)%bool; auto. f_equal. destruct o; reflexivity.
Qed.
(* near the borders it does not hold: the first two columns and the last are replaced by their neighbours *)
Theorem C88_border s0 s1 a co r k X Y : (k < xdim co)%nat -> (4 <= s0)%Z -> at_x co r k = IZR X -> at_y co r k = IZR Y -> (2 <= Y <= s1 - 2)%Z ->
  ((X < 2)%Z -> cubic_conv Forder s0 s1 a co r k = a 2%Z Y) /\ ((s0 - 2 < X)%Z -> cubic_conv Forder s0 s1 a co r k = a (s0 - 2)%Z Y).
Proof.
  intros K S EX EY HY. unfold cubic_conv, conv_px. destruct (flat_at co r k K) as (-> & ->). rewrite EX, EY, !frac_int. unfold pix. cbv zeta. rewrite !round_int. destruct (Z.ltb_spec Y 2); [lia|]. destruct (Z.ltb_spec (s1 - 2) Y); [lia|].
  split; intros H'.
  - destruct (Z.ltb_spec X 2); [|lia]. rewrite pixel_sum_node by lia. apply mem_F. lia.
  - destruct (Z.ltb_spec X 2); [lia|]. destruct (Z.ltb_spec (s0 - 2) X); [|lia]. rewrite pixel_sum_node by lia. apply mem_F. lia.
Qed.
(* and a constant picture comes out too large just beyond the last column but one *)
Theorem C88_border_overshoot s0 s1 co r k t Y : (k < xdim co)%nat -> (5 <= s0)%Z -> 0 < t < 1 / 2 -> at_x co r k = IZR (s0 - 2) + t -> at_y co r k = IZR Y -> (2 <= Y <= s1 - 2)%Z ->
  cubic_conv Forder s0 s1 (fun _ _ => 1) co r k = 1 + (1 - t) * t ^ 2 / 2.
Proof.
  intros K S T EX EY HY. unfold cubic_conv, conv_px. destruct (flat_at co r k K) as (-> & ->). rewrite EX, EY, !frac_int.
  assert (Rx : roundval (IZR (s0 - 2) + t) = (s0 - 2)%Z). { unfold roundval. assert (0 < IZR (s0 - 2)) by (apply IZR_lt; lia). destruct (Rlt_dec 0 (IZR (s0 - 2) + t)); [|lra]. apply Zfloor_imp. rewrite plus_IZR. lra. }
  assert (Fx : frac (IZR (s0 - 2) + t) = - t) by (unfold frac; rewrite Rx; ring). rewrite Fx. unfold pix. cbv zeta. rewrite Rx, round_int. destruct (Z.ltb_spec Y 2); [lia|]. destruct (Z.ltb_spec (s1 - 2) Y); [lia|]. destruct (Z.ltb_spec (s0 - 2) 2); [lia|]. rewrite Z.ltb_irrefl.
  unfold pixel_sum. rewrite (rsum_ext 5 _ (fun j => if Nat.eqb j 2 then 1 + (1 - t) * t ^ 2 / 2 else 0)); [cbn [rsum Nat.eqb]; ring|]. intros j J. cbv zeta. destruct (Nat.eqb_spec j 2) as [->|N].
  - destruct (Z.ltb_spec (Y + Z.of_nat 2 - 2) 0); [lia|]. destruct (Z.leb_spec s1 (Y + Z.of_nat 2 - 2)); [lia|]. cbn [orb]. destruct (wt_neg (- t) ltac:(lra)) as (W0 & W1 & W2 & W3 & W4). cbn [rsum].
    destruct (Z.ltb_spec (s0 - 2 + Z.of_nat 0 - 2) 0); [lia|]. destruct (Z.leb_spec s0 (s0 - 2 + Z.of_nat 0 - 2)); [lia|]. destruct (Z.ltb_spec (s0 - 2 + Z.of_nat 1 - 2) 0); [lia|]. destruct (Z.leb_spec s0 (s0 - 2 + Z.of_nat 1 - 2)); [lia|].
    destruct (Z.ltb_spec (s0 - 2 + Z.of_nat 2 - 2) 0); [lia|]. destruct (Z.leb_spec s0 (s0 - 2 + Z.of_nat 2 - 2)); [lia|]. destruct (Z.ltb_spec (s0 - 2 + Z.of_nat 3 - 2) 0); [lia|]. destruct (Z.leb_spec s0 (s0 - 2 + Z.of_nat 3 - 2)); [lia|]. destruct (Z.ltb_spec (s0 - 2 + Z.of_nat 4 - 2) 0); [lia|]. destruct (Z.leb_spec s0 (s0 - 2 + Z.of_nat 4 - 2)); [|lia]. cbn [orb].
    rewrite !weight_sep, W0, W1, W2, W3, (wt_zero 2) by lia. cbn [Nat.eqb in_memory]. unfold inner, outer. field.
  - destruct (_ || _)%bool; auto. apply rsum_zero. intros i I. destruct (_ || _)%bool; auto. rewrite weight_sep, (wt_zero j) by auto. destruct (Nat.eqb_spec j 2); [contradiction|ring].
Qed.
(* ---- threads ---- *)
(* every output row is done by exactly one thread, however many threads there are *)
Theorem C88_threads_partition soy nt r : (0 < nt)%nat -> (r < soy)%nat -> exists t, (t < nt)%nat /\ In r (thread_rows soy nt t) /\ forall t', In r (thread_rows soy nt t') -> t' = t.
Proof.
  intros N L. pose proof (dy_cover soy nt N) as C. assert (D : (thread_dy soy nt <> 0)%nat) by (intros Z; rewrite Z in C; lia). set (dy := thread_dy soy nt) in *.
  exists (r / dy)%nat. pose proof (Nat.div_mod r dy D). pose proof (Nat.mod_upper_bound r dy D). split; [apply Nat.div_lt_upper_bound; lia|]. split; [apply rows_in; fold dy; nia|].
  intros t' I. apply rows_in in I. fold dy in I. apply (Nat.div_unique r dy t' (r - dy * t')); nia.
Qed.
(* the result does not depend on the schedule *)
Theorem C88_schedule_free o s0 s1 a co nt1 nt2 ws1 ws2 r k : (0 < nt1)%nat -> (0 < nt2)%nat -> wrapper_schedule o s0 s1 a co nt1 ws1 -> wrapper_schedule o s0 s1 a co nt2 ws2 -> cubic_conv_threaded o s0 s1 a co nt1 ws1 r k = cubic_conv_threaded o s0 s1 a co nt2 ws2 r k.
Proof. intros N1 N2 S1 S2. unfold cubic_conv_threaded. rewrite (schedule_result _ _ _ _ _ _ _ _ _ N1 S1), (schedule_result _ _ _ _ _ _ _ _ _ N2 S2). reflexivity. Qed.
(* on a square grid of axes the threads give the result of the plain routine *)
Theorem C88_square_grid o s0 s1 a m xv yv nt ws r k : (0 < nt)%nat -> (r < m)%nat -> (k < m)%nat -> wrapper_schedule o s0 s1 a (Axes m m xv yv) nt ws ->
  cubic_conv_threaded o s0 s1 a (Axes m m xv yv) nt ws r k = cubic_conv o s0 s1 a (Axes m m xv yv) r k.
Proof.
  intros N R K S. unfold cubic_conv_threaded. rewrite (schedule_result _ _ _ _ _ _ _ _ _ N S). cbn [xdim ydim]. destruct (Nat.ltb_spec (r * m + k) (m * m)); [|nia].
  assert (D : ((r * m + k) / m = r)%nat) by (symmetry; apply Nat.div_unique with k; lia). assert (M : ((r * m + k) mod m = k)%nat) by (symmetry; apply Nat.mod_unique with r; lia). rewrite D, M. unfold cubic_conv, conv_px, thread_px. cbn [xdim flat_x flat_y]. cbv zeta. rewrite D, M, (Nat.mod_small k m) by lia. reflexivity.
Qed.
(* otherwise they need not: two rows of points, and a grid of three rows and two columns *)
Lemma round_quarter : roundval (13 / 4) = 3%Z. Proof. unfold roundval. destruct (Rlt_dec 0 (13 / 4)); [|lra]. apply Zfloor_imp. cbn. lra. Qed.
Lemma ramp_val sx sy y : (2 <= y < sy - 2)%Z -> (5 < sx)%Z -> pixel_sum (in_memory Forder sx sy (fun X _ => IZR X)) sx sy 0 0 3 y = 3.
Proof. intros Y S. rewrite pixel_sum_node by lia. rewrite mem_F by lia. reflexivity. Qed.
Theorem C88_points_refuted s1 nt ws : (6 <= s1)%Z -> (0 < nt)%nat -> let a := fun X _ : Z => IZR X in let co := Points 2 2 (fun r _ => match r with O => 3 | _ => 13 / 4 end) (fun _ _ => 3) in
  wrapper_schedule Forder 6 s1 a co nt ws -> cubic_conv_threaded Forder 6 s1 a co nt ws 1 0 = 3 /\ cubic_conv Forder 6 s1 a co 1 0 = 13 / 4.
Proof.
  intros S N a co W. split.
  - unfold cubic_conv_threaded. rewrite (schedule_result _ _ _ _ _ _ _ _ _ N W). cbn [xdim ydim co Nat.mul Nat.add Nat.ltb Nat.leb]. change (2 / 2)%nat with 1%nat. change (2 mod 2)%nat with 0%nat. unfold thread_px. cbv zeta. cbn [Nat.mul Nat.add]. unfold co. cbn [flat_x flat_y]. change (2 / 2)%nat with 1%nat. change (0 / 2)%nat with 0%nat. cbv iota. replace 3 with (IZR 3) by reflexivity. rewrite !frac_int. unfold pix. cbv zeta. rewrite round_quarter, round_int. cbn [Z.ltb Z.compare Pos.compare Pos.compare_cont Z.sub Z.add Z.opp Z.pos_sub Pos.pred_double].
    destruct (Z.ltb_spec (s1 - 2) 3); [lia|]. change (pixel_sum (in_memory Forder 6 s1 a) 6 s1 0 0 3 3 = 3). apply ramp_val; lia.
  - pose (c := fun k l : nat => match k, l with 1%nat, O => 1 | _, _ => 0 end).
    transitivity (cubic_conv Forder 6 s1 (fun X Y => biquadratic c (IZR X) (IZR Y)) co 1 0).
    + unfold cubic_conv, conv_px, pixel_sum. apply rsum_ext. intros j _. cbv zeta. destruct (_ || _)%bool; auto. apply rsum_ext. intros i _. destruct (_ || _)%bool; auto. f_equal. cbn [in_memory]. unfold a, biquadratic, c. cbn [rsum pow]. ring.
    + rewrite C88_biquadratic; cbn [at_x at_y co xdim]; [unfold biquadratic, c; cbn [rsum pow]; field|lia|rewrite round_quarter; lia|]. replace 3 with (IZR 3) by reflexivity. rewrite round_int. lia.
Qed.
Theorem C88_oblong_grid_refuted s1 nt ws : (6 <= s1)%Z -> (0 < nt)%nat -> let a := fun X _ : Z => IZR X in let co := Axes 2 3 (fun k => match k with O => 3 | _ => 13 / 4 end) (fun _ => 3) in
  wrapper_schedule Forder 6 s1 a co nt ws -> cubic_conv_threaded Forder 6 s1 a co nt ws 1 1 = 3 /\ cubic_conv Forder 6 s1 a co 1 1 = 13 / 4.
Proof.
  intros S N a co W. split.
  - unfold cubic_conv_threaded. rewrite (schedule_result _ _ _ _ _ _ _ _ _ N W). cbn [xdim ydim co Nat.mul Nat.add Nat.ltb Nat.leb]. change (3 / 3)%nat with 1%nat. change (3 mod 3)%nat with 0%nat. unfold thread_px. cbv zeta. cbn [Nat.mul Nat.add]. unfold co. cbn [flat_x flat_y]. change (3 mod 2)%nat with 1%nat. change (0 mod 2)%nat with 0%nat. cbv iota. replace 3 with (IZR 3) by reflexivity. rewrite !frac_int. unfold pix. cbv zeta. rewrite round_quarter, round_int. cbn [Z.ltb Z.compare Pos.compare Pos.compare_cont Z.sub Z.add Z.opp Z.pos_sub Pos.pred_double].
    destruct (Z.ltb_spec (s1 - 2) 3); [lia|]. change (pixel_sum (in_memory Forder 6 s1 a) 6 s1 0 0 3 3 = 3). apply ramp_val; lia.
  - pose (c := fun k l : nat => match k, l with 1%nat, O => 1 | _, _ => 0 end).
    transitivity (cubic_conv Forder 6 s1 (fun X Y => biquadratic c (IZR X) (IZR Y)) co 1 1).
    + unfold cubic_conv, conv_px, pixel_sum. apply rsum_ext. intros j _. cbv zeta. destruct (_ || _)%bool; auto. apply rsum_ext. intros i _. destruct (_ || _)%bool; auto. f_equal. cbn [in_memory]. unfold a, biquadratic, c. cbn [rsum pow]. ring.
    + rewrite C88_biquadratic; cbn [at_x at_y co xdim]; [unfold biquadratic, c; cbn [rsum pow]; field|lia|rewrite round_quarter; lia|]. replace 3 with (IZR 3) by reflexivity. rewrite round_int. lia.
Qed.
(* a C-ordered square picture is read transposed *)
Theorem C88_c_order s a co r k : (0 < s)%Z -> cubic_conv Corder s s a co r k = cubic_conv Forder s s (fun X Y => a Y X) co r k.
Proof. intros S. unfold cubic_conv, conv_px, pixel_sum. reflexivity. Qed.
(* Example *)
Theorem C88_example : cubic_conv Forder 8 8 (fun X Y => IZR X ^ 2 + 3 * IZR Y) (Points 1 1 (fun _ _ => 13 / 4) (fun _ _ => 4)) 0 0 = (13 / 4) ^ 2 + 12.
Proof.
  pose (c := fun k l : nat => match k, l with 2%nat, O => 1 | O, 1%nat => 3 | _, _ => 0 end).
  transitivity (cubic_conv Forder 8 8 (fun X Y => biquadratic c (IZR X) (IZR Y)) (Points 1 1 (fun _ _ => 13 / 4) (fun _ _ => 4)) 0 0).
  - unfold cubic_conv, conv_px, pixel_sum. apply rsum_ext. intros j _. cbv zeta. destruct (_ || _)%bool; auto. apply rsum_ext. intros i _. destruct (_ || _)%bool; auto. f_equal. cbn [in_memory]. unfold biquadratic, c. cbn [rsum pow]. ring.
  - rewrite C88_biquadratic; cbn [at_x at_y xdim]; [unfold biquadratic, c; cbn [rsum pow]; field|lia|rewrite round_quarter; lia|]. replace 4 with (IZR 4) by reflexivity. rewrite round_int. lia.
Qed.
