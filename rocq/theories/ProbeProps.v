(* C32 continued: which axis a probe uses, size and zeros of the probe heights. *)
From Verif Require Import Base RBase EstModel WinProofs.
Open Scope R_scope.
(* In odd iterations the first pair has its discontinuity on 'y', in even iterations on 'x'; pairs then alternate.  A fixed axis is used as it is. *)
Theorem C32_axis_of_pair : forall Itr k,
  bad_axis_y AxX Itr k = false /\ bad_axis_y AxY Itr k = true /\
  (bad_axis_y AxAlt Itr (2 * k) = true <-> (Z.odd Itr = true <-> Nat.even k = true)).
Proof.
  intros Itr k. split; [reflexivity|]. split; [reflexivity|]. unfold bad_axis_y. rewrite Nat2Z.inj_mul. change (Z.of_nat 2) with 2%Z.
  assert (K : Nat.even k = ((2 * Z.of_nat k + 1) mod 4 =? 1)%Z /\ ((2 * Z.of_nat k + 1) mod 4 =? 2)%Z = false).
  { rewrite <- (Nat2Z.id k) at 1. split; [|apply Z.eqb_neq; Z.to_euclidean_division_equations; lia].
    destruct (Nat.even (Z.to_nat (Z.of_nat k))) eqn:E; rewrite Nat2Z.id in E; symmetry.
    - apply Nat.even_spec in E. destruct E as [m ->]. apply Z.eqb_eq. rewrite Nat2Z.inj_mul. Z.to_euclidean_division_equations. lia.
    - assert (O : Nat.odd k = true) by (unfold Nat.odd; now rewrite E). apply Nat.odd_spec in O. destruct O as [m ->]. apply Z.eqb_neq. rewrite Nat2Z.inj_add, Nat2Z.inj_mul. Z.to_euclidean_division_equations. lia. }
  destruct K as [-> ->]. rewrite orb_false_r.
  assert (I : Z.odd Itr = negb (Itr mod 2 =? 0)%Z). { rewrite Zmod_odd. destruct (Z.odd Itr); reflexivity. }
  rewrite I. destruct (Itr mod 2 =? 0)%Z, ((2 * Z.of_nat k + 1) mod 4 =? 1)%Z; cbn; intuition congruence.
Qed.
Lemma sinc_le x : Rabs (sinc x) <= 1.
Proof.
  unfold sinc. destruct (Req_EM_T x 0); [rewrite Rabs_R1; lra|]. unfold Rdiv. rewrite Rabs_mult. pose proof (sin_le_abs (PI * x)) as H. assert (P : 0 < Rabs (PI * x)) by (apply Rabs_pos_lt; apply Rmult_integral_contrapositive; split; [apply PI_neq0|auto]).
  rewrite Rabs_inv. apply Rmult_le_reg_r with (Rabs (PI * x)); auto. rewrite Rmult_assoc, Rinv_l by lra. lra.
Qed.
Lemma sinc_zero z : z <> 0%Z -> sinc (IZR z) = 0.
Proof.
  intros Hz. unfold sinc. destruct (Req_EM_T (IZR z) 0) as [E|]; [apply eq_IZR in E; contradiction|]. rewrite Rmult_comm. rewrite (sin_eq_0_1 (IZR z * PI)) by (exists z; ring). unfold Rdiv. ring.
Qed.
(* rectangular probe: never higher than 4 pi lambda0 sqrt(Inorm), which a probe of phase 0 reaches at its centre, and flat zero along the lines
   width*X = a nonzero integer or height*Y = a nonzero integer *)
Theorem C32_rect_amplitude : forall lambda0 I xi eta w h phase X Y, 0 <= lambda0 ->
  Rabs (rect_height lambda0 I xi eta w h phase X Y) <= 4 * PI * lambda0 * sqrt I /\
  rect_height lambda0 I xi eta w h 0 0 0 = 4 * PI * lambda0 * sqrt I.
Proof.
  intros l I xi eta w h ph X Y Hl. assert (A : 0 <= 4 * PI * l * sqrt I). { pose proof PI_RGT_0. pose proof (sqrt_pos I). apply Rmult_le_pos; [|auto]. apply Rmult_le_pos; [lra|auto]. }
  split.
  - unfold rect_height. set (m := 4 * PI * l * sqrt I) in *. rewrite !Rabs_mult. rewrite (Rabs_right m) by lra. pose proof (sinc_le (w * X)). pose proof (sinc_le (h * Y)). assert (Rabs (cos (2 * PI * (xi * X + eta * Y) + ph)) <= 1) by (apply Rabs_le; apply COS_bound).
    pose proof (Rabs_pos (sinc (w * X))). pose proof (Rabs_pos (sinc (h * Y))). set (a := Rabs (sinc (w * X))) in *. set (b := Rabs (sinc (h * Y))) in *. set (c := Rabs (cos _)) in *. assert (0 <= c) by apply Rabs_pos.
    assert (a * b <= 1) by nra. assert (a * b * c <= 1) by (assert (0 <= a * b) by (apply Rmult_le_pos; auto); nra). replace (m * a * b * c) with (m * (a * b * c)) by ring. nra.
  - unfold rect_height. replace (2 * PI * (xi * 0 + eta * 0) + 0) with 0 by ring. rewrite !Rmult_0_r, cos_0. unfold sinc. destruct (Req_EM_T 0 0); [ring|contradiction].
Qed.
Theorem C32_rect_zeros : forall lambda0 I xi eta w h phase X Y z, z <> 0%Z -> w * X = IZR z \/ h * Y = IZR z -> rect_height lambda0 I xi eta w h phase X Y = 0.
Proof. intros l I xi eta w h ph X Y z Hz [E|E]; unfold rect_height; rewrite E, (sinc_zero z Hz); ring. Qed.
(* square probe *)
Theorem C32_square_amplitude : forall lambda0 I radius N ax psi X Y, 0 <= lambda0 ->
  Rabs (square_height lambda0 I radius N ax psi X Y) <= 4 * PI * lambda0 * sqrt I /\
  square_height lambda0 I radius N ax 0 0 0 = 4 * PI * lambda0 * sqrt I.
Proof.
  intros l I r0 N ax psi X Y Hl. assert (A : 0 <= 4 * PI * l * sqrt I). { pose proof PI_RGT_0. pose proof (sqrt_pos I). apply Rmult_le_pos; [|auto]. apply Rmult_le_pos; [lra|auto]. }
  assert (B : forall m a b c, 0 <= m -> Rabs a <= 1 -> Rabs b <= 1 -> Rabs c <= 1 -> Rabs (m * a * b * c) <= m).
  { intros m a b c Hm Ha Hb Hc. rewrite !Rabs_mult, (Rabs_right m) by lra. pose proof (Rabs_pos a). pose proof (Rabs_pos b). pose proof (Rabs_pos c). set (x := Rabs a) in *. set (y := Rabs b) in *. set (z := Rabs c) in *. assert (x * y <= 1) by nra. assert (x * y * z <= 1) by (assert (0 <= x * y) by (apply Rmult_le_pos; auto); nra). replace (m * x * y * z) with (m * (x * y * z)) by ring. nra. }
  split; unfold square_height; cbv zeta; set (r := if Rlt_dec _ _ then _ else _).
  - destruct (Req_EM_T psi 0); [|destruct ax; apply B; auto using sinc_le; apply Rabs_le; apply COS_bound].
    set (m := 4 * PI * l * sqrt I) in *. replace (m * sinc (2 * r * X) * sinc (2 * r * Y)) with (m * sinc (2 * r * X) * sinc (2 * r * Y) * 1) by ring. apply B; auto using sinc_le. rewrite Rabs_R1. lra.
  - destruct (Req_EM_T 0 0); [|contradiction]. rewrite !Rmult_0_r. unfold sinc. destruct (Req_EM_T 0 0); [ring|contradiction].
Qed.
Example C32_probe_example : bad_axis_y AxAlt 1 0 = true /\ bad_axis_y AxAlt 1 1 = true /\ bad_axis_y AxAlt 1 2 = false /\ bad_axis_y AxAlt 2 0 = false /\
  rect_height 1 1 3 0 2 5 0 (1 / 2) 0 = 0.
Proof. repeat (split; [reflexivity|]). apply (C32_rect_zeros _ _ _ _ _ _ _ _ _ 1); [lia|left; lra]. Qed.
(* Actuator coordinates in units of the DM width: unit pitch 1/N, the array centred on the offset rounded to whole actuators. *)
Theorem C32_coordinates : forall N offset j, (1 <= N)%Z ->
  act_coord N offset (j + 1) - act_coord N offset j = / IZR N /\
  (act_coord N offset j + act_coord N offset (N - 1 - j)) / 2 = - (IZR (ZnearestE offset) / IZR N) /\
  (- / 2 < offset < / 2 -> (0 <= j < N)%Z -> Rabs (act_coord N offset j) < / 2).
Proof.
  intros N offset j HN. assert (P : 0 < IZR N) by (apply (IZR_lt 0); lia). unfold act_coord. split; [|split].
  - rewrite plus_IZR. field. lra.
  - rewrite !minus_IZR. field. lra.
  - intros Ho Hj. assert (Z0 : ZnearestE offset = 0%Z).
    { apply Znearest_imp. rewrite Rminus_0_r. apply Rabs_def1; lra. }
    rewrite Z0. replace (IZR 0 / IZR N) with 0 by (field; lra). rewrite Rminus_0_r.
    assert (J0 : 0 <= IZR j) by (apply (IZR_le 0); lia). assert (J1 : IZR j <= IZR N - 1) by (rewrite <- minus_IZR; apply IZR_le; lia).
    unfold Rdiv. rewrite Rabs_mult, (Rabs_pos_eq (/ IZR N)) by (left; now apply Rinv_0_lt_compat).
    apply (Rmult_lt_reg_r (IZR N)); [assumption|]. rewrite Rmult_assoc, Rinv_l, Rmult_1_r by lra. apply Rabs_def1; lra.
Qed.
