From Verif Require Import Base RBase StrBase UtilModel UtilSpec UtilProofs MaskModel MaskSpec.
From Verif Require EstModel EstProofs2.
Open Scope R_scope.

Lemma Rle_bool_iff a b : Rle_bool a b = true <-> a <= b.
Proof. destruct (Rle_bool_spec a b); split; intros; auto; try lra; discriminate. Qed.
Lemma eps_pos : 0 < eps.
Proof. unfold eps. apply Rinv_0_lt_compat, pow_lt. lra. Qed.

Lemma atan2_polar0 x y : sqrt (x * x + y * y) * cos (EstModel.atan2 y x) = x /\ sqrt (x * x + y * y) * sin (EstModel.atan2 y x) = y.
Proof.
  destruct (Req_EM_T x 0) as [-> |Hx]; [destruct (Req_EM_T y 0) as [-> |Hy]|].
  - rewrite Rmult_0_l, Rplus_0_l, sqrt_0. lra.
  - apply EstProofs2.atan2_polar. auto.
  - apply EstProofs2.atan2_polar. auto.
Qed.
Lemma rot_along x y c : sqrt (x * x + y * y) * cos (EstModel.atan2 y x - c) = along c x y.
Proof. rewrite cos_minus. destruct (atan2_polar0 x y) as [A B]. unfold along.
  set (r := sqrt (x * x + y * y)) in *. set (ct := cos (EstModel.atan2 y x)) in *. set (st := sin (EstModel.atan2 y x)) in *.
  transitivity ((r * ct) * cos c + (r * st) * sin c); [ring|]. now rewrite A, B. Qed.
Lemma rot_across x y c : sqrt (x * x + y * y) * sin (EstModel.atan2 y x - c) = across c x y.
Proof. rewrite sin_minus. destruct (atan2_polar0 x y) as [A B]. unfold across.
  set (r := sqrt (x * x + y * y)) in *. set (ct := cos (EstModel.atan2 y x)) in *. set (st := sin (EstModel.atan2 y x)) in *.
  transitivity ((r * st) * cos c - (r * ct) * sin c); [ring|]. now rewrite A, B. Qed.

Lemma atan2_range y x : - PI < EstModel.atan2 y x <= PI.
Proof.
  pose proof PI_RGT_0. unfold EstModel.atan2. pose proof (atan_bound (y / x)).
  destruct (Rlt_dec 0 x); [lra|]. destruct (Rlt_dec x 0).
  - destruct (Rle_dec 0 y) as [Hy|Hy].
    + assert (atan (y / x) <= 0).
      { rewrite <- atan_0. destruct (Req_EM_T y 0) as [-> |]; [unfold Rdiv; rewrite Rmult_0_l; lra|]. left. apply atan_increasing.
        unfold Rdiv. pose proof (Rinv_lt_0_compat x ltac:(lra)). nra. }
      lra.
    + assert (0 < atan (y / x)).
      { rewrite <- atan_0. apply atan_increasing. unfold Rdiv. pose proof (Rinv_lt_0_compat x ltac:(lra)). nra. }
      lra.
  - destruct (Rlt_dec 0 y); [lra|]. destruct (Rlt_dec y 0); lra.
Qed.
Lemma wrapped_cos t : cos (wrapped t) = cos t.
Proof.
  unfold wrapped. destruct (atan2_polar0 (cos t) (sin t)) as [A _].
  replace (cos t * cos t + sin t * sin t) with 1 in A by (pose proof (sin2_cos2 t); unfold Rsqr in *; lra).
  rewrite sqrt_1 in A. lra.
Qed.
Lemma cos_abs t : cos (Rabs t) = cos t.
Proof. unfold Rabs. destruct (Rcase_abs t); [apply cos_neg|reflexivity]. Qed.
Lemma wrapped_le t a : 0 <= a <= PI -> (Rabs (wrapped t) <= a <-> cos a <= cos t).
Proof.
  intros Ha. rewrite <- (wrapped_cos t), <- (cos_abs (wrapped t)). pose proof (atan2_range (sin t) (cos t)) as Hr. fold (wrapped t) in Hr.
  pose proof (Rabs_pos (wrapped t)). assert (Rabs (wrapped t) <= PI) by (apply Rabs_le; lra).
  split; intros Q.
  - apply cos_decr_1; lra.
  - apply cos_decr_0; lra.
Qed.
Lemma sector_cone x y c a : 0 <= a <= 2 * PI -> (x <> 0 \/ y <> 0) ->
  sector_test (EstModel.atan2 y x) c a = true <-> in_cone a c x y.
Proof.
  intros Ha Hp. unfold sector_test. rewrite Rle_bool_iff, wrapped_le by lra. unfold in_cone, dist. rewrite <- rot_along.
  assert (0 < sqrt (x * x + y * y)) by (apply sqrt_lt_R0; destruct Hp; nra).
  split; intros Q; [apply Rmult_le_compat_l; lra|]. apply Rmult_le_reg_l in Q; auto.
Qed.
Lemma sector_all x y c a : 2 * PI <= a -> sector_test (EstModel.atan2 y x) c a = true.
Proof.
  intros Ha. unfold sector_test. apply Rle_bool_iff. pose proof (atan2_range (sin (EstModel.atan2 y x - c)) (cos (EstModel.atan2 y x - c))) as Hr.
  fold (wrapped (EstModel.atan2 y x - c)) in Hr. apply Rabs_le. lra.
Qed.

Definition hole_of (sh : string) : option hole :=
  if str_in sh ["circle"; "annulus"]%string then Some Annulus else if str_in sh ["square"]%string then Some SquareHole
  else if str_in sh ["rect"; "rectangle"]%string then Some Slab else if str_in sh ["d"]%string then Some DShape else None.
Lemma abs_le a b : Rabs a <= b <-> a <= b /\ - b <= a.
Proof. split; intros H; [apply Rabs_le_inv in H; lra|apply Rabs_le; lra]. Qed.
Lemma shape_spec sh h c ri ro x y : hole_of sh = Some h -> 0 <= ri + ro -> 
  exists b, shape_test sh (sqrt (x * x + y * y)) (EstModel.atan2 y x) c ri ro = Some b /\ (b = true <-> in_hole h c ri ro x y).
Proof.
  unfold hole_of, shape_test. intros Hh Hr. rewrite rot_along, rot_across. fold (dist x y).
  destruct (str_in sh ["circle"; "annulus"]%string); [injection Hh as <-; eexists; split; [reflexivity|]; rewrite andb_true_iff, !Rle_bool_iff; cbn; tauto|].
  destruct (str_in sh ["square"]%string); [injection Hh as <-; eexists; split; [reflexivity|]|].
  { rewrite !andb_true_iff, orb_true_iff, !andb_true_iff, !Rle_bool_iff. cbn. rewrite !abs_le. tauto. }
  destruct (str_in sh ["rect"; "rectangle"]%string); [injection Hh as <-; eexists; split; [reflexivity|]|].
  { rewrite orb_true_iff, !andb_true_iff, !Rle_bool_iff. cbn. rewrite !abs_le. unfold Rabs. destruct (Rcase_abs (along c x y)); lra. }
  destruct (str_in sh ["d"]%string); [injection Hh as <-; eexists; split; [reflexivity|]|discriminate].
  rewrite andb_true_iff, orb_true_iff, !Rle_bool_iff. cbn. unfold Rabs. destruct (Rcase_abs (along c x y)); lra.
Qed.
Lemma shape_test_some sh h rho th c ri ro : hole_of sh = Some h -> exists b, shape_test sh rho th c ri ro = Some b.
Proof. unfold hole_of, shape_test. repeat (match goal with |- context [str_in sh ?l] => destruct (str_in sh l) end; [eauto|]). discriminate. Qed.
Lemma shape_test_none sh rho th c ri ro : hole_of sh = None -> shape_test sh rho th c ri ro = None.
Proof. unfold hole_of, shape_test. repeat (match goal with |- context [str_in sh ?l] => destruct (str_in sh l) end; [discriminate|]). reflexivity. Qed.

Lemma ceil_even_ge x : x <= IZR (ceil_even x) /\ (exists k, ceil_even x = 2 * k)%Z.
Proof. destruct (ceil_even_least x) as (A & B & _). split; auto. Qed.
