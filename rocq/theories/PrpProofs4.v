(* Proof support: lenses *)
From Coquelicot Require Import Coquelicot.
From Verif Require Import Base RBase CBase PropModel PropSpec PropProofs OptModel PrpModel PrpSpec PrpProofs PrpProofs2 PrpProofs3.
Open Scope R_scope.
Lemma wave_pos w : coherent w -> 0 < lens_zr w. Proof. intros C. unfold lens_zr. rewrite <- (co_zr w C). now apply zray_pos. Qed.
Lemma ws_sq w : coherent w -> 0 < lens_ws w /\ PI * lens_ws w ^ 2 / w_lam w = ((w_z w - w_zw0 w) ^ 2 + lens_zr w ^ 2) / lens_zr w.
Proof.
  intros C. pose proof (wave_pos w C) as Z. pose proof (co_w0 w C) as W. pose proof (co_lam w C) as L. pose proof PI_RGT_0. unfold lens_ws. set (d := w_z w - w_zw0 w).
  assert (P : 0 < 1 + (d / lens_zr w) ^ 2) by (pose proof (pow2_ge_0 (d / lens_zr w)); lra).
  split; [apply Rmult_lt_0_compat; [auto|now apply sqrt_lt_R0]|]. rewrite Rpow_mult_distr, pow2_sqrt by lra.
  replace (PI * (w_w0 w ^ 2 * (1 + (d / lens_zr w) ^ 2)) / w_lam w) with (lens_zr w * (1 + (d / lens_zr w) ^ 2)) by (unfold lens_zr at 1; field; lra). field. lra.
Qed.
(* the beam parameter after the lens, in terms of the curvature *)
Lemma lens_q w f : coherent w -> let a := PI * lens_ws w ^ 2 / w_lam w in 0 < a /\
  (w_z w - lens_zw0 w f, lens_zr' w f) = match lens_curv w f with Some g => if Req_EM_T g 0 then (w_z w - lens_zw0 w f, lens_zr' w f) else (g * a ^ 2 / (a ^ 2 + g ^ 2), a * g ^ 2 / (a ^ 2 + g ^ 2)) | None => (0, a) end.
Proof.
  intros C a. pose proof (ws_sq w C) as [W _]. pose proof (co_lam w C) as L. pose proof PI_RGT_0 as HP.
  assert (A : 0 < a). { unfold a. apply Rdiv_lt_0_compat; auto. apply Rmult_lt_0_compat; auto. now apply pow_lt. }
  split; auto. unfold lens_zr', lens_zw0, lens_w0. destruct (lens_curv w f) as [g|].
  - destruct (Req_EM_T g 0) as [|G]; auto.
    replace (w_lam w * g / (PI * lens_ws w ^ 2)) with (g / a) by (unfold a; field; lra). replace (PI * lens_ws w ^ 2 / (w_lam w * g)) with (a / g) by (unfold a; field; lra).
    assert (0 < 1 + (a / g) ^ 2) by (pose proof (pow2_ge_0 (a / g)); lra). assert (0 < a ^ 2 + g ^ 2) by (pose proof (pow2_ge_0 g); pose proof (pow_lt a 2 A); lra).
    f_equal.
    + field. split; lra.
    + assert (X : (lens_ws w / sqrt (1 + (a / g) ^ 2)) ^ 2 = lens_ws w ^ 2 / (1 + (a / g) ^ 2)).
      { unfold Rdiv at 1. rewrite Rpow_mult_distr, pow_inv, pow2_sqrt by lra. reflexivity. }
      rewrite X. transitivity (a / (1 + (a / g) ^ 2)).
      * clear X. revert H. generalize (1 + (a / g) ^ 2). intros k Hk. unfold a. field. split; lra.
      * clearbody a. field. repeat split; try lra; nra.
  - f_equal. ring.
Qed.
Lemma Cinv_pair x y : Cinv (x, y) = (x / (x ^ 2 + y ^ 2), - y / (x ^ 2 + y ^ 2)). Proof. reflexivity. Qed.
Lemma curv_nz w f g : coherent w -> f <> 0 -> lens_curv w f = Some g -> g <> 0.
Proof.
  intros C Hf. pose proof (wave_pos w C) as Z. unfold lens_curv. destruct (Req_EM_T (w_z w - w_zw0 w) 0) as [|D].
  - intros E. injection E as <-. lra.
  - set (old := w_z w - w_zw0 w + lens_zr w ^ 2 / (w_z w - w_zw0 w)). destruct (Req_EM_T old f) as [|K]; [discriminate|]. intros E. injection E as <-.
    assert (O : old <> 0).
    { intros E. assert (X : (w_z w - w_zw0 w) ^ 2 + lens_zr w ^ 2 = 0) by (replace ((w_z w - w_zw0 w) ^ 2 + lens_zr w ^ 2) with (old * (w_z w - w_zw0 w)) by (unfold old; field; auto); rewrite E; ring).
      pose proof (pow2_ge_0 (w_z w - w_zw0 w)). pose proof (pow_lt _ 2 Z). lra. }
    unfold Rdiv. rewrite Rmult_1_l. apply Rinv_neq_0_compat. intros E. apply K. rewrite !Rmult_1_l in E.
    rewrite <- (Rinv_inv old), <- (Rinv_inv f). f_equal. lra.
Qed.
Lemma lens_q_law w f : coherent w -> f <> 0 -> Cinv (w_z w - lens_zw0 w f, lens_zr' w f) = Cminus (Cinv (beam_q w)) (RtoC (/ f)).
Proof.
  intros C Hf. destruct (lens_q w f C) as [A E]. rewrite E. clear E. pose proof (wave_pos w C) as Z. destruct (ws_sq w C) as [_ Wa].
  set (a := PI * lens_ws w ^ 2 / w_lam w) in *. unfold beam_q. change (PI * w_w0 w ^ 2 / w_lam w) with (lens_zr w).
  pose proof (curv_nz w f) as NZ. unfold lens_curv in *. set (d := w_z w - w_zw0 w) in *. set (zr := lens_zr w) in *. clearbody a d zr.
  assert (P1 : 0 < d ^ 2 + zr ^ 2) by (pose proof (pow2_ge_0 d); pose proof (pow_lt zr 2 Z); lra).
  assert (INV : forall g, g <> 0 -> Cinv (g * a ^ 2 / (a ^ 2 + g ^ 2), a * g ^ 2 / (a ^ 2 + g ^ 2)) = (/ g, - / a)).
  { intros g G. assert (Q : 0 < a ^ 2 + g ^ 2) by (pose proof (pow2_ge_0 g); pose proof (pow_lt a 2 A); lra). rewrite Cinv_pair.
    assert (X : (g * a ^ 2 / (a ^ 2 + g ^ 2)) ^ 2 + (a * g ^ 2 / (a ^ 2 + g ^ 2)) ^ 2 = a ^ 2 * g ^ 2 / (a ^ 2 + g ^ 2)) by (field; lra). rewrite X. f_equal; field; repeat split; lra. }
  destruct (Req_EM_T d 0) as [D|D].
  - destruct (Req_EM_T (- f) 0); [lra|]. transitivity (/ (- f), - / a); [apply INV; lra|]. rewrite Wa, D. rewrite !Cinv_pair. unfold Cminus, Copp, Cplus, RtoC; cbn [fst snd]. f_equal; field; lra.
  - destruct (Req_EM_T (d + zr ^ 2 / d) f) as [K|K].
    + transitivity (0, - / a); [rewrite Cinv_pair; f_equal; field; lra|]. rewrite Wa, <- K. rewrite !Cinv_pair. unfold Cminus, Copp, Cplus, RtoC; cbn [fst snd]. f_equal; field; repeat split; try lra; nra.
    + specialize (NZ _ C Hf eq_refl). set (g := 1 / (1 / (d + zr ^ 2 / d) - 1 / f)) in *. destruct (Req_EM_T g 0); [lra|].
      assert (Hg : / g = d / (d ^ 2 + zr ^ 2) - / f).
      { unfold g. unfold Rdiv at 1. rewrite Rmult_1_l, Rinv_inv. field. repeat split; try lra; nra. }
      assert (Q : 0 < a ^ 2 + g ^ 2) by (pose proof (pow2_ge_0 g); pose proof (pow_lt a 2 A); lra).
      transitivity (/ g, - / a); [now apply INV|].
      clearbody g.
      rewrite Hg, Wa. rewrite !Cinv_pair. unfold Cminus, Copp, Cplus, RtoC; cbn [fst snd]. f_equal; field; repeat split; try lra; nra.
Qed.
