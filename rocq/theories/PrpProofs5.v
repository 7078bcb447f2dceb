(* Proof support: the lens acts on the electric field as a thin lens *)
From Coquelicot Require Import Coquelicot.
From Verif Require Import Base RBase CBase PropModel PropSpec PropProofs OptModel PrpModel PrpSpec PrpProofs PrpProofs2 PrpProofs3 PrpProofs4.
Open Scope R_scope.
Lemma bdim_same n : bdim n n = Some n. Proof. unfold bdim. now rewrite Nat.eqb_refl. Qed.
Lemma bix_in n i : (i < n)%nat -> bix n i = i. Proof. intros. unfold bix. destruct (Nat.eqb_spec n 1); lia. Qed.
Lemma imul_sq n A B : sq n A -> sq n B -> exists P, imul A B = Ok P /\ sq n P /\ forall i j, (i < n)%nat -> (j < n)%nat -> fpx P i j = Cmult (fpx A i j) (fpx B i j).
Proof.
  intros [A1 A2] [B1 B2]. unfold imul, bop. rewrite A1, A2, B1, B2, bdim_same. cbn [rbind frows fcols]. rewrite Nat.eqb_refl. cbn [andb]. eexists. split; [reflexivity|]. split; [split; reflexivity|].
  intros i j Hi Hj. cbn [fpx]. now rewrite !bix_in.
Qed.
Lemma shift_sq {A} n (E : field A) : frows E = n -> fcols E = n -> frows (shift_center E) = n /\ fcols (shift_center E) = n. Proof. intros; split; auto. Qed.
(* phase *)
Lemma add_phase_ok w p : coherent w -> frows p = w_n w -> fcols p = w_n w -> exists E, prop_add_phase w p = Ok (set_arr w E) /\ sq (w_n w) E /\
  forall i j, (i < w_n w)%nat -> (j < w_n w)%nat -> fpx E i j = Cmult (fpx (w_arr w) i j) (cis (2 * PI / w_lam w * fpx p (roll_ix (w_n w) (half (w_n w)) i) (roll_ix (w_n w) (half (w_n w)) j))).
Proof.
  intros C R1 C1. unfold prop_add_phase. cbv zeta. destruct (imul_sq (w_n w) (w_arr w) (mkf (frows (shift_center p)) (fcols (shift_center p)) (fun i j => cis (2 * PI / w_lam w * fpx (shift_center p) i j)))) as (E & H1 & H2 & H3).
  - split; apply C. - split; auto.
  - rewrite H1. cbn [rbind]. exists E. split; [reflexivity|]. split; auto. intros i j Hi Hj. rewrite H3 by auto. unfold shift_center. cbn [fpx roll2]. now rewrite R1, C1.
Qed.
Lemma half_even2 n i : Nat.even n = true -> (i < n)%nat -> roll_ix n (half n) (roll_ix n (half n) i) = i.
Proof.
  intros E H. rewrite roll_roll by lia. apply roll_id; auto. apply half_even in E. replace (half n + half n)%Z with (Z.of_nat n) by lia. apply Z_mod_same_full.
Qed.
Lemma even_div n : Nat.even n = true -> INR (n / 2) = INR n / 2.
Proof. intros E. apply Nat.even_spec in E as [m ->]. rewrite Nat.mul_comm, Nat.div_mul by lia. rewrite mult_INR. cbn [INR]. lra. Qed.
Lemma lens_zr'_pos w f : coherent w -> f <> 0 -> 0 < lens_zr' w f /\ 0 < lens_w0 w f.
Proof.
  intros C Hf. destruct (ws_sq w C) as [W _]. assert (W0 : 0 < lens_w0 w f).
  { unfold lens_w0. destruct (lens_curv w f); auto. apply Rdiv_lt_0_compat; auto. apply sqrt_lt_R0. match goal with |- 0 < 1 + ?x ^ 2 => pose proof (pow2_ge_0 x) end. lra. }
  split; auto. unfold lens_zr'. apply Rdiv_lt_0_compat; [|apply C]. apply Rmult_lt_0_compat; [apply PI_RGT_0|]. now apply pow_lt.
Qed.
(* no division by zero: the one combination that the code does not guard *)
Definition lens_safe (w : wavefront) (f : R) : Prop := w_inside w = false -> w_planar w = true -> lens_inside w f = false.
Lemma lens_inside_true w f : lens_inside w f = true <-> Rabs (lens_zw0 w f - w_z w) < lens_zr' w f.
Proof. unfold lens_inside. rewrite Rmult_1_l. destruct (Rlt_dec (Rabs (lens_zw0 w f - w_z w)) (lens_zr' w f)); split; intros; auto; try discriminate; lra. Qed.
Lemma phase_value w f : coherent w -> f <> 0 -> lens_safe w f ->
  lens_phase w f = Ok (1 / f - (if w_planar w then 0 else 1 / (w_z w - w_zw0 w)) + (if lens_inside w f then 0 else 1 / (w_z w - lens_zw0 w f))).
Proof.
  intros C Hf Sf. unfold lens_phase. destruct (lens_zr'_pos w f C Hf) as [Z' _].
  assert (RN : lens_inside w f = false -> w_z w - lens_zw0 w f <> 0).
  { intros I E. assert (X : lens_inside w f = true); [|congruence]. apply lens_inside_true. replace (lens_zw0 w f - w_z w) with 0 by lra. now rewrite Rabs_R0. }
  destruct (w_inside w) eqn:I.
  - rewrite (co_pl w C I). destruct (lens_inside w f); f_equal; lra.
  - cbn [orb]. destruct (w_planar w) eqn:P.
    + rewrite (Sf I P) in *. destruct (Req_EM_T 0 0); [|lra]. f_equal; lra.
    + pose proof (outside_nz w C P). destruct (Req_EM_T (w_z w - w_zw0 w) 0); [lra|]. destruct (lens_inside w f); [f_equal; lra|].
      specialize (RN eq_refl). destruct (Req_EM_T (w_z w - lens_zw0 w f) 0); [lra|]. reflexivity.
Qed.
Lemma lens_ok w f : coherent w -> f <> 0 -> lens_safe w f -> exists E, prop_lens w f =
    Ok (mkw E (w_lam w) (w_dx w) (lens_inside w f) (lens_inside w f) (w_z w) (lens_zw0 w f) (lens_w0 w f) (lens_zr' w f) (Rabs (lens_zw0 w f - w_z w) / (2 * lens_ws w)) (w_n w))
  /\ sq (w_n w) E /\ forall i j, (i < w_n w)%nat -> (j < w_n w)%nat -> fpx E i j = Cmult (fpx (w_arr w) i j)
     (cis (2 * PI / w_lam w * (- (sqrt ((INR (roll_ix (w_n w) (half (w_n w)) j) - INR (w_n w / 2)) ^ 2 + (INR (roll_ix (w_n w) (half (w_n w)) i) - INR (w_n w / 2)) ^ 2) * w_dx w) ^ 2 *
        ((1 / f - (if w_planar w then 0 else 1 / (w_z w - w_zw0 w)) + (if lens_inside w f then 0 else 1 / (w_z w - lens_zw0 w f))) / 2)))).
Proof.
  intros C Hf Sf. unfold prop_lens. destruct (Req_EM_T f 0); [lra|]. rewrite (phase_value w f C Hf Sf). cbn [rbind]. cbv zeta.
  match goal with |- context [prop_add_phase ?x ?y] => set (v := x); set (p := y) end.
  destruct (lens_zr'_pos w f C Hf) as [Z' W'].
  assert (Cv : coherent v).
  { destruct C as [N R1 C1 L D W Z I P]. constructor; cbn; auto; try apply lens_inside_true. }
  destruct (add_phase_ok v p Cv eq_refl eq_refl) as (E & H1 & H2 & H3). exists E. split; [exact H1|]. split; [exact H2|]. exact H3.
Qed.
Lemma lens_coherent w f w' : coherent w -> f <> 0 -> lens_safe w f -> prop_lens w f = Ok w' -> coherent w'.
Proof.
  intros C Hf Sf E. destruct (lens_ok w f C Hf Sf) as (F & H1 & [H2 H2'] & _). rewrite H1 in E. injection E as <-. destruct (lens_zr'_pos w f C Hf) as [Z' W'].
  destruct C as [N R1 C1 L D W Z I P]. constructor; cbn; auto. apply lens_inside_true.
Qed.
Lemma lens_physical w f w' i j : coherent w -> Nat.even (w_n w) = true -> f <> 0 -> lens_safe w f -> prop_lens w f = Ok w' -> (i < w_n w)%nat -> (j < w_n w)%nat ->
  physical w' i j = Cmult (physical w i j) (cis (- (PI * (pix w i ^ 2 + pix w j ^ 2) / (w_lam w * f)))).
Proof.
  intros C Ev Hf Sf E Hi Hj. destruct (lens_ok w f C Hf Sf) as (F & H1 & [H2 H2'] & H3). rewrite H1 in E. injection E as <-.
  pose proof (co_n w C) as N. pose proof (co_lam w C) as L. destruct (lens_zr'_pos w f C Hf) as [Z' _].
  unfold physical, get_wavefront, shift_center, pix, get_sampling, get_refradius. cbn [fpx roll2 w_arr w_n w_dx w_planar w_lam w_z w_zw0]. rewrite H2, H2', (co_r w C), (co_c w C).
  rewrite H3 by now apply roll_lt. rewrite !half_even2 by auto. rewrite even_div by auto.
  set (x := INR i - INR (w_n w) / 2). set (y := INR j - INR (w_n w) / 2).
  rewrite Rpow_mult_distr, pow2_sqrt by (pose proof (pow2_ge_0 x); pose proof (pow2_ge_0 y); lra).
  assert (RN : lens_inside w f = false -> w_z w - lens_zw0 w f <> 0).
  { intros I Q. assert (X : lens_inside w f = true); [|congruence]. apply lens_inside_true. replace (lens_zw0 w f - w_z w) with 0 by lra. now rewrite Rabs_R0. }
  rewrite <- !Cmult_assoc. f_equal. pose proof (outside_nz w C) as NZ.
  destruct (w_planar w) eqn:P, (lens_inside w f) eqn:I; rewrite ?Cmult_1_l, ?Cmult_1_r, <- ?cis_add; f_equal.
  - field. lra.
  - specialize (RN eq_refl). field. repeat split; lra.
  - specialize (NZ eq_refl). field. repeat split; lra.
  - specialize (NZ eq_refl). specialize (RN eq_refl). field. repeat split; lra.
Qed.
