(* Proofs for C105: the ideal profile *)
From Verif Require Import Base RBase CBase PropModel PrpModel ApModel ApSpec OctModel OctSpec MagProofs2.
Open Scope R_scope.
Definition A0 (u : R) : R := 2 / 3 - sinc1 u ^ 3 + sinc1 (3 * u) / 3.
Lemma sinc1_neg u : sinc1 (- u) = sinc1 u.
Proof. unfold sinc1. destruct (Req_EM_T u 0) as [->|N]; [destruct (Req_EM_T (- 0) 0); lra|]. destruct (Req_EM_T (- u) 0); [lra|]. rewrite sin_neg. field. lra. Qed.
Lemma sinc1_abs u : sinc1 (Rabs u) = sinc1 u. Proof. unfold Rabs. destruct (Rcase_abs u); [apply sinc1_neg|reflexivity]. Qed.
Lemma A0_neg u : A0 (- u) = A0 u. Proof. unfold A0. rewrite Ropp_mult_distr_r_reverse, !sinc1_neg. reflexivity. Qed.
Lemma A0_0 : A0 0 = 0. Proof. unfold A0. rewrite Rmult_0_r. unfold sinc1. destruct (Req_EM_T 0 0); [field|lra]. Qed.
Lemma sin_lo u : 0 <= u <= 4 -> u - u ^ 3 / 6 <= sin u.
Proof. intros H. destruct (pre_sin_bound u 0 ltac:(lra) ltac:(lra)) as [L _]. unfold sin_approx, sin_term in L. simpl in L. lra. Qed.
Lemma sin_hi u : 0 <= u <= 4 -> sin u <= u - u ^ 3 / 6 + u ^ 5 / 120.
Proof. intros H. destruct (pre_sin_bound u 0 ltac:(lra) ltac:(lra)) as [_ L]. unfold sin_approx, sin_term in L. simpl in L. simpl. lra. Qed.
Lemma sin_lo7 u : 0 <= u <= 4 -> u - u ^ 3 / 6 + u ^ 5 / 120 - u ^ 7 / 5040 <= sin u.
Proof. intros H. destruct (pre_sin_bound u 1 ltac:(lra) ltac:(lra)) as [L _]. unfold sin_approx, sin_term in L. simpl in L. simpl. lra. Qed.
Lemma div_le a b u : 0 < u -> a <= b * u -> a / u <= b.
Proof. intros U H. apply Rmult_le_reg_r with u; [exact U|]. unfold Rdiv. rewrite Rmult_assoc, Rinv_l by lra. lra. Qed.
Lemma le_div a b u : 0 < u -> b * u <= a -> b <= a / u.
Proof. intros U H. apply Rmult_le_reg_r with u; [exact U|]. unfold Rdiv. rewrite Rmult_assoc, Rinv_l by lra. lra. Qed.
Lemma sinc1_pos u : 0 < u -> sinc1 u = sin u / u. Proof. intros U. unfold sinc1. destruct (Req_EM_T u 0); [lra|reflexivity]. Qed.
Lemma near u : 0 < u <= 4 / 3 -> 0 < A0 u <= 2 / 5 * (u * u * (u * u)).
Proof.
  intros [U1 U2]. unfold A0. rewrite !sinc1_pos by lra. set (v := u * u). assert (V : 0 < v <= 16 / 9) by (unfold v; nra).
  assert (S1 : 1 - v / 6 <= sin u / u) by (apply le_div; [lra|]; pose proof (sin_lo u ltac:(lra)); unfold v; nra).
  assert (S2 : sin u / u <= 1 - (v / 6 - v * v / 120)) by (apply div_le; [lra|]; pose proof (sin_hi u ltac:(lra)) as H; replace ((1 - (v / 6 - v * v / 120)) * u) with (u - u ^ 3 / 6 + u ^ 5 / 120) by (unfold v; field); exact H).
  assert (T1 : 1 - 9 * v / 6 + 81 * (v * v) / 120 - 729 * (v * v * v) / 5040 <= sin (3 * u) / (3 * u)).
  { apply le_div; [lra|]. pose proof (sin_lo7 (3 * u) ltac:(lra)) as H. replace (_ * (3 * u)) with (3 * u - (3 * u) ^ 3 / 6 + (3 * u) ^ 5 / 120 - (3 * u) ^ 7 / 5040) by (unfold v; field). exact H. }
  assert (T2 : sin (3 * u) / (3 * u) <= 1 - 9 * v / 6 + 81 * (v * v) / 120).
  { apply div_le; [lra|]. pose proof (sin_hi (3 * u) ltac:(lra)) as H. replace (_ * (3 * u)) with (3 * u - (3 * u) ^ 3 / 6 + (3 * u) ^ 5 / 120) by (unfold v; field). exact H. }
  set (s := sin u / u) in *. set (t := sin (3 * u) / (3 * u)) in *. set (w := v / 6 - v * v / 120) in *. assert (W : 0 <= w <= v / 6) by (unfold w; nra).
  assert (C1 : s ^ 3 <= (1 - w) ^ 3) by (apply pow_incr; lra). assert (C2 : (1 - v / 6) ^ 3 <= s ^ 3) by (apply pow_incr; lra).
  split.
  - assert (E : (1 - w) ^ 3 = 1 - 3 * w + 3 * (w * w) - w * w * w) by ring. rewrite E in C1. assert (WW : w * w <= v / 6 * (v / 6)) by nra. assert (W3 : 0 <= w * w * w) by (apply Rmult_le_pos; [nra|lra]).
    assert (3 * w = v / 2 - v * v / 40) by (unfold w; field). assert (P : 0 < v * v * (1 / 5 - 1 / 12 - 243 / 5040 * v)) by (apply Rmult_lt_0_compat; nra). nra.
  - assert (E : (1 - v / 6) ^ 3 = 1 - v / 2 + v * v / 12 - v * v * v / 216) by field. rewrite E in C2. assert (v * v * v <= v * v * (16 / 9)) by (apply Rmult_le_compat_l; nra). nra.
Qed.
Lemma far u : 4 / 3 <= u -> 4 / 25 <= A0 u <= 2 / 5 * (u * u * (u * u)).
Proof.
  intros U. unfold A0. rewrite !sinc1_pos by lra. pose proof (SIN_bound u) as B. pose proof (SIN_bound (3 * u)) as B3.
  assert (S1 : - (3 / 4) <= sin u / u) by (apply le_div; lra). assert (S2 : sin u / u <= 3 / 4) by (apply div_le; lra).
  assert (T1 : - (1 / 4) <= sin (3 * u) / (3 * u)) by (apply le_div; lra). assert (T2 : sin (3 * u) / (3 * u) <= 1 / 4) by (apply div_le; lra).
  set (s := sin u / u) in *. set (t := sin (3 * u) / (3 * u)) in *.
  assert (C : - (27 / 64) <= s ^ 3 <= 27 / 64). { assert (s * s <= 9 / 16) by nra. simpl. split; nra. }
  assert (V : 16 / 9 <= u * u) by nra. assert (V2 : 256 / 81 <= u * u * (u * u)) by nra. split; lra.
Qed.
Lemma A0_pos u : u <> 0 -> 0 < A0 u.
Proof.
  intros N. assert (P : forall u, 0 < u -> 0 < A0 u) by (intros v V; destruct (Rle_dec v (4 / 3)); [apply near; lra|pose proof (far v ltac:(lra)); lra]).
  destruct (Rlt_dec 0 u); [auto|]. rewrite <- A0_neg. apply P. lra.
Qed.
Lemma A0_up u : 0 <= A0 u <= 2 / 5 * (u * u * (u * u)).
Proof.
  assert (P : forall u, 0 < u -> 0 <= A0 u <= 2 / 5 * (u * u * (u * u))) by (intros v V; destruct (Rle_dec v (4 / 3)); [pose proof (near v ltac:(lra)); lra|pose proof (far v ltac:(lra)); lra]).
  destruct (Rlt_dec 0 u); [auto|]. destruct (Req_dec u 0) as [->|]; [rewrite A0_0; lra|]. rewrite <- A0_neg. replace (u * u * (u * u)) with (- u * - u * (- u * - u)) by ring. apply P. lra.
Qed.
(* in half widths *)
Definition kap : R := PI * (1788 / 1000) / 3.
Lemma kap_b : 178 / 100 < kap < 18731 / 10000. Proof. unfold kap. pose proof pi_up. assert (3 < PI) by (pose proof PI2_3_2; lra). lra. Qed.
Lemma ideal_A0 r : ideal r = A0 (kap * r). Proof. reflexivity. Qed.
Lemma ideal_0 : ideal 0 = 0. Proof. rewrite ideal_A0, Rmult_0_r. apply A0_0. Qed.
Lemma ideal_pos r : r <> 0 -> 0 < ideal r. Proof. intros N. rewrite ideal_A0. apply A0_pos. pose proof kap_b. apply Rmult_integral_contrapositive_currified; lra. Qed.
Lemma ideal_nn r : 0 <= ideal r. Proof. rewrite ideal_A0. apply A0_up. Qed.
Lemma ideal_abs r : ideal (Rabs r) = ideal r. Proof. unfold Rabs. destruct (Rcase_abs r); [|reflexivity]. rewrite !ideal_A0. rewrite Ropp_mult_distr_r_reverse. apply A0_neg. Qed.
Lemma ideal_up r : ideal r * ideal r <= 243 / 10 * r ^ 8.
Proof.
  rewrite ideal_A0. destruct (A0_up (kap * r)) as [L U]. pose proof kap_b as K. set (a := A0 _) in *. set (q := kap * r * (kap * r)) in *.
  assert (Q : q * q <= 1232 / 100 * (r ^ 4)). { unfold q. assert (kap * kap * (kap * kap) <= 1232 / 100). { assert (kap * kap <= 35086 / 10000) by nra. assert (0 <= kap * kap) by nra. nra. }
    replace (kap * r * (kap * r) * (kap * r * (kap * r))) with (kap * kap * (kap * kap) * r ^ 4) by ring. apply Rmult_le_compat_r; [|lra]. replace (r ^ 4) with (r ^ 2 * r ^ 2) by ring. apply Rle_0_sqr. }
  assert (R4 : 0 <= r ^ 4) by (replace (r ^ 4) with (r ^ 2 * r ^ 2) by ring; apply Rle_0_sqr). assert (a <= 2 / 5 * (1232 / 100 * r ^ 4)) by lra.
  assert (a * a <= 2 / 5 * (1232 / 100 * r ^ 4) * (2 / 5 * (1232 / 100 * r ^ 4))) by (apply Rmult_le_compat; lra).
  replace (r ^ 8) with (r ^ 4 * r ^ 4) by ring. nra.
Qed.
Lemma ideal_far r : 1 <= r -> 4 / 25 <= ideal r. Proof. intros H. rewrite ideal_A0. pose proof kap_b. apply far. nra. Qed.
