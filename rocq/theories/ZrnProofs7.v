(* Proofs for C84: orthonormality on the annulus *)
From Coq Require Import Factorial.
From Coquelicot Require Import Coquelicot.
From Verif Require Import Base RBase StrBase CBase EstModel ZrnModel ZrnSpec ZrnProofs ZrnProofs2 ZrnProofs3 ZrnProofs4 ZrnProofs6.
Open Scope R_scope.
Lemma pos_poly e : 0 <= e -> 0 <= e ^ 2 /\ 0 <= e ^ 4 /\ 0 <= e ^ 6 /\ 0 <= e ^ 8 /\ 0 <= e ^ 10 /\ 0 <= e ^ 12.
Proof. intros H. repeat split; now apply pow_le. Qed.
Lemma one_minus e : 0 <= e < 1 -> -1 + e ^ 2 < 0.
Proof. intros H. nra. Qed.
Lemma scale_sq c d : 0 < d -> (c / sqrt d) * (c / sqrt d) = c * c / d.
Proof. intros D. rewrite <- (sqrt_sqrt d) at 3 by lra. field. apply Rgt_not_eq, sqrt_lt_R0. auto. Qed.
Lemma scale_sq3 c q d : 0 < d -> q <> 0 -> (c / (q * sqrt d)) * (c / (q * sqrt d)) = c * c / (q * q * d).
Proof. intros D Q. rewrite <- (sqrt_sqrt d) at 3 by lra. field. split; auto. apply Rgt_not_eq, sqrt_lt_R0. auto. Qed.
Lemma sqrt_sq2 x : 0 <= x -> (2 * sqrt x) * (2 * sqrt x) = 4 * x.
Proof. intros X. replace (4 * x) with (4 * (sqrt x * sqrt x)) by (rewrite sqrt_sqrt; auto). ring. Qed.
Definition osq (k : nat) (e : R) : R :=
  let e2 := e ^ 2 in let e4 := e ^ 4 in let e6 := e ^ 6 in let e8 := e ^ 8 in
  match k with
  | 1%nat => 1
  | 2%nat | 3%nat => 4 / (1 + e2)
  | 4%nat => 3 / ((-1 + e2) * (-1 + e2))
  | 5%nat | 6%nat => 6 / (1 + e2 + e4)
  | 7%nat | 8%nat => 8 / ((-1 + e2) * (-1 + e2) * (1 + 5 * e2 + 5 * e4 + e6))
  | 9%nat | 10%nat => 8 / (1 + e2 + e4 + e6)
  | 11%nat => 5 / ((-1 + e2) ^ 2 * (-1 + e2) ^ 2)
  | 12%nat | 13%nat => 10 / ((-1 + e2) * (-1 + e2) * ((1 + e2 + e4) * (1 + 4 * e2 + 10 * e4 + 4 * e6 + e8)))
  | 14%nat | 15%nat => 10 / (1 + e2 + e4 + e6 + e8)
  | 16%nat | 17%nat => 12 / ((-1 + e2) ^ 2 * (-1 + e2) ^ 2 * ((1 + 4 * e2 + e4) * (1 + 9 * e2 + 9 * e4 + e6)))
  | 18%nat | 19%nat => 12 / ((-1 + e2) * (-1 + e2) * ((1 + e2 + e4 + e6) * (1 + 4 * e2 + 10 * e4 + 20 * e6 + 10 * e8 + 4 * e ^ 10 + e ^ 12)))
  | 20%nat | 21%nat => 12 / (1 + e2 + e4 + e6 + e8 + e ^ 10)
  | 22%nat => 7 / ((-1 + e2) ^ 3 * (-1 + e2) ^ 3)
  | _ => 0
  end.
Ltac onz := match goal with H : 0 <= ?e < 1 |- _ => pose proof (one_minus e H); pose proof (pos_poly e (proj1 H)) as (? & ? & ? & ? & ? & ?) end.
Lemma div_sq c q : q <> 0 -> c / q * (c / q) = c * c / (q * q).
Proof. intros Q. field. auto. Qed.
Lemma oscale_sq k e : 0 <= e < 1 -> (1 <= k <= 22)%nat -> oscale k e * oscale k e = osq k e.
Proof.
  intros E K. onz. assert (S3 : sqrt 3 * sqrt 3 = 3) by (apply sqrt_sqrt; lra). assert (S5 : sqrt 5 * sqrt 5 = 5) by (apply sqrt_sqrt; lra). assert (S6 : sqrt 6 * sqrt 6 = 6) by (apply sqrt_sqrt; lra).
  assert (S7 : sqrt 7 * sqrt 7 = 7) by (apply sqrt_sqrt; lra). assert (S10 : sqrt 10 * sqrt 10 = 10) by (apply sqrt_sqrt; lra). pose proof (sqrt_sq2 2 ltac:(lra)) as S8. pose proof (sqrt_sq2 3 ltac:(lra)) as S12.
  assert (N1 : -1 + e ^ 2 <> 0) by lra. assert (N2 : (-1 + e ^ 2) ^ 2 <> 0) by now apply pow_nonzero. assert (N3 : (-1 + e ^ 2) ^ 3 <> 0) by now apply pow_nonzero.
  do 23 (destruct k as [|k]; [try lia; unfold oscale, osq; cbv zeta; try ring;
    first [rewrite scale_sq3 by (auto; repeat apply Rmult_lt_0_compat; lra) | rewrite scale_sq by lra | rewrite div_sq by auto]; rewrite ?S3, ?S5, ?S6, ?S7, ?S10, ?S8, ?S12; f_equal; ring|]). lia.
Qed.
Ltac oint := unfold opoly; cbv zeta; cbn [pint pint1 Nat.add]; simpl INR.
Lemma zero_ip j k e : (1 <= j <= 22)%nat -> (1 <= k <= 22)%nat -> j <> k -> ang_ip (fst (oang j)) (snd (oang j)) (fst (oang k)) (snd (oang k)) <> 0 -> pint (opoly j e) (opoly k e) e = 0.
Proof.
  intros J K N. do 23 (destruct j as [|j]; [try lia; do 23 (destruct k as [|k]; [try lia; unfold oang, ang_ip; cbn [nth fst snd Nat.eqb Nat.even Bool.eqb]; intros X; try (now destruct X); oint; field|]); lia|]). lia.
Qed.
Lemma norm_ip k e : 0 <= e < 1 -> (1 <= k <= 22)%nat -> osq k e * pint (opoly k e) (opoly k e) e = (if Nat.eqb (fst (oang k)) 0 then (1 - e ^ 2) / 2 else 1 - e ^ 2).
Proof.
  intros E K. onz. assert (N1 : -1 + e ^ 2 <> 0) by lra.
  do 23 (destruct k as [|k]; [try lia; unfold osq, oang; cbv zeta; cbn [nth fst Nat.eqb]; oint; field; repeat split; try exact N1; try lra|]). lia.
Qed.
Lemma obs_orth j k e : 0 <= e < 1 -> (1 <= j <= 22)%nat -> (1 <= k <= 22)%nat -> exists f g, (forall r t, zobs j e r t = Some (f r t)) /\ (forall r t, zobs k e r t = Some (g r t)) /\
  annulus_mean e (fun r t => f r t * g r t) (if Nat.eqb j k then 1 else 0).
Proof.
  intros E J K. exists (fun r t => oscale j e * pval (opoly j e) r * ang (fst (oang j)) (snd (oang j)) t), (fun r t => oscale k e * pval (opoly k e) r * ang (fst (oang k)) (snd (oang k)) t).
  split; [intros; now apply zobs_split|]. split; [intros; now apply zobs_split|]. apply mean_modes; try lra. destruct (Nat.eqb_spec j k) as [<-|N].
  - rewrite oscale_sq, norm_ip by auto. unfold ang_ip. rewrite Nat.eqb_refl, Bool.eqb_reflx. destruct (Nat.eqb (fst (oang j)) 0); field.
  - destruct (Req_EM_T (ang_ip (fst (oang j)) (snd (oang j)) (fst (oang k)) (snd (oang k))) 0) as [->|Z]; [ring|]. rewrite zero_ip by auto. ring.
Qed.
