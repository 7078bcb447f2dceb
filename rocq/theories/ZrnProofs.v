(* Proofs for C83: radial polynomials *)
From Coq Require Import Factorial.
From Verif Require Import Base RBase StrBase CBase ZrnModel.
Open Scope R_scope.
(* ---- finite differences ---- *)
Fixpoint dif (d : nat) (f : nat -> R) (i : nat) : R := match d with O => f i | S k => dif k f (S i) - dif k f i end.
Lemma dif_ext d f g i : (forall x, f x = g x) -> dif d f i = dif d g i.
Proof. intros H. revert i. induction d as [|d IH]; intros i; cbn; [auto|now rewrite !IH]. Qed.
Lemma dif_plus d f g i : dif d (fun x => f x + g x) i = dif d f i + dif d g i.
Proof. revert i. induction d as [|d IH]; intros i; cbn; [ring|rewrite !IH; ring]. Qed.
Lemma dif_scal d c f i : dif d (fun x => c * f x) i = c * dif d f i.
Proof. revert i. induction d as [|d IH]; intros i; cbn; [ring|rewrite !IH; ring]. Qed.
Lemma dif_S d f i : dif (S d) f i = dif d (fun x => f (S x) - f x) i.
Proof. revert i. induction d as [|d IH]; intros i; [reflexivity|]. change (dif (S d) f (S i) - dif (S d) f i = dif d (fun x => f (S x) - f x) (S i) - dif d (fun x => f (S x) - f x) i). now rewrite !IH. Qed.
Lemma dif_0 d i : dif d (fun _ => 0) i = 0.
Proof. revert i. induction d as [|d IH]; intros i; cbn; [auto|rewrite !IH; ring]. Qed.
Lemma dif_more d e f : (forall i, dif d f i = 0) -> (d <= e)%nat -> forall i, dif e f i = 0.
Proof. intros H L. induction L as [|e L IH]; auto. intros i. cbn. rewrite !IH. ring. Qed.
Lemma dif_lin d : forall f c, (forall i, dif d f i = 0) -> forall i, dif (S d) (fun x => (INR x + c) * f x) i = 0.
Proof.
  induction d as [|d IH]; intros f c H i.
  - cbn in *. rewrite !H. ring.
  - rewrite dif_S. rewrite (dif_ext _ _ (fun x => (INR x + (c + 1)) * (f (S x) - f x) + f x)) by (intros x; rewrite S_INR; ring).
    rewrite dif_plus. rewrite IH; [rewrite H; ring|]. intros j. rewrite <- dif_S. apply H.
Qed.
(* product of linear factors x + b q for q < d *)
Fixpoint lin (b : nat -> R) (d : nat) (x : R) : R := match d with O => 1 | S k => (x + b k) * lin b k x end.
Lemma dif_prod b d i : dif (S d) (fun x => lin b d (INR x)) i = 0.
Proof.
  revert i. induction d as [|d IH]; intros i; [cbn; ring|]. cbn [lin]. apply (dif_lin (S d) (fun x => lin b d (INR x)) (b d)). exact IH.
Qed.
Fixpoint rising (c : R) (d : nat) : R := match d with O => 1 | S k => c * rising (c + 1) k end.
Lemma rising_pos c d : 0 < c -> 0 < rising c d.
Proof. revert c. induction d as [|d IH]; intros c H; cbn; [lra|]. apply Rmult_lt_0_compat; auto. apply IH. lra. Qed.
Lemma rising_last c d : rising c (S d) = rising c d * (c + INR d).
Proof. revert c. induction d as [|d IH]; intros c; [cbn; ring|]. change (rising c (S (S d))) with (c * rising (c + 1) (S d)). rewrite IH, S_INR. cbn [rising]. ring. Qed.
Lemma dif_inv k c i : 0 < c -> dif k (fun x => / (INR x + c)) i = (-1) ^ k * INR (fact k) / rising (INR i + c) (S k).
Proof.
  intros Hc. revert i. induction k as [|k IH]; intros i.
  - cbn. pose proof (pos_INR i). field. lra.
  - cbn [dif]. rewrite !IH. pose proof (pos_INR i). pose proof (pos_INR k). rewrite (rising_last (INR i + c) (S k)). rewrite S_INR. replace (INR i + 1 + c) with (INR i + c + 1) by ring. rewrite (rising_last (INR i + c + 1) k), S_INR.
    cbn [rising]. assert (0 < rising (INR i + c + 1) k) by (apply rising_pos; lra). rewrite fact_simpl, mult_INR, S_INR. cbn [pow]. field. lra.
Qed.
Fixpoint gaps (b : nat -> R) (c : R) (d : nat) : R := match d with O => 1 | S k => (b k - c) * gaps b c k end.
Lemma dif_frac k b c d i : 0 < c -> (d <= k)%nat -> dif k (fun x => lin b d (INR x) / (INR x + c)) i = gaps b c d * dif k (fun x => / (INR x + c)) i.
Proof.
  intros Hc. induction d as [|d IH]; intros L.
  - cbn [lin gaps]. rewrite Rmult_1_l. apply dif_ext. intros x. unfold Rdiv. ring.
  - cbn [lin gaps]. rewrite (dif_ext _ _ (fun x => lin b d (INR x) + (b d - c) * (lin b d (INR x) / (INR x + c)))).
    2:{ intros x. pose proof (pos_INR x). field. lra. }
    rewrite dif_plus, dif_scal, IH by lia. rewrite (dif_more (S d) k); [ring|apply dif_prod|lia].
Qed.
(* the differences as a sum with binomial coefficients *)
Fixpoint bin (n k : nat) : nat := match n, k with _, O => 1 | O, S _ => 0 | S m, S j => bin m j + bin m (S j) end%nat.
Lemma bin_0 n : bin n 0 = 1%nat. Proof. now destruct n. Qed.
Lemma bin_gt n : forall k, (n < k)%nat -> bin n k = 0%nat.
Proof. induction n as [|n IH]; intros [|k] H; try lia; auto. cbn. rewrite !IH by lia. auto. Qed.
Lemma bin_fact b : forall a, (bin (a + b) a * (fact a * fact b) = fact (a + b))%nat.
Proof.
  induction b as [|b IH]; intros a.
  - rewrite Nat.add_0_r. assert (bin a a = 1)%nat as -> by (induction a as [|a IHa]; auto; cbn; rewrite IHa, bin_gt by lia; lia). cbn [fact]. lia.
  - induction a as [|a IHa]; [rewrite bin_0; cbn [fact Nat.add]; lia|].
    change (S a + S b)%nat with (S (a + S b)). cbn [bin]. rewrite Nat.mul_add_distr_r. replace (a + S b)%nat with (S a + b)%nat at 2 by lia.
    replace (bin (S a + b) (S a) * (fact (S a) * fact (S b)))%nat with (S b * (bin (S a + b) (S a) * (fact (S a) * fact b)))%nat by (cbn [fact]; ring). rewrite IH.
    replace (bin (a + S b) a * (fact (S a) * fact (S b)))%nat with (S a * (bin (a + S b) a * (fact a * fact (S b))))%nat by (cbn [fact]; ring). rewrite IHa.
    replace (S a + b)%nat with (a + S b)%nat by lia. change (fact (S (a + S b))) with (S (a + S b) * fact (a + S b))%nat. ring.
Qed.
Lemma rsum_first n f : rsum (S n) f = f O + rsum n (fun k => f (S k)).
Proof. induction n as [|n IH]; [cbn; ring|]. change (rsum (S (S n)) f) with (rsum (S n) f + f (S n)). rewrite IH. cbn [rsum]. ring. Qed.
Lemma rsum_top n f : rsum (S n) f = rsum n f + f n. Proof. reflexivity. Qed.
Lemma rsum_rev k f : rsum (S k) f = rsum (S k) (fun i => f (k - i)%nat).
Proof.
  revert f. induction k as [|k IH]; intros f; [reflexivity|]. rewrite (rsum_first (S k) (fun i => f (S k - i)%nat)). change (rsum (S (S k)) f) with (rsum (S k) f + f (S k)). rewrite (IH f). rewrite Nat.sub_0_r, Rplus_comm. f_equal.
Qed.
Lemma dif_sum k f i : dif k f i = rsum (S k) (fun j => (-1) ^ (k - j) * INR (bin k j) * f (i + j)%nat).
Proof.
  revert i. induction k as [|k IH]; intros i; [cbn; rewrite Nat.add_0_r; ring|]. cbn [dif]. rewrite !IH.
  rewrite (rsum_first (S k)). rewrite bin_0, Nat.sub_0_r, Nat.add_0_r.
  rewrite (rsum_ext (S k) (fun k0 => (-1) ^ (S k - S k0) * INR (bin (S k) (S k0)) * f (i + S k0)%nat) (fun j => (-1) ^ (k - j) * INR (bin k j) * f (S i + j)%nat + (-1) ^ (k - j) * INR (bin k (S j)) * f (i + S j)%nat)).
  2:{ intros j Hj. change (S k - S j)%nat with (k - j)%nat. cbn [bin]. rewrite plus_INR. replace (S i + j)%nat with (i + S j)%nat by lia. ring. }
  rewrite rsum_plus. match goal with |- context [rsum (S k) (fun j => (-1) ^ (k - j) * INR (bin k (S j)) * f (i + S j)%nat)] => change (rsum (S k) (fun j => (-1) ^ (k - j) * INR (bin k (S j)) * f (i + S j)%nat)) with (rsum k (fun j => (-1) ^ (k - j) * INR (bin k (S j)) * f (i + S j)%nat) + (-1) ^ (k - k) * INR (bin k (S k)) * f (i + S k)%nat) end. rewrite (bin_gt k (S k)) by lia. cbn [INR]. rewrite Rmult_0_r, Rmult_0_l, Rplus_0_r.
  rewrite (rsum_first k (fun j => (-1) ^ (k - j) * INR (bin k j) * f (i + j)%nat)), bin_0, Nat.sub_0_r, Nat.add_0_r.
  assert (E : rsum k (fun j => (-1) ^ (k - j) * INR (bin k (S j)) * f (i + S j)%nat) = - rsum k (fun k0 => (-1) ^ (k - S k0) * INR (bin k (S k0)) * f (i + S k0)%nat)).
  { replace (- rsum k (fun k0 => (-1) ^ (k - S k0) * INR (bin k (S k0)) * f (i + S k0)%nat)) with (-1 * rsum k (fun k0 => (-1) ^ (k - S k0) * INR (bin k (S k0)) * f (i + S k0)%nat)) by ring. rewrite <- rsum_scal. apply rsum_ext. intros j Hj. replace (k - j)%nat with (S (k - S j)) by lia. cbn [pow]. ring. }
  rewrite E. cbn [pow INR]. ring.
Qed.
(* ---- radial coefficients, by increasing powers: the coefficient of r^(m + 2 i) in the polynomial with n = m + 2 k ---- *)
Definition zc (m k i : nat) : R := (-1) ^ (k - i) * INR (fact (k + m + i)) / (INR (fact (k - i)) * INR (fact (m + i)) * INR (fact i)).
Lemma fpos n : 0 < INR (fact n). Proof. apply lt_0_INR, lt_O_fact. Qed.
Lemma rising_fact a d : rising (INR a + 1) d * INR (fact a) = INR (fact (a + d)).
Proof.
  induction d as [|d IH]; [cbn [rising]; rewrite Nat.add_0_r; ring|]. rewrite rising_last. replace (a + S d)%nat with (S (a + d)) by lia. rewrite fact_simpl, mult_INR, S_INR, plus_INR, <- IH. ring.
Qed.
Lemma lin_rising b0 k x : lin (fun q => b0 + INR q) k x = rising (x + b0) k.
Proof. induction k as [|k IH]; [reflexivity|]. cbn [lin]. rewrite IH, rising_last. ring. Qed.
Lemma zc_bin m k i : (i <= k)%nat -> zc m k i = / INR (fact k) * ((-1) ^ (k - i) * INR (bin k i) * lin (fun q => (INR m + 1) + INR q) k (INR i)).
Proof.
  intros L. rewrite lin_rising. replace (INR i + (INR m + 1)) with (INR (m + i) + 1) by (rewrite plus_INR; ring). pose proof (rising_fact (m + i) k) as R. replace (m + i + k)%nat with (k + m + i)%nat in R by lia. unfold zc. rewrite <- R.
  pose proof (bin_fact (k - i) i) as B. replace (i + (k - i))%nat with k in B by lia. apply (f_equal INR) in B. rewrite !mult_INR in B. pose proof (fpos (k - i)). pose proof (fpos i). pose proof (fpos (m + i)). pose proof (fpos k). replace (INR (bin k i)) with (INR (fact k) / (INR (fact i) * INR (fact (k - i)))) by (rewrite <- B; field; lra). field. lra.
Qed.
Lemma gaps_zero b0 c j k : (j < k)%nat -> c = b0 + INR j -> gaps (fun q => b0 + INR q) c k = 0.
Proof. intros L E. induction L as [|k L IH]; cbn [gaps]; [rewrite E; ring|rewrite IH; ring]. Qed.
Lemma gaps_top b0 k c : c = b0 + INR k -> gaps (fun q => b0 + INR q) c k = (-1) ^ k * INR (fact k).
Proof.
  intros E. assert (G : forall d, (d <= k)%nat -> gaps (fun q => b0 + INR q) c d * INR (fact (k - d)) = (-1) ^ d * INR (fact k)).
  { induction d as [|d IH]; intros L; [cbn [gaps pow]; rewrite Nat.sub_0_r; ring|]. cbn [gaps pow]. specialize (IH ltac:(lia)). replace (k - d)%nat with (S (k - S d)) in IH by lia. rewrite fact_simpl, mult_INR in IH. rewrite S_INR, minus_INR, S_INR in IH by lia.
    rewrite E in *. replace (b0 + INR d - (b0 + INR k)) with (- (INR k - (INR d + 1) + 1)) by ring. rewrite Rmult_assoc, <- Ropp_mult_distr_l. rewrite Rmult_assoc, <- IH. ring. }
  specialize (G k (le_n k)). rewrite Nat.sub_diag in G. cbn [fact INR] in G. lra.
Qed.
Lemma zc_sum m k j : rsum (S k) (fun i => zc m k i / (INR m + INR i + INR j + 1)) = gaps (fun q => (INR m + 1) + INR q) (INR m + INR j + 1) k * (-1) ^ k / rising (INR m + INR j + 1) (S k).
Proof.
  rewrite (rsum_ext (S k) _ (fun i => / INR (fact k) * ((-1) ^ (k - i) * INR (bin k i) * (lin (fun q => (INR m + 1) + INR q) k (INR (0 + i)) / (INR (0 + i) + (INR m + INR j + 1)))))).
  2:{ intros i Hi. rewrite zc_bin by lia. cbn [Nat.add]. unfold Rdiv. replace (INR m + INR i + INR j + 1) with (INR i + (INR m + INR j + 1)) by ring. ring. }
  rewrite rsum_scal. rewrite <- (dif_sum k (fun x => lin (fun q => INR m + 1 + INR q) k (INR x) / (INR x + (INR m + INR j + 1))) 0).
  pose proof (pos_INR m). pose proof (pos_INR j). rewrite dif_frac by (lia || lra). rewrite dif_inv by lra. cbn [INR]. rewrite Rplus_0_l. pose proof (fpos k). pose proof (rising_pos (INR m + INR j + 1) (S k)). field. lra.
Qed.
(* twice the integral of the product of two radial polynomials with the same m, times r *)
Definition zip (m k k' : nat) : R := rsum (S k) (fun i => rsum (S k') (fun j => zc m k i * zc m k' j / (INR m + INR i + INR j + 1))).
Lemma zip_comm m k k' : zip m k k' = zip m k' k.
Proof. unfold zip. rewrite rsum_swap. apply rsum_ext. intros j _. apply rsum_ext. intros i _. replace (INR m + INR i + INR j + 1) with (INR m + INR j + INR i + 1) by ring. unfold Rdiv. ring. Qed.
Lemma zip_inner m k k' : zip m k k' = rsum (S k') (fun j => zc m k' j * rsum (S k) (fun i => zc m k i / (INR m + INR i + INR j + 1))).
Proof. unfold zip. rewrite rsum_swap. apply rsum_ext. intros j _. rewrite <- rsum_scal. apply rsum_ext. intros i _. unfold Rdiv. ring. Qed.
Lemma zip_lt m k k' : (k' < k)%nat -> zip m k k' = 0.
Proof.
  intros L. rewrite zip_inner. apply rsum_zero. intros j Hj. rewrite zc_sum. rewrite (gaps_zero (INR m + 1) _ j) by (lia || ring). unfold Rdiv. ring.
Qed.
Lemma zip_same m k : zip m k k = / (INR m + 2 * INR k + 1).
Proof.
  rewrite zip_inner. rewrite (rsum_top k (fun j => zc m k j * _)). rewrite rsum_zero.
  2:{ intros j Hj. rewrite zc_sum. rewrite (gaps_zero (INR m + 1) _ j) by (lia || ring). unfold Rdiv. ring. }
  rewrite zc_sum, (gaps_top (INR m + 1)) by ring. unfold zc. rewrite Nat.sub_diag. replace (INR m + INR k + 1) with (INR (m + k) + 1) by (rewrite plus_INR; ring).
  pose proof (rising_fact (m + k) (S k)) as R. replace (m + k + S k)%nat with (S (k + m + k)) in R by lia. rewrite fact_simpl, mult_INR, S_INR, !plus_INR in R.
  pose proof (fpos (m + k)). pose proof (fpos k). pose proof (fpos (k + m + k)). pose proof (pos_INR m). pose proof (pos_INR k).
  assert (RP : 0 < rising (INR (m + k) + 1) (S k)) by (apply rising_pos; pose proof (pos_INR (m + k)); lra). rewrite !plus_INR in RP.
  replace ((-1) ^ k * INR (fact k) * (-1) ^ k) with (INR (fact k)). 2:{ transitivity (INR (fact k) * ((-1) ^ k * (-1) ^ k)); [|ring]. rewrite <- pow_add. replace (k + k)%nat with (2 * k)%nat by lia. rewrite pow_1_even. ring. }
  cbn [pow fact INR]. rewrite !plus_INR. set (q := rising (INR m + INR k + 1) (S k)) in *. clearbody q. replace (INR (fact (k + m + k))) with (q * INR (fact (m + k)) / (INR k + INR m + INR k + 1)) by (rewrite R; field; lra). field. lra.
Qed.
Theorem zip_orth m k k' : zip m k k' = if Nat.eqb k k' then / (INR m + 2 * INR k + 1) else 0.
Proof.
  destruct (Nat.eqb_spec k k') as [->|N]; [apply zip_same|]. destruct (Nat.lt_total k k') as [L|[L|L]]; [|lia|now apply zip_lt]. rewrite zip_comm. now apply zip_lt.
Qed.
