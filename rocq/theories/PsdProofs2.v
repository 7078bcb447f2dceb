From Verif Require Import Base StrBase RBase CtrlModel UtilModel DmSurfModel CubModel DmcModel CBase PropModel PropProofs OptModel PrpModel PrpSpec PrpProofs5 ErrModel ErrSpec GsfProofs2 VxProofs4 PsdModel PsdSpec PsdProofs.
Open Scope R_scope.
Lemma csum2_roll' n s (f : nat -> nat -> C) : (1 <= n)%nat -> csum n (fun i => csum n (fun j => f (roll_ix n s i) (roll_ix n s j))) = csum n (fun i => csum n (fun j => f i j)).
Proof.
  intros H. rewrite (csum_ext n _ (fun i => csum n (fun j => f (roll_ix n s i) j))) by (intros i _; apply (csum_roll n s (fun j => f (roll_ix n s i) j) H)).
  apply (csum_roll n s (fun i => csum n (fun j => f i j)) H).
Qed.
Lemma component_dft n m d p q : (1 <= n)%nat -> (forall i j, (i < n)%nat -> (j < n)%nat -> m i j = d (roll_ix n (half n) i) (roll_ix n (half n) j)) ->
  component n m p q = dft2 1 n n (fun i j => RtoC (d i j)) (roll_ix n (half n) p) (roll_ix n (half n) q).
Proof.
  intros N V. unfold component, dft2. etransitivity; [|exact (csum2_roll' n (half n) (fun i j => Cmult (RtoC (d i j)) (Cmult (ph 1 n (roll_ix n (half n) p) i) (ph 1 n (roll_ix n (half n) q) j))) N)].
  apply csum_ext. intros i Hi. apply csum_ext. intros j Hj. rewrite V by assumption. f_equal.
  rewrite !off_R. replace (2 * PI * ((INR p - INR (n / 2)) * (INR i - INR (n / 2)) + (INR q - INR (n / 2)) * (INR j - INR (n / 2))) / INR n)
    with (2 * PI * ((INR p - INR (n / 2)) * (INR i - INR (n / 2)) / INR n) + 2 * PI * ((INR q - INR (n / 2)) * (INR j - INR (n / 2)) / INR n)) by (unfold Rdiv; ring).
  now rewrite cis_add, !roll_phase.
Qed.
Lemma dft2_neg n x u v : (u < n)%nat -> (v < n)%nat -> dft2 (-1) n n x u v = dft2 1 n n x ((n - u) mod n)%nat ((n - v) mod n)%nat.
Proof. intros U V. unfold dft2. apply csum_ext. intros i Hi. apply csum_ext. intros j Hj. now rewrite !ph_neg. Qed.
Lemma ph_comm s n u j : ph s n u j = ph s n j u.
Proof. unfold ph. f_equal. unfold Rdiv. ring. Qed.
Lemma dft2_conj s n x u v : Cconj (dft2 s n n x u v) = dft2 (- s) n n (fun i j => Cconj (x i j)) u v.
Proof.
  unfold dft2. rewrite csum_conj. apply csum_ext. intros i _. rewrite csum_conj. apply csum_ext. intros j _. now rewrite !Cconj_mult, !ph_conj, (ph_comm _ _ i u), (ph_comm _ _ j v).
Qed.
Lemma dft2_lin s n a x y u v : dft2 s n n (fun i j => Cmult a (Cplus (x i j) (y i j))) u v = Cmult a (Cplus (dft2 s n n x u v) (dft2 s n n y u v)).
Proof.
  unfold dft2. rewrite <- csum_plus, <- csum_scal. apply csum_ext. intros i _. rewrite <- csum_plus, <- csum_scal. apply csum_ext. intros j _. ring.
Qed.
Lemma re_half z : RtoC (fst z) = Cmult (RtoC (/ 2)) (Cplus z (Cconj z)).
Proof. apply injective_projections; unfold RtoC, Cconj, Cmult, Cplus; cbn; field. Qed.
Lemma dft2_ext0 s M N x y u v : (forall i j, (i < M)%nat -> (j < N)%nat -> x i j = y i j) -> dft2 s M N x u v = dft2 s M N y u v.
Proof. intros H. unfold dft2. apply csum_ext. intros i Hi. apply csum_ext. intros j Hj. now rewrite H. Qed.
Lemma dft2_scal s n a x u v : dft2 s n n (fun i j => Cmult a (x i j)) u v = Cmult a (dft2 s n n x u v).
Proof. unfold dft2. rewrite <- csum_scal. apply csum_ext. intros i _. rewrite <- csum_scal. apply csum_ext. intros j _. ring. Qed.
(* transform of the real part of a transform *)
Lemma back n X g u v : (u < n)%nat -> (v < n)%nat ->
  dft2 1 n n (fun i j => RtoC (g * fst (dft2 (-1) n n X i j))) u v = Cmult (RtoC (g * / 2 * (INR n * INR n))) (Cplus (X u v) (Cconj (X ((n - u) mod n)%nat ((n - v) mod n)%nat))).
Proof.
  intros U V. rewrite (dft2_ext0 1 n n _ (fun i j => Cmult (RtoC (g * / 2)) (Cplus (dft2 (-1) n n X i j) (Cconj (dft2 (-1) n n X i j))))).
  2:{ intros i j _ _. rewrite RtoC_mult, re_half, RtoC_mult. ring. }
  rewrite (dft2_lin 1 n (RtoC (g * / 2)) (fun i j => dft2 (-1) n n X i j) (fun i j => Cconj (dft2 (-1) n n X i j))).
  assert (A : dft2 1 n n (fun i j => dft2 (-1) n n X i j) u v = Cmult (RtoC (INR n * INR n)) (X u v)).
  { change (fun i j => dft2 (-1) n n X i j) with (dft2 (-1) n n X). replace (-1) with (- (1)) by ring. apply dft2_inverse; auto. }
  assert (B : dft2 1 n n (fun i j => Cconj (dft2 (-1) n n X i j)) u v = Cmult (RtoC (INR n * INR n)) (Cconj (X ((n - u) mod n)%nat ((n - v) mod n)%nat))).
  { rewrite <- (Cconj_inv (dft2 1 n n _ u v)), dft2_conj. rewrite (dft2_ext0 (- (1)) n n _ (dft2 (-1) n n X)) by (intros; apply Cconj_inv). replace (- (1)) with (-1) by ring. rewrite dft2_neg by assumption.
    replace (-1) with (- (1)) by ring. rewrite dft2_inverse by (auto; apply Nat.mod_upper_bound; lia). rewrite Cconj_mult. f_equal. unfold Cconj, RtoC. cbn. f_equal. ring. }
  rewrite A, B, !RtoC_mult. ring.
Qed.
Lemma roll_opposite n p : Nat.even n = true -> (p < n)%nat -> roll_ix n (half n) ((n - roll_ix n (half n) p) mod n)%nat = opposite n p.
Proof.
  intros E P. apply Nat.even_spec in E. destruct E as [h ->]. unfold half. replace (2 * h / 2)%nat with h by (rewrite Nat.mul_comm, Nat.div_mul; lia).
  assert (R : forall i, (i < 2 * h)%nat -> roll_ix (2 * h) (Z.of_nat h) i = if Nat.ltb i h then (i + h)%nat else (i - h)%nat).
  { intros i Hi. unfold roll_ix. destruct (Nat.ltb_spec i h).
    - replace (Z.of_nat i - Z.of_nat h)%Z with (Z.of_nat (i + h) + (-1) * Z.of_nat (2 * h))%Z by lia. rewrite Z.mod_add, Z.mod_small by lia. lia.
    - rewrite Z.mod_small by lia. lia. }
  rewrite (R p P). unfold opposite. destruct (Nat.eqb_spec p 0) as [->|Q].
  - destruct (Nat.ltb_spec 0 h); [|lia]. rewrite Nat.mod_small by lia. rewrite R by lia. destruct (Nat.ltb_spec (2 * h - (0 + h)) h); lia.
  - destruct (Nat.ltb_spec p h).
    + rewrite Nat.mod_small by lia. rewrite R by lia. destruct (Nat.ltb_spec (2 * h - (p + h)) h); lia.
    + destruct (Nat.eq_dec p h) as [->|Q2].
      * replace (2 * h - (h - h))%nat with (2 * h)%nat by lia. rewrite Nat.mod_same by lia. rewrite R by lia. destruct (Nat.ltb_spec 0 h); lia.
      * rewrite Nat.mod_small by lia. rewrite R by lia. destruct (Nat.ltb_spec (2 * h - (p - h)) h); lia.
Qed.
Lemma raw_dft n s amp b c k u i j : (1 <= n)%nat -> s <> 0 ->
  raw_map n s amp b c k u i j = / (INR n ^ 4 * s ^ 2) * fst (dft2 (-1) n n (fun a e => fpx (spectrum n (1 / (INR n * s)) amp b c k u) (roll_ix n (half n) a) (roll_ix n (half n) e)) i j).
Proof.
  intros N S. unfold raw_map, fft_scaled, shift_center, roll2. cbn [fpx frows fcols]. assert (INR n <> 0) by (apply not_0_INR; lia). unfold Cmult, RtoC. cbn [fst snd]. unfold spectrum. cbn [frows fcols]. field. auto.
Qed.
(* the components of a returned map *)
Lemma component_map n s amp b c k u m p q : Nat.even n = true -> (1 <= n)%nat -> s <> 0 -> (p < n)%nat -> (q < n)%nat ->
  (forall i j, (i < n)%nat -> (j < n)%nat -> m i j = fpx (new_map n s amp b c k u) (roll_ix n (half n) i) (roll_ix n (half n) j)) ->
  let S := fpx (spectrum n (1 / (INR n * s)) amp b c k u) in
  component n m p q = Cmult (RtoC (target n s amp b c k / np_std n (raw_map n s amp b c k u) / (2 * (INR n * s) ^ 2))) (Cplus (S p q) (Cconj (S (opposite n p) (opposite n q)))).
Proof.
  intros E N S P Q V. cbv zeta. rewrite new_map_eq in V. cbn [fpx] in V. set (t := target n s amp b c k / np_std n (raw_map n s amp b c k u)) in *.
  rewrite (component_dft n m (fun i j => raw_map n s amp b c k u i j * t) p q N V).
  rewrite (dft2_ext0 1 n n _ (fun i j => RtoC (t * / (INR n ^ 4 * s ^ 2) * fst (dft2 (-1) n n (fun a e => fpx (spectrum n (1 / (INR n * s)) amp b c k u) (roll_ix n (half n) a) (roll_ix n (half n) e)) i j)))).
  2:{ intros i j _ _. rewrite raw_dft by assumption. f_equal. ring. }
  rewrite back by (apply roll_lt; lia). rewrite !half_even2, !roll_opposite by assumption. f_equal. f_equal. assert (INR n <> 0) by (apply not_0_INR; lia). field. auto.
Qed.
