(* Proofs for C83: integrals over the disc *)
From Coq Require Import Factorial.
From Coquelicot Require Import Coquelicot.
From Verif Require Import Base RBase StrBase CBase ZrnModel ZrnSpec ZrnProofs ZrnProofs2.
Open Scope R_scope.
Lemma is_RInt_val (f : R -> R) a b (v w : R) : v = w -> is_RInt f a b v -> is_RInt f a b w.
Proof. now intros ->. Qed.
Lemma is_RInt_ext' (f g : R -> R) a b v : (forall x, f x = g x) -> is_RInt f a b v -> is_RInt g a b v.
Proof. intros H. apply is_RInt_ext. intros x _. apply H. Qed.
Lemma int_pow p a b : is_RInt (fun r => r ^ p) a b ((b ^ (p + 1) - a ^ (p + 1)) / INR (p + 1)).
Proof.
  assert (P : 0 < INR (p + 1)) by (apply lt_0_INR; lia).
  eapply is_RInt_val; [|apply (is_RInt_derive (fun r => r ^ (p + 1) / INR (p + 1)) (fun r => r ^ p))].
  - unfold minus, plus, opp; cbn. field. lra.
  - intros x _. auto_derive; auto. replace (Init.Nat.pred (p + 1)) with p by lia. field. lra.
  - intros x _. apply (ex_derive_continuous (fun r => r ^ p)). auto_derive. auto.
Qed.
Lemma int_scal (c : R) (f : R -> R) a b v : is_RInt f a b v -> is_RInt (fun x => c * f x) a b (c * v).
Proof. intros H. apply (is_RInt_scal f a b c v H). Qed.
Lemma int_plus (f g : R -> R) a b v w : is_RInt f a b v -> is_RInt g a b w -> is_RInt (fun x => f x + g x) a b (v + w).
Proof. intros H K. apply (is_RInt_plus f g a b v w H K). Qed.
Lemma int_rsum n (f : nat -> R -> R) a b (v : nat -> R) : (forall k, (k < n)%nat -> is_RInt (f k) a b (v k)) -> is_RInt (fun x => rsum n (fun k => f k x)) a b (rsum n v).
Proof.
  induction n as [|n IH]; intros H; cbn [rsum].
  - eapply is_RInt_val; [|apply (is_RInt_const a b 0)]. unfold scal; cbn. unfold mult; cbn. ring.
  - apply int_plus; [apply IH; auto|apply H; lia].
Qed.
(* trigonometry on the circle *)
Lemma sin_2npi p : sin (INR p * (2 * PI)) = 0.
Proof. replace (INR p * (2 * PI)) with (0 + 2 * INR p * PI) by ring. rewrite sin_period. apply sin_0. Qed.
Lemma cos_2npi p : cos (INR p * (2 * PI)) = 1.
Proof. replace (INR p * (2 * PI)) with (0 + 2 * INR p * PI) by ring. rewrite cos_period. apply cos_0. Qed.
Lemma int_cos p : (1 <= p)%nat -> is_RInt (fun t => cos (INR p * t)) 0 (2 * PI) 0.
Proof.
  intros H. assert (P : 0 < INR p) by (apply lt_0_INR; lia). eapply is_RInt_val; [|apply (is_RInt_derive (fun t => sin (INR p * t) / INR p))].
  - unfold minus, plus, opp; cbn. rewrite sin_2npi, Rmult_0_r, sin_0. field. lra.
  - intros x _. auto_derive; auto. field. lra.
  - intros x _. apply (ex_derive_continuous (fun t => cos (INR p * t))). auto_derive. auto.
Qed.
Lemma int_sin p : is_RInt (fun t => sin (INR p * t)) 0 (2 * PI) 0.
Proof.
  destruct p as [|p].
  - eapply is_RInt_ext'; [|eapply is_RInt_val; [|apply (is_RInt_const 0 (2 * PI) 0)]]; [intros x; cbn; now rewrite Rmult_0_l, sin_0|]. unfold scal; cbn. unfold mult; cbn. ring.
  - assert (P : 0 < INR (S p)) by (apply lt_0_INR; lia). eapply is_RInt_val; [|apply (is_RInt_derive (fun t => - cos (INR (S p) * t) / INR (S p)))].
    + unfold minus, plus, opp; cbn [AbelianGroup.plus R_AbelianGroup]. cbn. change (match p with 0%nat => 1 | S _ => INR p + 1 end) with (INR (S p)). rewrite cos_2npi, Rmult_0_r, cos_0. field. lra.
    + intros x _. auto_derive; auto. cbn [INR] in *. field. lra.
    + intros x _. apply (ex_derive_continuous (fun t => sin (INR (S p) * t))). auto_derive. auto.
Qed.
Lemma int_one : is_RInt (fun _ : R => 1) 0 (2 * PI) (2 * PI).
Proof. eapply is_RInt_val; [|apply (is_RInt_const 0 (2 * PI) 1)]. unfold scal; cbn. unfold mult; cbn. ring. Qed.
(* the angular factor of the mode *)
Definition ang (m : nat) (c : bool) (t : R) : R := if Nat.eqb m 0 then 1 else if c then cos (INR m * t) else sin (INR m * t).
Definition ang_ip (m : nat) (c : bool) (m' : nat) (c' : bool) : R :=
  if Nat.eqb m m' then (if Nat.eqb m 0 then 2 * PI else if Bool.eqb c c' then PI else 0) else 0.
Lemma cos_diff m m' t : (m' <= m)%nat -> cos (INR (m - m') * t) = cos (INR m * t) * cos (INR m' * t) + sin (INR m * t) * sin (INR m' * t).
Proof. intros L. rewrite minus_INR by auto. rewrite <- cos_minus. f_equal. ring. Qed.
Lemma cos_add m m' t : cos (INR (m + m') * t) = cos (INR m * t) * cos (INR m' * t) - sin (INR m * t) * sin (INR m' * t).
Proof. rewrite plus_INR. rewrite <- cos_plus. f_equal. ring. Qed.
Lemma sin_diff m m' t : (m' <= m)%nat -> sin (INR (m - m') * t) = sin (INR m * t) * cos (INR m' * t) - cos (INR m * t) * sin (INR m' * t).
Proof. intros L. rewrite minus_INR by auto. rewrite <- sin_minus. f_equal. ring. Qed.
Lemma sin_add m m' t : sin (INR (m + m') * t) = sin (INR m * t) * cos (INR m' * t) + cos (INR m * t) * sin (INR m' * t).
Proof. rewrite plus_INR. rewrite <- sin_plus. f_equal. ring. Qed.
Lemma cos_int_any p : is_RInt (fun t => cos (INR p * t)) 0 (2 * PI) (if Nat.eqb p 0 then 2 * PI else 0).
Proof. destruct (Nat.eqb_spec p 0) as [->|N]; [|apply int_cos; lia]. eapply is_RInt_ext'; [|apply int_one]. intros x. cbn. now rewrite Rmult_0_l, cos_0. Qed.
Lemma int_ang_le m c m' c' : (m' <= m)%nat -> is_RInt (fun t => ang m c t * ang m' c' t) 0 (2 * PI) (ang_ip m c m' c').
Proof.
  intros L. unfold ang, ang_ip. destruct (Nat.eqb_spec m 0) as [->|M].
  - assert (m' = 0)%nat by lia. subst m'. cbn [Nat.eqb]. eapply is_RInt_ext'; [|apply int_one]. intros x. cbn [Nat.eqb]. symmetry. apply Rmult_1_r.
  - destruct (Nat.eqb_spec m' 0) as [->|M'].
    + destruct (Nat.eqb_spec m 0); [lia|]. destruct c; [eapply is_RInt_ext'; [|apply (int_cos m); lia]|eapply is_RInt_ext'; [|apply (int_sin m)]]; intros x; cbn [Nat.eqb]; now rewrite Rmult_1_r.
    + pose proof (cos_int_any (m - m')) as CD. pose proof (int_cos (m + m') ltac:(lia)) as CA. pose proof (int_sin (m - m')) as SD. pose proof (int_sin (m + m')) as SA.
      assert (K : Nat.eqb (m - m') 0 = Nat.eqb m m') by (destruct (Nat.eqb_spec (m - m') 0), (Nat.eqb_spec m m'); auto; lia). rewrite K in CD. clear K.
      destruct c, c'; cbn [Bool.eqb].
      * eapply is_RInt_ext'; [|eapply is_RInt_val; [|apply (int_scal (1/2) _ _ _ _ (int_plus _ _ _ _ _ _ CD CA))]]; [intros t; cbv beta; rewrite cos_diff by auto; rewrite cos_add; field|]. destruct (Nat.eqb m m'); lra.
      * eapply is_RInt_ext'; [|eapply is_RInt_val; [|apply (int_scal (1/2) _ _ _ _ (int_plus _ _ _ _ _ _ SA (int_scal (-1) _ _ _ _ SD)))]]; [intros t; cbv beta; rewrite sin_diff by auto; rewrite sin_add; field|]. destruct (Nat.eqb m m'); lra.
      * eapply is_RInt_ext'; [|eapply is_RInt_val; [|apply (int_scal (1/2) _ _ _ _ (int_plus _ _ _ _ _ _ SA SD))]]; [intros t; cbv beta; rewrite sin_diff by auto; rewrite sin_add; field|]. destruct (Nat.eqb m m'); lra.
      * eapply is_RInt_ext'; [|eapply is_RInt_val; [|apply (int_scal (1/2) _ _ _ _ (int_plus _ _ _ _ _ _ CD (int_scal (-1) _ _ _ _ CA)))]]; [intros t; cbv beta; rewrite cos_diff by auto; rewrite cos_add; field|]. destruct (Nat.eqb m m'); lra.
Qed.
Lemma int_ang m c m' c' : is_RInt (fun t => ang m c t * ang m' c' t) 0 (2 * PI) (ang_ip m c m' c').
Proof.
  destruct (Nat.le_ge_cases m' m) as [L|L]; [now apply int_ang_le|]. eapply is_RInt_ext'; [|eapply is_RInt_val; [|apply (int_ang_le m' c' m c L)]]; [intros t; cbv beta; ring|].
  unfold ang_ip. rewrite (Nat.eqb_sym m' m). destruct (Nat.eqb_spec m m') as [->|]; auto. destruct c, c'; reflexivity.
Qed.
(* radial polynomial by increasing powers *)
Lemma radial_zc m k r : radial (m + 2 * k) m r = rsum (S k) (fun i => zc m k i * r ^ (m + 2 * i)).
Proof.
  unfold radial. assert (E : ((m + 2 * k - m) / 2 = k)%nat) by (replace (m + 2 * k - m)%nat with (k * 2)%nat by lia; now rewrite Nat.div_mul by lia). rewrite E. replace (k + 1)%nat with (S k) by lia.
  assert (E2 : ((m + 2 * k + m) / 2 = m + k)%nat) by (symmetry; apply Nat.div_unique with 0%nat; lia). rewrite E2.
  rewrite rsum_rev. apply rsum_ext. intros i Hi. unfold zc. replace (m + 2 * k - (k - i))%nat with (k + m + i)%nat by lia. replace (m + k - (k - i))%nat with (m + i)%nat by lia. replace (k - (k - i))%nat with i by lia. replace (m + 2 * k - 2 * (k - i))%nat with (m + 2 * i)%nat by lia. reflexivity.
Qed.
Lemma rsum_mul2 a b f g (r : R) : rsum a f * rsum b g * r = rsum a (fun i => rsum b (fun j => f i * g j * r)).
Proof.
  transitivity (rsum a (fun i => (r * rsum b g) * f i)); [rewrite rsum_scal; ring|]. apply rsum_ext. intros i Hi.
  transitivity (rsum b (fun j => (f i * r) * g j)); [rewrite rsum_scal; ring|]. apply rsum_ext. intros j Hj. ring.
Qed.
Lemma int_radial m k m' k' : exists V, is_RInt (fun r => radial (m + 2 * k) m r * radial (m' + 2 * k') m' r * r) 0 1 V /\ (m = m' -> V = zip m k k' / 2).
Proof.
  exists (rsum (S k) (fun i => rsum (S k') (fun j => zc m k i * zc m' k' j * ((1 ^ (m + 2 * i + (m' + 2 * j) + 1 + 1) - 0 ^ (m + 2 * i + (m' + 2 * j) + 1 + 1)) / INR (m + 2 * i + (m' + 2 * j) + 1 + 1))))). split.
  - eapply is_RInt_ext'; [|apply (int_rsum (S k) (fun i r => rsum (S k') (fun j => zc m k i * zc m' k' j * r ^ (m + 2 * i + (m' + 2 * j) + 1))))].
    + intros r. rewrite !radial_zc, rsum_mul2. apply rsum_ext. intros i Hi. apply rsum_ext. intros j Hj. rewrite !pow_add, pow_1. ring.
    + intros i Hi. apply (int_rsum (S k') (fun j r => zc m k i * zc m' k' j * r ^ (m + 2 * i + (m' + 2 * j) + 1))). intros j Hj. apply int_scal. apply int_pow.
  - intros <-. unfold zip, Rdiv. rewrite <- (Rmult_comm (/ 2)), <- rsum_scal. apply rsum_ext. intros i Hi. rewrite <- rsum_scal. apply rsum_ext. intros j Hj. rewrite pow1, pow_i by lia. rewrite !plus_INR, !mult_INR. cbn [INR]. pose proof (pos_INR m). pose proof (pos_INR i). pose proof (pos_INR j). field. lra.
Qed.
Definition znorm (n m : nat) : R := if Nat.eqb m 0 then sqrt (INR (n + 1)) else sqrt (2 * INR (n + 1)).
Lemma zernike_split n m c r t : zernike n m c r t = znorm n m * radial n m r * ang m c t.
Proof. unfold zernike, znorm, ang. destruct (Nat.eqb_spec m 0) as [->|N]; ring. Qed.
(* orthonormality in terms of degree and order *)
Lemma zernike_orth m k c m' k' c' :
  annulus_mean 0 (fun r t => zernike (m + 2 * k) m c r t * zernike (m' + 2 * k') m' c' r t)
    (if (Nat.eqb m m' && Nat.eqb k k' && (Nat.eqb m 0 || Bool.eqb c c'))%bool then 1 else 0).
Proof.
  destruct (int_radial m k m' k') as (V & HV & EV). exists (fun t => znorm (m + 2 * k) m * znorm (m' + 2 * k') m' * V * (ang m c t * ang m' c' t)). split.
  - intros t. eapply is_RInt_ext'; [|eapply is_RInt_val; [|apply (int_scal (znorm (m + 2 * k) m * znorm (m' + 2 * k') m' * (ang m c t * ang m' c' t)) _ _ _ _ HV)]]; [intros r; cbv beta; rewrite !zernike_split; ring|]. ring.
  - eapply is_RInt_val; [|apply int_scal, int_ang]. unfold ang_ip. destruct (Nat.eqb_spec m m') as [<-|N]; [|cbn [andb]; ring]. rewrite EV, zip_orth by auto. cbn [andb]. destruct (Nat.eqb_spec k k') as [<-|N]; [|cbn [andb]; unfold Rdiv; ring]. cbn [andb].
    pose proof (pos_INR m) as Pm. pose proof (pos_INR k) as Pk. assert (E : INR (m + 2 * k + 1) = INR m + 2 * INR k + 1) by (rewrite !plus_INR, mult_INR; cbn [INR]; ring).
    unfold znorm. destruct (Nat.eqb_spec m 0) as [->|M]; cbn [orb].
    + rewrite sqrt_sqrt by apply pos_INR. rewrite E. cbn [INR]. field. cbn [INR] in *. lra.
    + destruct (Bool.eqb c c'); [|ring]. rewrite sqrt_sqrt by (pose proof (pos_INR (m + 2 * k + 1)); lra). rewrite E. field. lra.
Qed.
