From Verif Require Import Base RBase StrBase UtilModel CBase PropModel PropSpec PropProofs PropProofs2 OptModel OptSpec LinBase OptProofs.
Open Scope R_scope.

Lemma Cconj_plus a b : Cconj (Cplus a b) = Cplus (Cconj a) (Cconj b).
Proof. unfold Cconj, Cplus; cbn. f_equal; ring. Qed.
Lemma csum4_swap n m p q f : csum n (fun i => csum m (fun j => csum p (fun k => csum q (fun l => f i j k l)))) = csum p (fun k => csum q (fun l => csum n (fun i => csum m (fun j => f i j k l)))).
Proof.
  rewrite (csum_ext n _ (fun i => csum p (fun k => csum q (fun l => csum m (fun j => f i j k l))))).
  2:{ intros i _. rewrite csum_swap. apply csum_ext. intros k _. apply csum_swap. }
  rewrite csum_swap. apply csum_ext. intros k _. apply csum_swap.
Qed.
Lemma inner_ext n m a a' b b' : (forall i j, (i < n)%nat -> (j < m)%nat -> a i j = a' i j) -> (forall i j, (i < n)%nat -> (j < m)%nat -> b i j = b' i j) -> inner n m a b = inner n m a' b'.
Proof. intros H1 H2. apply csum2_ext. intros. now rewrite H1, H2. Qed.
Lemma inner_scal_r n m c a b : inner n m a (fun i j => Cmult c (b i j)) = Cmult c (inner n m a b).
Proof. unfold inner. rewrite <- csum_scal. apply csum_ext. intros i _. rewrite <- csum_scal. apply csum_ext. intros j _. ring. Qed.
Lemma inner_scal_l n m c a b : inner n m (fun i j => Cmult c (a i j)) b = Cmult (Cconj c) (inner n m a b).
Proof. unfold inner. rewrite <- csum_scal. apply csum_ext. intros i _. rewrite <- csum_scal. apply csum_ext. intros j _. rewrite Cconj_mult. ring. Qed.
Lemma inner_plus_r n m a b c : inner n m a (fun i j => Cplus (b i j) (c i j)) = Cplus (inner n m a b) (inner n m a c).
Proof. unfold inner. rewrite <- csum_plus. apply csum_ext. intros i _. rewrite <- csum_plus. apply csum_ext. intros j _. ring. Qed.
Lemma inner_plus_l n m a b c : inner n m (fun i j => Cplus (a i j) (b i j)) c = Cplus (inner n m a c) (inner n m b c).
Proof. unfold inner. rewrite <- csum_plus. apply csum_ext. intros i _. rewrite <- csum_plus. apply csum_ext. intros j _. rewrite Cconj_plus. ring. Qed.
Lemma inner_mul n m (M a b : nat -> nat -> C) : inner n m a (fun i j => Cmult (b i j) (M i j)) = inner n m (fun i j => Cmult (a i j) (Cconj (M i j))) b.
Proof. apply csum2_ext. intros. rewrite Cconj_mult, Cconj_inv. ring. Qed.
(* operators given by kernels that are conjugate transposes of each other *)
Lemma kernel_adjoint n m p q K a b : inner n m a (apply_kernel p q K b) = inner p q (apply_kernel n m (fun i j k l => Cconj (K k l i j)) a) b.
Proof.
  unfold inner, apply_kernel.
  rewrite (csum2_ext n m _ (fun k l => csum p (fun i => csum q (fun j => Cmult (Cmult (Cconj (a k l)) (K k l i j)) (b i j))))).
  2:{ intros k l _ _. rewrite <- csum_scal. apply csum_ext. intros i _. rewrite <- csum_scal. apply csum_ext. intros j _. ring. }
  rewrite csum4_swap. apply csum2_ext. intros i j _ _. rewrite csum_conj. rewrite <- csum_scal_r. apply csum_ext. intros k _. rewrite csum_conj, <- csum_scal_r. apply csum_ext. intros l _.
  rewrite Cconj_mult, Cconj_inv. ring.
Qed.
Lemma dft_uxxu_adjoint rg u x n m A B : inner m m B (dft_uxxu rg u x n A) = inner n n (dft_uxxu (- rg) x u m B) A.
Proof.
  set (K := fun k l i j => Cmult (cis (- rg * (2 * PI) * (u k * x i))) (cis (- rg * (2 * PI) * (x j * u l)))).
  rewrite (inner_ext m m B B _ (apply_kernel n n K A)); [|auto|intros; apply dft_uxxu_sum]. rewrite kernel_adjoint. apply inner_ext; [|auto]. intros i j _ _. rewrite dft_uxxu_sum.
  unfold apply_kernel, K. apply csum2_ext. intros k l _ _. rewrite Cconj_mult, <- !cis_neg. f_equal. f_equal; f_equal; ring.
Qed.
Lemma vbranch_adjoint rg u x n NB (c : R) (M : nat -> nat -> C) E F :
  inner n n F (fun k l => Cmult (RtoC c) (dft_uxxu rg x u NB (fun i j => Cmult (Cmult (RtoC c) (dft_uxxu rg u x n E i j)) (M i j)) k l)) =
  inner n n (fun k l => Cmult (RtoC c) (dft_uxxu (- rg) x u NB (fun i j => Cmult (Cmult (RtoC c) (dft_uxxu (- rg) u x n F i j)) (Cconj (M i j))) k l)) E.
Proof.
  assert (RC : Cconj (RtoC c) = RtoC c) by (unfold Cconj, RtoC; cbn; f_equal; ring).
  rewrite inner_scal_r, dft_uxxu_adjoint, inner_mul. 
  rewrite inner_scal_r, dft_uxxu_adjoint. rewrite inner_scal_l, RC. 
  rewrite (inner_ext n n (dft_uxxu (- rg) x u NB (fun i j => Cmult (Cmult (RtoC c) (dft_uxxu (- rg) u x n F i j)) (Cconj (M i j))))
    (fun k l => Cmult (RtoC c) (dft_uxxu (- rg) x u NB (fun i j => Cmult (dft_uxxu (- rg) u x n F i j) (Cconj (M i j))) k l)) E E).
  - rewrite inner_scal_l, RC. ring.
  - intros k l _ _. rewrite !dft_uxxu_sum, <- csum_scal. apply csum_ext. intros i _. rewrite <- csum_scal. apply csum_ext. intros j _. ring.
  - auto.
Qed.
Lemma vortex_adjoint q br iv ov E F VE VF n : shape E n n -> shape F n n -> mft_p2v2p E q br iv ov false = Ok VE -> mft_p2v2p F q br iv ov true = Ok VF ->
  inner n n (fpx F) (fpx VE) = inner n n (fpx VF) (fpx E).
Proof.
  intros [E1 E2] [F1 F2]. unfold mft_p2v2p. destruct (Rle_dec br 0); [discriminate|]. destruct (Rle_dec iv 0); [discriminate|]. destruct (Rle_dec ov 0); [discriminate|]. rewrite E1, E2, F1, F2, Nat.eqb_refl. cbn [negb].
  intros Q1 Q2. injection Q1 as <-. injection Q2 as <-. cbn [fpx].
  set (D := 2 * br). set (NB := Z.to_nat (ceil_even (4 * D))).
  set (RHO := fun i j => sqrt (vaxis NB j * vaxis NB j + vaxis NB i * vaxis NB i)). set (knee := 1 - iv / ov).
  set (w1 := fun i j => tukey_window (2 * ov * 4) knee (RHO i j)). set (w2 := fun i j => tukey_window (INR NB) knee (RHO i j)).
  set (x := fun k => vaxis n k / D). set (u1 := fun k => vaxis NB k / 4). set (u2 := fun k => vaxis NB k * 2 * ov / INR NB).
  rewrite inner_plus_r, inner_plus_l.
  assert (FC : forall i j, Cconj (vortex_fpm q false NB i j) = vortex_fpm q true NB i j) by (intros; unfold vortex_fpm; rewrite <- cis_neg; f_equal; ring).
  assert (B : forall (c : R) (u : nat -> R) (W : nat -> nat -> R),
    inner n n (fpx F) (fun k l => Cmult (RtoC c) (dft_uxxu 1 x u NB (fun i j => Cmult (Cmult (Cmult (RtoC c) (dft_uxxu 1 u x n (fpx E) i j)) (vortex_fpm q false NB i j)) (RtoC (W i j))) k l)) =
    inner n n (fun k l => Cmult (RtoC c) (dft_uxxu (-1) x u NB (fun i j => Cmult (Cmult (Cmult (RtoC c) (dft_uxxu (-1) u x n (fpx F) i j)) (vortex_fpm q true NB i j)) (RtoC (W i j))) k l)) (fpx E)).
  { intros c u W. replace (-1) with (- (1)) by ring. pose proof (vbranch_adjoint 1 u x n NB c (fun i j => Cmult (vortex_fpm q false NB i j) (RtoC (W i j))) (fpx E) (fpx F)) as H.
    etransitivity; [|etransitivity; [exact H|]].
    - apply inner_ext; [auto|]. intros k l _ _. f_equal. apply dft_uxxu_ext. intros. ring.
    - apply inner_ext; [|auto]. intros k l _ _. f_equal. apply dft_uxxu_ext. intros i j _ _. rewrite Cconj_mult, FC. replace (Cconj (RtoC (W i j))) with (RtoC (W i j)) by (unfold Cconj, RtoC; cbn; f_equal; ring). ring. }
  f_equal; [apply (B _ u1 (fun i j => 1 - w1 i j))|apply (B _ u2 w2)].
Qed.
