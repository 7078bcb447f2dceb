(* Proofs about the differentiable DM: transfer functions as circular convolutions, and the lattice. *)
From Verif Require Import Base RBase StrBase UtilModel UtilSpec UtilProofs CBase PropModel PropSpec PropProofs OptModel OptSpec LinBase OptProofs OptProofs3 OptProofs4 OptProofs7 GradAdj2 DiffModel DiffSpec.
Open Scope R_scope.

Definition g2 (M N : nat) (T : nat -> nat -> C) (a b : Z) : C :=
  csum M (fun u => csum N (fun v => Cmult (T u v) (cis (2 * PI * (INR u * IZR a / INR M + INR v * IZR b / INR N))))).
Definition kr (M N : nat) (T : nat -> nat -> C) (a b : Z) : R := / (INR M * INR N) * fst (g2 M N T a b).
Lemma fst_csum n f : fst (csum n f) = rsum n (fun k => fst (f k)).
Proof. induction n; cbn [csum rsum]; [reflexivity|]. cbn [fst Cplus]. now rewrite IHn. Qed.
Lemma fst_scal r z : fst (Cmult (RtoC r) z) = r * fst z. Proof. cbn. ring. Qed.
Lemma csum4_perm n m p q f : csum n (fun i => csum m (fun j => csum p (fun k => csum q (fun l => f i j k l)))) = csum p (fun k => csum q (fun l => csum n (fun i => csum m (fun j => f i j k l)))).
Proof. apply csum4_swap. Qed.
Lemma conv_kernel M N (f : nat -> nat -> C) (T : nat -> nat -> C) (y x : nat) : (1 <= M)%nat -> (1 <= N)%nat ->
  dft2 1 M N (fun u v => Cmult (Cmult (RtoC 1) (dft2 (-1) M N f u v)) (T u v)) y x =
  csum M (fun j => csum N (fun l => Cmult (f j l) (g2 M N T (Z.of_nat y - Z.of_nat j) (Z.of_nat x - Z.of_nat l)))).
Proof.
  intros HM HN. assert (M0 : INR M <> 0) by (apply not_0_INR; lia). assert (N0 : INR N <> 0) by (apply not_0_INR; lia). unfold dft2 at 1.
  transitivity (csum M (fun u => csum N (fun v => csum M (fun j => csum N (fun l => Cmult (f j l) (Cmult (T u v) (cis (2 * PI * (INR u * IZR (Z.of_nat y - Z.of_nat j) / INR M + INR v * IZR (Z.of_nat x - Z.of_nat l) / INR N))))))))).
  - apply csum_ext. intros u _. apply csum_ext. intros v _. unfold dft2.
    match goal with |- Cmult (Cmult (Cmult _ ?s) ?t) ?p = _ => replace (Cmult (Cmult (Cmult (RtoC 1) s) t) p) with (Cmult (Cmult t p) s) by ring end. rewrite <- csum_scal. apply csum_ext. intros j _. rewrite <- csum_scal. apply csum_ext. intros l _.
    unfold ph. rewrite !minus_IZR, <- !INR_IZR_INZ.
    replace (2 * PI * (INR u * (INR y - INR j) / INR M + INR v * (INR x - INR l) / INR N)) with ((1 * (2 * PI) * INR y * INR u / INR M + 1 * (2 * PI) * INR x * INR v / INR N) + (-1 * (2 * PI) * INR u * INR j / INR M + -1 * (2 * PI) * INR v * INR l / INR N)) by (field; auto).
    rewrite !cis_add. ring.
  - rewrite csum4_perm. apply csum_ext. intros j _. apply csum_ext. intros l _. unfold g2. rewrite <- csum_scal. apply csum_ext. intros u _. rewrite <- csum_scal. reflexivity.
Qed.
Lemma apply_tf_px a T M N : (1 <= M)%nat -> (1 <= N)%nat -> dims M N a -> dims M N T -> exists O, apply_tf a T = Ok O /\ dims M N O /\
  forall i j, (i < M)%nat -> (j < N)%nat -> fpx O i j = rsum M (fun p => rsum N (fun q => fpx a p q * kr M N (fpx T) (Z.of_nat (roll_ix M (half M) i) - Z.of_nat p) (Z.of_nat (roll_ix N (half N) j) - Z.of_nat q))).
Proof.
  intros HM HN [A1 A2] [T1 T2]. unfold apply_tf. assert (SF : shape (fftn (cfield a)) M N) by (split; cbn; auto). destruct (imul_sq (fftn (cfield a)) T M N SF (conj T1 T2)) as (P & -> & [P1 P2] & VP). cbn [rbind].
  eexists. split; [reflexivity|]. split; [split; cbn; auto|]. intros i j Hi Hj. cbn [roll2 rpart ifftn fft_scaled frows fcols fpx]. rewrite P1, P2. unfold size. rewrite P1, P2. rewrite fst_scal.
  set (y := roll_ix M (half M) i). set (x := roll_ix N (half N) j).
  assert (E : dft2 1 M N (fpx P) y x = dft2 1 M N (fun u v => Cmult (Cmult (RtoC 1) (dft2 (-1) M N (fun p q => RtoC (fpx a p q)) u v)) (fpx T u v)) y x).
  { unfold dft2 at 1 2. apply csum_ext. intros u Hu. apply csum_ext. intros v Hv. f_equal. rewrite VP by auto. cbn [fftn fft_scaled cfield fmap frows fcols fpx]. rewrite A1, A2. reflexivity. }
  rewrite E, conv_kernel by auto. rewrite fst_csum, <- rsum_scal. apply rsum_ext. intros p _. rewrite fst_csum, <- rsum_scal. apply rsum_ext. intros q _. rewrite fst_scal. unfold kr. ring.
Qed.
Lemma g2_period M N T a b k l : (1 <= M)%nat -> (1 <= N)%nat -> g2 M N T (a + k * Z.of_nat M) (b + l * Z.of_nat N) = g2 M N T a b.
Proof.
  intros HM HN. assert (M0 : INR M <> 0) by (apply not_0_INR; lia). assert (N0 : INR N <> 0) by (apply not_0_INR; lia). unfold g2. apply csum_ext. intros u _. apply csum_ext. intros v _. f_equal.
  replace (2 * PI * (INR u * IZR (a + k * Z.of_nat M) / INR M + INR v * IZR (b + l * Z.of_nat N) / INR N)) with (2 * PI * (INR u * IZR a / INR M + INR v * IZR b / INR N) + 2 * PI * IZR (Z.of_nat u * k + Z.of_nat v * l)).
  - apply cis_period.
  - rewrite !plus_IZR, !mult_IZR, <- !INR_IZR_INZ. field. auto.
Qed.
Lemma kr_cong M N T a b a' b' : (1 <= M)%nat -> (1 <= N)%nat -> (a mod Z.of_nat M = a' mod Z.of_nat M)%Z -> (b mod Z.of_nat N = b' mod Z.of_nat N)%Z -> kr M N T a b = kr M N T a' b'.
Proof.
  intros HM HN Ha Hb. unfold kr. f_equal. f_equal.
  rewrite (Z.div_mod a (Z.of_nat M)), (Z.div_mod a' (Z.of_nat M)), (Z.div_mod b (Z.of_nat N)), (Z.div_mod b' (Z.of_nat N)), Ha, Hb by lia.
  rewrite !(Z.add_comm (Z.of_nat _ * _)), !(Z.mul_comm (Z.of_nat _)). now rewrite !g2_period by auto.
Qed.
Lemma kr_conj M N T a b : kr M N (fun u v => Cconj (T u v)) a b = kr M N T (- a) (- b).
Proof.
  unfold kr. f_equal. rewrite <- (Cconj_inv (g2 M N (fun u v => Cconj (T u v)) a b)). replace (Cconj (g2 M N (fun u v => Cconj (T u v)) a b)) with (g2 M N T (- a) (- b)); [reflexivity|].
  unfold g2. rewrite csum_conj. apply csum_ext. intros u _. rewrite csum_conj. apply csum_ext. intros v _. rewrite Cconj_mult, Cconj_inv, <- cis_neg. f_equal. f_equal. rewrite !opp_IZR. unfold Rdiv. ring.
Qed.
(* shifted influence function *)
Lemma ramp_int n s k : (1 <= n)%nat -> ramp n (IZR s) k = cis (- (2 * PI * (INR k * IZR s / INR n))).
Proof.
  intros Hn. assert (N0 : INR n <> 0) by (apply not_0_INR; lia). unfold ramp, fftfreq. destruct (Nat.ltb k ((n + 1) / 2)).
  - f_equal. field. auto.
  - rewrite <- (cis_period (- (2 * PI * (INR k * IZR s / INR n))) s). f_equal. field. auto.
Qed.
Lemma make_tf_px ifn sx sy M N u v : (1 <= M)%nat -> (1 <= N)%nat -> dims M N ifn -> fpx (make_tf ifn (IZR sx) (IZR sy)) u v =
  Cmult (Cmult (dft2 (-1) M N (fun p q => RtoC (fpx ifn p q)) u v) (cis (- (2 * PI * (INR v * IZR sx / INR N))))) (cis (- (2 * PI * (INR u * IZR sy / INR M)))).
Proof.
  intros HM HN [I1 I2]. assert (G : fpx (fftn (cfield ifn)) u v = dft2 (-1) M N (fun p q => RtoC (fpx ifn p q)) u v) by (cbn [fftn fft_scaled cfield fmap frows fcols fpx]; rewrite I1, I2; apply Cmult_1_l). unfold make_tf. cbv zeta.
  destruct (Req_EM_T (IZR sx) 0) as [E1|]; [destruct (Req_EM_T (IZR sy) 0) as [E2|]|].
  - rewrite G, E1, E2. replace (- (2 * PI * (INR v * 0 / INR N))) with 0 by (unfold Rdiv; ring). replace (- (2 * PI * (INR u * 0 / INR M))) with 0 by (unfold Rdiv; ring). rewrite cis_0. ring.
  - cbn [fpx frows fcols]. rewrite G. cbn [fftn fft_scaled cfield fmap frows fcols]. rewrite I1, I2, !ramp_int by auto. reflexivity.
  - cbn [fpx frows fcols]. rewrite G. cbn [fftn fft_scaled cfield fmap frows fcols]. rewrite I1, I2, !ramp_int by auto. reflexivity.
Qed.
Lemma kr_tf ifn sx sy M N a b : (1 <= M)%nat -> (1 <= N)%nat -> dims M N ifn -> kr M N (fpx (make_tf ifn (IZR sx) (IZR sy))) a b = periodic ifn (a - sy) (b - sx).
Proof.
  intros HM HN [I1 I2]. assert (M0 : INR M <> 0) by (apply not_0_INR; lia). assert (N0 : INR N <> 0) by (apply not_0_INR; lia).
  set (y := Z.to_nat ((a - sy) mod Z.of_nat M)). set (x := Z.to_nat ((b - sx) mod Z.of_nat N)).
  assert (Hy : (y < M)%nat) by (unfold y; pose proof (Z.mod_pos_bound (a - sy) (Z.of_nat M)); lia). assert (Hx : (x < N)%nat) by (unfold x; pose proof (Z.mod_pos_bound (b - sx) (Z.of_nat N)); lia).
  assert (E : g2 M N (fpx (make_tf ifn (IZR sx) (IZR sy))) a b = g2 M N (dft2 (-1) M N (fun p q => RtoC (fpx ifn p q))) (a - sy) (b - sx)).
  { unfold g2. apply csum_ext. intros u _. apply csum_ext. intros v _. rewrite (make_tf_px ifn sx sy M N) by (auto; split; auto).
    replace (2 * PI * (INR u * IZR (a - sy) / INR M + INR v * IZR (b - sx) / INR N)) with (2 * PI * (INR u * IZR a / INR M + INR v * IZR b / INR N) + (- (2 * PI * (INR v * IZR sx / INR N)) + - (2 * PI * (INR u * IZR sy / INR M)))) by (rewrite !minus_IZR; field; auto). rewrite !cis_add. ring. }
  assert (E2 : g2 M N (dft2 (-1) M N (fun p q => RtoC (fpx ifn p q))) (a - sy) (b - sx) = Cmult (RtoC (INR M * INR N)) (RtoC (fpx ifn y x))).
  { rewrite (Z.div_mod (a - sy) (Z.of_nat M)), (Z.div_mod (b - sx) (Z.of_nat N)) by lia. rewrite !(Z.add_comm (Z.of_nat _ * _)), !(Z.mul_comm (Z.of_nat _)), g2_period by auto.
    rewrite <- (dft2_inverse 1 M N (fun p q => RtoC (fpx ifn p q)) y x) by auto. unfold dft2 at 2, g2. apply csum_ext. intros u _. apply csum_ext. intros v _. f_equal. unfold ph. rewrite <- cis_add. f_equal.
    unfold y, x. rewrite !INR_IZR_INZ, !Z2Nat.id by (apply Z.mod_pos_bound; lia). unfold Rdiv. ring. }
  unfold kr, periodic. rewrite E, E2, fst_scal, I1, I2. fold y x. cbn [fst RtoC]. field. auto.
Qed.
