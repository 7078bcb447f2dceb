(* Complex sums, unit phases and discrete Fourier transforms.  C is Coquelicot's type of pairs of reals. *)
From Verif Require Export RBase.
From Coquelicot Require Export Complex.
#[global] Open Scope R_scope.

Fixpoint csum (n : nat) (f : nat -> C) : C := match n with O => RtoC 0 | S m => Cplus (csum m f) (f m) end.
(* exp(i t) *)
Definition cis (t : R) : C := (cos t, sin t).
Definition abs2 (z : C) : R := fst z * fst z + snd z * snd z.

Lemma csum_ext n f g : (forall k, (k < n)%nat -> f k = g k) -> csum n f = csum n g.
Proof. induction n as [|n IH]; intros H; cbn; [reflexivity|]. rewrite IH, H; auto with arith. Qed.
Lemma csum_plus n f g : csum n (fun k => Cplus (f k) (g k)) = Cplus (csum n f) (csum n g).
Proof. induction n as [|n IH]; cbn; [ring|]. rewrite IH. ring. Qed.
Lemma csum_scal n c f : csum n (fun k => Cmult c (f k)) = Cmult c (csum n f).
Proof. induction n as [|n IH]; cbn; [ring|]. rewrite IH. ring. Qed.
Lemma csum_scal_r n c f : csum n (fun k => Cmult (f k) c) = Cmult (csum n f) c.
Proof. induction n as [|n IH]; cbn; [ring|]. rewrite IH. ring. Qed.
Lemma csum_zero n f : (forall k, (k < n)%nat -> f k = RtoC 0) -> csum n f = RtoC 0.
Proof. induction n as [|n IH]; intros H; cbn; [reflexivity|]. rewrite IH, H by auto with arith. ring. Qed.
Lemma csum_swap n m f : csum n (fun i => csum m (fun j => f i j)) = csum m (fun j => csum n (fun i => f i j)).
Proof.
  induction n as [|n IH]; cbn.
  - symmetry. apply csum_zero; auto.
  - rewrite IH, csum_plus. reflexivity.
Qed.
Lemma csum_single n k f : (k < n)%nat -> (forall i, (i < n)%nat -> i <> k -> f i = RtoC 0) -> csum n f = f k.
Proof.
  induction n as [|n IH]; intros Hk Hz; [lia|]. cbn. destruct (Nat.eq_dec n k) as [->|Hne].
  - rewrite csum_zero; [ring|]. intros i Hi; apply Hz; lia.
  - rewrite IH; [rewrite (Hz n); try ring; lia | lia | intros; apply Hz; lia].
Qed.
Lemma csum_const n c : csum n (fun _ => c) = Cmult (RtoC (INR n)) c.
Proof. induction n as [|n IH]; [cbn; ring|]. cbn [csum]. rewrite IH, S_INR, RtoC_plus. ring. Qed.
Lemma csum_split_first n f : csum (S n) f = Cplus (f 0%nat) (csum n (fun k => f (S k))).
Proof. induction n as [|n IH]; [cbn; ring|]. change (csum (S (S n)) f) with (Cplus (csum (S n) f) (f (S n))). rewrite IH. cbn [csum]. ring. Qed.
(* cyclic reindexing *)
Lemma csum_cycle1 n f : csum n (fun k => f (S k mod n)%nat) = csum n f.
Proof.
  destruct n as [|n]; [reflexivity|]. rewrite (csum_split_first n f). cbn [csum].
  rewrite Nat.mod_same by lia. rewrite (csum_ext n _ (fun k => f (S k))) by (intros; rewrite Nat.mod_small by lia; reflexivity). ring.
Qed.
Lemma csum_cycle n f s : csum n (fun k => f ((k + s) mod n)%nat) = csum n f.
Proof.
  destruct n as [|n]; [reflexivity|]. revert f; induction s as [|s IH]; intros f.
  - apply csum_ext. intros k Hk. rewrite Nat.add_0_r, Nat.mod_small; auto.
  - rewrite <- (IH f). rewrite <- (csum_cycle1 (S n) (fun k => f ((k + s) mod S n)%nat)). apply csum_ext. intros k Hk.
    rewrite Nat.add_mod_idemp_l by lia. f_equal. f_equal. lia.
Qed.
(* reversal *)
Lemma csum_rev n f : csum n (fun k => f (n - 1 - k)%nat) = csum n f.
Proof.
  revert f; induction n as [|n IH]; intros f; [reflexivity|]. rewrite csum_split_first. cbn [csum].
  rewrite (csum_ext n _ (fun k => f (n - 1 - k)%nat)) by (intros; f_equal; lia). rewrite IH.
  replace (S n - 1 - 0)%nat with n by lia. ring.
Qed.

Lemma cis_add a b : cis (a + b) = Cmult (cis a) (cis b).
Proof. unfold cis, Cmult. cbn. rewrite cos_plus, sin_plus. f_equal; ring. Qed.
Lemma cis_0 : cis 0 = RtoC 1.
Proof. unfold cis. rewrite cos_0, sin_0. reflexivity. Qed.
Lemma cis_neg a : cis (- a) = Cconj (cis a).
Proof. unfold cis, Cconj. cbn. now rewrite cos_neg, sin_neg. Qed.
Lemma cis_inv a : Cmult (cis a) (cis (- a)) = RtoC 1.
Proof. rewrite <- cis_add. rewrite Rplus_opp_r. apply cis_0. Qed.
Lemma cis_2PI_nat k : cis (2 * PI * INR k) = RtoC 1.
Proof.
  unfold cis. replace (2 * PI * INR k) with (0 + 2 * INR k * PI) by ring. rewrite cos_period, sin_period, cos_0, sin_0. reflexivity.
Qed.
Lemma cis_2PI k : cis (2 * PI * IZR k) = RtoC 1.
Proof.
  destruct (Z_le_dec 0 k).
  - rewrite <- (Z2Nat.id k) by lia. rewrite <- INR_IZR_INZ. apply cis_2PI_nat.
  - replace (2 * PI * IZR k) with (- (2 * PI * IZR (- k))) by (rewrite opp_IZR; ring). rewrite cis_neg.
    rewrite <- (Z2Nat.id (- k)) by lia. rewrite <- INR_IZR_INZ, cis_2PI_nat. unfold Cconj, RtoC; cbn. f_equal. ring.
Qed.
Lemma cis_period t k : cis (t + 2 * PI * IZR k) = cis t.
Proof. rewrite cis_add, cis_2PI. ring. Qed.
Lemma abs2_cis t : abs2 (cis t) = 1.
Proof. unfold abs2, cis; cbn. pose proof (sin2_cos2 t) as H. unfold Rsqr in H. lra. Qed.
Lemma abs2_mult a b : abs2 (Cmult a b) = abs2 a * abs2 b.
Proof. unfold abs2, Cmult; cbn. ring. Qed.
Lemma abs2_conj a : Cmult a (Cconj a) = RtoC (abs2 a).
Proof. unfold abs2, Cmult, Cconj, RtoC; cbn. f_equal; ring. Qed.
Lemma cis_one t : cis t = RtoC 1 -> exists k, t = 2 * PI * IZR k.
Proof.
  unfold cis, RtoC. intros H. injection H as Hc Hs.
  assert (Hh : sin (t / 2) = 0).
  { replace t with (2 * (t / 2)) in Hc by field. rewrite cos_2a_sin in Hc. nra. }
  destruct (sin_eq_0_0 _ Hh) as [k Hk]. exists k. lra.
Qed.
Lemma geometric n t : Cmult (csum n (fun k => cis (INR k * t))) (Cplus (cis t) (Copp (RtoC 1))) = Cplus (cis (INR n * t)) (Copp (RtoC 1)).
Proof.
  induction n as [|n IH].
  - cbn. rewrite Rmult_0_l, cis_0. ring.
  - cbn [csum]. rewrite Cmult_plus_distr_r, IH, S_INR, Rmult_plus_distr_r, Rmult_1_l, cis_add. ring.
Qed.
(* sums of roots of unity *)
Lemma root_sum n m : (1 <= n)%nat ->
  csum n (fun k => cis (2 * PI * IZR m * INR k / INR n)) = if (m mod Z.of_nat n =? 0)%Z then RtoC (INR n) else RtoC 0.
Proof.
  intros Hn. assert (Hn0 : INR n <> 0) by (apply not_0_INR; lia). set (t := 2 * PI * IZR m / INR n).
  rewrite (csum_ext n _ (fun k => cis (INR k * t))) by (intros; f_equal; unfold t; field; auto).
  destruct (Z.eqb_spec (m mod Z.of_nat n) 0) as [E|E].
  - assert (Et : cis t = RtoC 1).
    { unfold t. rewrite (Z_div_mod_eq_full m (Z.of_nat n)), E, Z.add_0_r, mult_IZR, <- INR_IZR_INZ.
      replace (2 * PI * (INR n * IZR (m / Z.of_nat n)) / INR n) with (2 * PI * IZR (m / Z.of_nat n)) by (field; auto). apply cis_2PI. }
    assert (Ek : forall k, cis (INR k * t) = RtoC 1).
    { induction k as [|k IHk]; [cbn; rewrite Rmult_0_l; apply cis_0|]. rewrite S_INR, Rmult_plus_distr_r, Rmult_1_l, cis_add, IHk, Et. ring. }
    rewrite (csum_ext n _ (fun _ => RtoC 1)) by auto. rewrite csum_const. ring.
  - assert (Hg := geometric n t).
    replace (INR n * t) with (2 * PI * IZR m) in Hg by (unfold t; field; auto).
    rewrite cis_2PI in Hg.
    assert (Hne : Cplus (cis t) (Copp (RtoC 1)) <> RtoC 0).
    { intros Q. assert (Q2 : cis t = RtoC 1).
      { replace (cis t) with (Cplus (Cplus (cis t) (Copp (RtoC 1))) (RtoC 1)) by ring.
        rewrite Q. ring. }
      destruct (cis_one t Q2) as [k Hk]. apply E. unfold t in Hk.
      assert (HP := PI_RGT_0).
      assert (Hm : IZR m = IZR k * INR n).
      { apply (Rmult_eq_reg_l (2 * PI)); [|lra]. rewrite <- Rmult_assoc, <- Hk. field. auto. }
      rewrite INR_IZR_INZ, <- mult_IZR in Hm. apply eq_IZR in Hm. rewrite Hm. apply Z.mod_mul. lia. }
    replace (csum n (fun k => cis (INR k * t))) with
      (Cdiv (Cmult (csum n (fun k => cis (INR k * t))) (Cplus (cis t) (Copp (RtoC 1)))) (Cplus (cis t) (Copp (RtoC 1)))) by (field; auto).
    rewrite Hg. field. auto.
Qed.

(* ---- discrete Fourier transform, sign s = -1 (forward) or +1 (inverse), unscaled ---- *)
Definition ph (s : R) (n u j : nat) : C := cis (s * (2 * PI) * INR u * INR j / INR n).
Definition dft (s : R) (n : nat) (x : nat -> C) (u : nat) : C := csum n (fun j => Cmult (x j) (ph s n u j)).
Definition dft2 (s : R) (M N : nat) (x : nat -> nat -> C) (u v : nat) : C :=
  csum M (fun i => csum N (fun j => Cmult (x i j) (Cmult (ph s M u i) (ph s N v j)))).

Lemma dft_ext s n x y u : (forall j, (j < n)%nat -> x j = y j) -> dft s n x u = dft s n y u.
Proof. intros H. apply csum_ext. intros j Hj. now rewrite H. Qed.
Lemma dft2_sep s M N x u v : dft2 s M N x u v = dft s M (fun i => dft s N (x i) v) u.
Proof.
  unfold dft2, dft. apply csum_ext. intros i _. rewrite <- csum_scal_r. apply csum_ext. intros j _. ring.
Qed.
Lemma dft_swap s s' M N (x : nat -> nat -> C) u v :
  dft s M (fun i => dft s' N (x i) v) u = dft s' N (fun j => dft s M (fun i => x i j) u) v.
Proof.
  unfold dft. rewrite (csum_ext M _ (fun i => csum N (fun j => Cmult (Cmult (x i j) (ph s' N v j)) (ph s M u i)))).
  2:{ intros i _. now rewrite csum_scal_r. }
  rewrite csum_swap. apply csum_ext. intros j _. rewrite <- csum_scal_r. apply csum_ext. intros i _. ring.
Qed.
Lemma dft_orth s n a b : (s = 1 \/ s = -1) -> (1 <= n)%nat -> (a < n)%nat -> (b < n)%nat ->
  csum n (fun u => Cmult (ph (- s) n u a) (ph s n b u)) = if Nat.eqb a b then RtoC (INR n) else RtoC 0.
Proof.
  intros Hs Hn Ha Hb. assert (Hn0 : INR n <> 0) by (apply not_0_INR; lia).
  set (m := (Z.of_nat b - Z.of_nat a)%Z).
  assert (Hm : csum n (fun u => Cmult (ph (- s) n u a) (ph s n b u)) = csum n (fun u => cis (2 * PI * IZR (if Req_EM_T s 1 then m else - m) * INR u / INR n))).
  { apply csum_ext. intros u _. unfold ph. rewrite <- cis_add. f_equal.
    destruct (Req_EM_T s 1) as [E|E]; [|replace s with (-1) by (destruct Hs; lra); rewrite opp_IZR]; unfold m; rewrite minus_IZR, <- !INR_IZR_INZ; [rewrite E|]; field; auto. }
  rewrite Hm, root_sum by auto.
  destruct (Nat.eqb_spec a b) as [->|N].
  - replace (if Req_EM_T s 1 then m else (- m)%Z) with 0%Z by (unfold m; destruct (Req_EM_T s 1); lia). rewrite Z.mod_0_l by lia. reflexivity.
  - match goal with |- context [(?q =? 0)%Z] => destruct (Z.eqb_spec q 0) as [E|E] end; [|reflexivity]. exfalso.
    apply Z.mod_divide in E; [|lia]. destruct E as [k Hk]. apply N. unfold m in Hk. assert (Hk0 : k = 0%Z) by (clear -Hk Ha Hb; destruct (Req_EM_T s 1); nia). subst k. destruct (Req_EM_T s 1); lia.
Qed.
Lemma dft_inverse s n x j : (s = 1 \/ s = -1) -> (1 <= n)%nat -> (j < n)%nat ->
  dft s n (dft (- s) n x) j = Cmult (RtoC (INR n)) (x j).
Proof.
  intros Hs Hn Hj. unfold dft.
  rewrite (csum_ext n _ (fun u => csum n (fun a => Cmult (x a) (Cmult (ph (- s) n u a) (ph s n j u))))).
  2:{ intros u _. rewrite <- csum_scal_r. apply csum_ext. intros a _. ring. }
  rewrite csum_swap. rewrite (csum_ext n _ (fun a => Cmult (x a) (if Nat.eqb a j then RtoC (INR n) else RtoC 0))).
  2:{ intros a Ha. rewrite csum_scal, dft_orth; auto. }
  rewrite (csum_single n j); auto.
  - rewrite Nat.eqb_refl. ring.
  - intros i Hi Hne. destruct (Nat.eqb_spec i j); [lia|]. ring.
Qed.
Lemma dft2_inverse s M N x i j : (s = 1 \/ s = -1) -> (i < M)%nat -> (j < N)%nat ->
  dft2 s M N (dft2 (- s) M N x) i j = Cmult (RtoC (INR M * INR N)) (x i j).
Proof.
  intros Hs Hi Hj. rewrite dft2_sep.
  rewrite (dft_ext s M _ (fun u => dft (- s) M (fun i' => dft s N (fun v => dft (- s) N (x i') v) j) u)).
  2:{ intros u Hu. rewrite (dft_ext s N _ (fun v => dft (- s) M (fun i' => dft (- s) N (x i') v) u)) by (intros; apply dft2_sep).
      rewrite <- (dft_swap (- s) s M N (fun i' v => dft (- s) N (x i') v)). reflexivity. }
  rewrite (dft_inverse s M (fun i' => dft s N (fun v => dft (- s) N (x i') v) j)) by (auto; lia).
  change (fun v => dft (- s) N (x i) v) with (dft (- s) N (x i)).
  rewrite dft_inverse by (auto; lia). rewrite RtoC_mult. ring.
Qed.

(* ---- Parseval ---- *)
Lemma RtoC_rsum n f : RtoC (rsum n f) = csum n (fun k => RtoC (f k)).
Proof. induction n as [|n IH]; cbn; [reflexivity|]. now rewrite RtoC_plus, IH. Qed.
Lemma csum_conj n f : Cconj (csum n f) = csum n (fun k => Cconj (f k)).
Proof.
  induction n as [|n IH]; cbn; [unfold Cconj, RtoC; cbn; f_equal; ring|]. rewrite <- IH. unfold Cconj, Cplus; cbn. f_equal; ring.
Qed.
Lemma Cconj_mult a b : Cconj (Cmult a b) = Cmult (Cconj a) (Cconj b).
Proof. unfold Cconj, Cmult; cbn. f_equal; ring. Qed.
Lemma Cconj_inv a : Cconj (Cconj a) = a.
Proof. destruct a. unfold Cconj; cbn. f_equal. ring. Qed.
Lemma ph_conj s n u j : Cconj (ph s n u j) = ph (- s) n j u.
Proof. unfold ph. rewrite <- cis_neg. f_equal. unfold Rdiv. ring. Qed.
Lemma RtoC_inj a b : RtoC a = RtoC b -> a = b.
Proof. intros H. injection H. auto. Qed.
Lemma parseval s n x : (s = 1 \/ s = -1) -> (1 <= n)%nat ->
  rsum n (fun u => abs2 (dft s n x u)) = INR n * rsum n (fun j => abs2 (x j)).
Proof.
  intros Hs Hn. apply RtoC_inj. rewrite RtoC_mult, !RtoC_rsum.
  rewrite (csum_ext n _ (fun u => csum n (fun j => Cmult (x j) (csum n (fun k => Cmult (Cconj (x k)) (Cmult (ph (- - s) n u j) (ph (- s) n k u))))))).
  2:{ intros u _. rewrite <- abs2_conj. unfold dft at 1. rewrite <- csum_scal_r. apply csum_ext. intros j _.
      rewrite Ropp_involutive. unfold dft. rewrite csum_conj, <- csum_scal. rewrite <- csum_scal. apply csum_ext. intros k _.
      rewrite Cconj_mult, ph_conj. ring. }
  rewrite csum_swap. rewrite <- csum_scal. apply csum_ext. intros j Hj. rewrite csum_scal.
  rewrite csum_swap. rewrite (csum_ext n _ (fun k => Cmult (Cconj (x k)) (if Nat.eqb j k then RtoC (INR n) else RtoC 0))).
  2:{ intros k Hk. rewrite csum_scal, dft_orth; auto. destruct Hs; lra. }
  rewrite (csum_single n j); auto.
  - rewrite Nat.eqb_refl, <- abs2_conj. ring.
  - intros i Hi Hne. destruct (Nat.eqb_spec j i); [lia|]. ring.
Qed.
Definition energy (M N : nat) (x : nat -> nat -> C) : R := rsum M (fun i => rsum N (fun j => abs2 (x i j))).
Lemma parseval2 s M N x : (s = 1 \/ s = -1) -> (1 <= M)%nat -> (1 <= N)%nat ->
  energy M N (dft2 s M N x) = INR M * INR N * energy M N x.
Proof.
  intros Hs HM HN. unfold energy. rewrite rsum_swap.
  rewrite (rsum_ext N _ (fun v => INR M * rsum M (fun i => abs2 (dft s N (x i) v)))).
  2:{ intros v _. rewrite <- (parseval s M (fun i => dft s N (x i) v)) by auto. apply rsum_ext. intros u _. now rewrite dft2_sep. }
  rewrite rsum_scal, rsum_swap, Rmult_assoc. f_equal.
  rewrite (rsum_ext M _ (fun i => INR N * rsum N (fun j => abs2 (x i j)))) by (intros; apply parseval; auto).
  apply rsum_scal.
Qed.
