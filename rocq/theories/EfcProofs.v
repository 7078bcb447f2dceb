From Verif Require Import Base RBase EfcModel EfcSpec.
Open Scope R_scope.

Lemma rsum_scal_r n c f : rsum n (fun k => f k * c) = rsum n f * c.
Proof. rewrite (rsum_ext n _ (fun k => c * f k)) by (intros; ring). rewrite rsum_scal. ring. Qed.
Lemma rsum_sq_zero n f : rsum n (fun i => f i * f i) = 0 -> forall i, (i < n)%nat -> f i = 0.
Proof.
  induction n as [|n IH]; intros H i Hi; [lia|]. cbn [rsum] in H.
  assert (0 <= rsum n (fun i => f i * f i)) by (apply rsum_nonneg; intros; apply Rle_0_sqr).
  assert (f n * f n = 0) by nra.
  destruct (Nat.eq_dec i n) as [->|]; [nra|]. apply IH; [nra|lia].
Qed.
Lemma rsum_le n f g : (forall k, (k < n)%nat -> f k <= g k) -> rsum n f <= rsum n g.
Proof.
  induction n as [|n IH]; intros H; cbn [rsum]; [lra|].
  assert (rsum n f <= rsum n g) by (apply IH; auto with arith). specialize (H n (Nat.lt_succ_diag_r n)). lra.
Qed.

Lemma rsum_ge_one n k f : (k < n)%nat -> (forall i, (i < n)%nat -> 0 <= f i) -> f k <= rsum n f.
Proof.
  intros Hk Hf. induction n as [|n IH]; [lia|]. cbn [rsum].
  destruct (Nat.eq_dec k n) as [->|Hne].
  - assert (0 <= rsum n f) by (apply rsum_nonneg; intros; apply Hf; lia). lra.
  - assert (f k <= rsum n f) by (apply IH; [lia|intros; apply Hf; lia]). specialize (Hf n ltac:(lia)). lra.
Qed.

Section P.
  Variables Nmode Npix Nele : nat.
  Variable w : nat -> R.
  Hypothesis Hw : forall m, (m < Nmode)%nat -> 0 <= w m.
  Variable G : nat -> nat -> nat -> R * R.
  Variable E : nat -> nat -> R * R.

  (* weighted double sum *)
  Let S (F : nat -> nat -> R) : R := rsum Nmode (fun m => w m * rsum Npix (fun p => F m p)).
  Lemma S_ext F H : (forall m p, F m p = H m p) -> S F = S H.
  Proof. intros X. unfold S. apply rsum_ext; intros. f_equal. apply rsum_ext; intros; auto. Qed.
  Lemma S_plus F H : S (fun m p => F m p + H m p) = S F + S H.
  Proof.
    unfold S. rewrite <- rsum_plus. apply rsum_ext; intros m Hm. cbn beta. rewrite (rsum_plus Npix (F m) (H m)). apply Rmult_plus_distr_l.
  Qed.
  Lemma S_scal c F : S (fun m p => c * F m p) = c * S F.
  Proof.
    unfold S. rewrite <- rsum_scal. apply rsum_ext; intros m Hm. cbn beta. rewrite (rsum_scal Npix c (F m)). change (fun p : nat => F m p) with (F m). ring.
  Qed.
  Lemma S_rsum n F : S (fun m p => rsum n (fun i => F i m p)) = rsum n (fun i => S (F i)).
  Proof.
    induction n as [|n IH]; cbn [rsum].
    - unfold S. apply rsum_zero; intros. rewrite rsum_zero; auto. ring.
    - rewrite S_plus, IH. reflexivity.
  Qed.
  Lemma S_nonneg F : (forall m p, 0 <= F m p) -> 0 <= S F.
  Proof.
    intros X. unfold S. apply rsum_nonneg; intros m Hm. apply Rmult_le_pos; auto.
    apply rsum_nonneg; auto.
  Qed.

  Let L (part : R * R -> R) (u : nat -> R) m p := rsum Nele (fun i => part (G m p i) * u i).
  Lemma L_plus part u h m p : L part (fun i => u i + h i) m p = L part u m p + L part h m p.
  Proof. unfold L. rewrite <- rsum_plus. apply rsum_ext; intros; ring. Qed.
  Lemma L_scal part c h m p : L part (fun i => c * h i) m p = c * L part h m p.
  Proof. unfold L. rewrite <- rsum_scal. apply rsum_ext; intros; ring. Qed.

  Let J := cost Nmode Npix Nele w G E.
  Let Q (h : nat -> R) := S (fun m p => L fst h m p * L fst h m p + L snd h m p * L snd h m p).

  Lemma Q_nonneg h : 0 <= Q h.
  Proof. apply S_nonneg. intros; nra. Qed.

  Lemma cost_S a u : J a u =
    S (fun m p => (fst (E m p) + L fst u m p) * (fst (E m p) + L fst u m p) +
                  (snd (E m p) + L snd u m p) * (snd (E m p) + L snd u m p)) + a * rsum Nele (fun i => u i * u i).
  Proof. reflexivity. Qed.

  (* gradient identity *)
  Lemma cross_term h u :
    S (fun m p => L fst h m p * (fst (E m p) + L fst u m p) + L snd h m p * (snd (E m p) + L snd u m p))
    = rsum Nele (fun i => h i * (RealGstarEab Nmode Npix w G E i + rsum Nele (fun j => GstarG Nmode Npix w G i j * u j))).
  Proof.
    rewrite (S_ext _ (fun m p => rsum Nele (fun i => h i *
       (re_conj_mul (G m p i) (E m p) + rsum Nele (fun j => u j * re_conj_mul (G m p i) (G m p j)))))).
    2:{ intros m p. unfold L.
        rewrite <- !rsum_scal_r, <- rsum_plus. apply rsum_ext; intros i Hi. unfold re_conj_mul.
        rewrite (rsum_ext Nele (fun j => u j * _)
                   (fun j => fst (G m p i) * (fst (G m p j) * u j) + snd (G m p i) * (snd (G m p j) * u j)))
          by (intros; ring).
        rewrite rsum_plus, !rsum_scal. ring. }
    rewrite S_rsum. apply rsum_ext; intros i Hi. rewrite S_scal, S_plus. f_equal. f_equal.
    rewrite S_rsum. apply rsum_ext; intros j Hj. rewrite S_scal. unfold GstarG, S. ring.
  Qed.

  Lemma cost_expand a u h :
    J a (fun i => u i + h i) = J a u
      + 2 * rsum Nele (fun i => h i * (RealGstarEab Nmode Npix w G E i
              + rsum Nele (fun j => GstarG Nmode Npix w G i j * u j) + a * u i))
      + (Q h + a * rsum Nele (fun i => h i * h i)).
  Proof.
    rewrite !cost_S.
    rewrite (S_ext _ (fun m p =>
       ((fst (E m p) + L fst u m p) * (fst (E m p) + L fst u m p) +
        (snd (E m p) + L snd u m p) * (snd (E m p) + L snd u m p)) +
       (2 * (L fst h m p * (fst (E m p) + L fst u m p) + L snd h m p * (snd (E m p) + L snd u m p))
        + (L fst h m p * L fst h m p + L snd h m p * L snd h m p)))).
    2:{ intros m p. rewrite !L_plus. ring. }
    rewrite S_plus.
    rewrite (S_plus (fun m p => 2 * (L fst h m p * (fst (E m p) + L fst u m p) + L snd h m p * (snd (E m p) + L snd u m p)))
                    (fun m p => L fst h m p * L fst h m p + L snd h m p * L snd h m p)).
    rewrite S_scal, cross_term. fold (Q h).
    rewrite (rsum_ext Nele (fun i => (u i + h i) * (u i + h i))
                (fun i => u i * u i + (2 * (u i * h i) + h i * h i))) by (intros; ring).
    rewrite !rsum_plus, rsum_scal.
    rewrite (rsum_ext Nele (fun i => h i * (RealGstarEab Nmode Npix w G E i
              + rsum Nele (fun j => GstarG Nmode Npix w G i j * u j) + a * u i))
       (fun i => h i * (RealGstarEab Nmode Npix w G E i
              + rsum Nele (fun j => GstarG Nmode Npix w G i j * u j)) + a * (u i * h i))) by (intros; ring).
    rewrite rsum_plus, rsum_scal. ring.
  Qed.

  Lemma solves_normal r d x : solves Nmode Npix Nele w G E r d x -> forall i, (i < Nele)%nat ->
    rsum Nele (fun j => GstarG Nmode Npix w G i j * x j) + Rpower 10 r * d * x i
    = RealGstarEab Nmode Npix w G E i.
  Proof.
    intros H i Hi. rewrite <- (H i Hi).
    rewrite (rsum_ext Nele (fun j => (_ + _) * x j)
       (fun j => (if Nat.eqb i j then Rpower 10 r * d else 0) * x j + GstarG Nmode Npix w G i j * x j))
      by (intros; ring).
    rewrite rsum_plus, (rsum_single Nele i (fun j => (if Nat.eqb i j then _ else 0) * x j)); auto.
    - rewrite Nat.eqb_refl. ring.
    - intros k Hk Hne. destruct (Nat.eqb_spec i k); [congruence|ring].
  Qed.

  Lemma stationary r d x : solves Nmode Npix Nele w G E r d x -> forall h,
    rsum Nele (fun i => h i * (RealGstarEab Nmode Npix w G E i
      + rsum Nele (fun j => GstarG Nmode Npix w G i j * duVec 1 x j) + Rpower 10 r * d * duVec 1 x i)) = 0.
  Proof.
    intros H h. apply rsum_zero; intros i Hi. rewrite <- (solves_normal r d x H i Hi).
    unfold duVec. rewrite (rsum_ext Nele (fun j => GstarG Nmode Npix w G i j * (- (1) * x j))
       (fun j => -1 * (GstarG Nmode Npix w G i j * x j))) by (intros; ring).
    rewrite rsum_scal. ring.
  Qed.

  Lemma J_ext a u v : (forall i, (i < Nele)%nat -> u i = v i) -> J a u = J a v.
  Proof.
    intros X. rewrite !cost_S. f_equal.
    - apply S_ext; intros m p.
      assert (HL : forall part, L part u m p = L part v m p)
        by (intros part; unfold L; apply rsum_ext; intros; rewrite X; auto).
      rewrite !HL. reflexivity.
    - f_equal. apply rsum_ext; intros; rewrite X; auto.
  Qed.

  Lemma efc_optimal r d x : 0 <= d -> solves Nmode Npix Nele w G E r d x ->
    (forall v, J (Rpower 10 r * d) (duVec 1 x) <= J (Rpower 10 r * d) v) /\
    (0 < d -> forall v, J (Rpower 10 r * d) v = J (Rpower 10 r * d) (duVec 1 x) ->
       forall i, (i < Nele)%nat -> v i = duVec 1 x i).
  Proof.
    intros Hd H. assert (HP : 0 < Rpower 10 r) by (apply exp_pos).
    assert (X : forall v, J (Rpower 10 r * d) v = J (Rpower 10 r * d) (duVec 1 x)
        + (Q (fun i => v i - duVec 1 x i) + Rpower 10 r * d * rsum Nele (fun i => (v i - duVec 1 x i) * (v i - duVec 1 x i)))).
    { intros v. rewrite (J_ext _ v (fun i => duVec 1 x i + (v i - duVec 1 x i))) by (intros; ring).
      rewrite cost_expand, stationary by auto. ring. }
    assert (P : 0 <= Rpower 10 r * d) by nra.
    split.
    - intros v. rewrite (X v). pose proof (Q_nonneg (fun i => v i - duVec 1 x i)).
      assert (0 <= rsum Nele (fun i => (v i - duVec 1 x i) * (v i - duVec 1 x i))) by (apply rsum_nonneg; intros; apply Rle_0_sqr).
      nra.
    - intros Hd2 v Hv i Hi. rewrite (X v) in Hv. pose proof (Q_nonneg (fun i => v i - duVec 1 x i)).
      assert (Z0 : 0 <= rsum Nele (fun i => (v i - duVec 1 x i) * (v i - duVec 1 x i))) by (apply rsum_nonneg; intros; apply Rle_0_sqr).
      assert (Z1 : rsum Nele (fun i => (v i - duVec 1 x i) * (v i - duVec 1 x i)) = 0).
      { assert (0 < Rpower 10 r * d) by nra. nra. }
      pose proof (rsum_sq_zero Nele (fun i => v i - duVec 1 x i) Z1 i Hi) as Z2. cbn beta in Z2. lra.
  Qed.

  (* exact cost along the line: gain f *)
  Lemma efc_gain r d x f : 0 <= d -> solves Nmode Npix Nele w G E r d x ->
    let a := Rpower 10 r * d in
    J a (duVec f x) = J a (duVec 1 x) + (1 - f) * (1 - f) * (J a (duVec 0 x) - J a (duVec 1 x)).
  Proof.
    intros Hd H a.
    assert (X : forall f, J a (duVec f x) = J a (duVec 1 x) + (1 - f) * (1 - f) *
        (Q x + a * rsum Nele (fun i => x i * x i))).
    { intros g. rewrite (J_ext _ (duVec g x) (fun i => duVec 1 x i + (1 - g) * x i)) by (intros; unfold duVec; ring).
      rewrite cost_expand. unfold a. rewrite stationary by auto.
      assert (HQ : Q (fun i => (1 - g) * x i) = (1 - g) * (1 - g) * Q x).
      { unfold Q. rewrite <- S_scal. apply S_ext; intros m p. rewrite !L_scal. ring. }
      rewrite HQ.
      rewrite (rsum_ext Nele (fun i => (1 - g) * x i * ((1 - g) * x i)) (fun i => ((1 - g) * (1 - g)) * (x i * x i))) by (intros; ring).
      rewrite rsum_scal. ring. }
    rewrite (X f), (X 0). ring.
  Qed.

  Lemma efc_gain_safe r d x f : 0 <= d -> solves Nmode Npix Nele w G E r d x -> 0 <= f <= 2 ->
    J (Rpower 10 r * d) (duVec f x) <= J (Rpower 10 r * d) (fun _ => 0).
  Proof.
    intros Hd H Hf. rewrite (efc_gain r d x f Hd H).
    destruct (efc_optimal r d x Hd H) as [Hopt _]. specialize (Hopt (duVec 0 x)).
    rewrite (J_ext _ (fun _ => 0) (duVec 0 x)) by (intros; unfold duVec; ring).
    assert ((1 - f) * (1 - f) <= 1) by nra. nra.
  Qed.
End P.

Lemma max_upto_ge n f i : (i <= n)%nat -> f i <= max_upto n f.
Proof.
  induction n as [|n IH]; intros Hi; cbn [max_upto].
  - replace i with 0%nat by lia. lra.
  - destruct (Nat.eq_dec i (S n)) as [->|]; [apply Rmax_r|].
    eapply Rle_trans; [apply IH; lia|apply Rmax_l].
Qed.
Lemma GstarG_diag_nonneg Nmode Npix w G i : (forall m, (m < Nmode)%nat -> 0 <= w m) ->
  0 <= GstarG Nmode Npix w G i i.
Proof.
  intros Hw. unfold GstarG. apply rsum_nonneg; intros m Hm. apply Rmult_le_pos; auto.
  apply rsum_nonneg; intros p Hp. unfold re_conj_mul. nra.
Qed.
Lemma EyeNorm_nonneg Nmode Npix Nele w G d : (forall m, (m < Nmode)%nat -> 0 <= w m) ->
  EyeNorm Nmode Npix Nele w G = Ok d -> 0 <= d.
Proof.
  unfold EyeNorm. intros Hw. destruct Nele as [|k]; [discriminate|]. intros [= <-].
  eapply Rle_trans; [apply (GstarG_diag_nonneg Nmode Npix w G 0 Hw)|].
  apply (max_upto_ge k (fun i => GstarG Nmode Npix w G i i) 0). lia.
Qed.
Lemma EyeNorm_pos Nmode Npix Nele w G d m p i : (forall m, (m < Nmode)%nat -> 0 <= w m) ->
  EyeNorm Nmode Npix Nele w G = Ok d ->
  (m < Nmode)%nat -> (p < Npix)%nat -> (i < Nele)%nat -> 0 < w m -> sqmod (G m p i) <> 0 -> 0 < d.
Proof.
  unfold EyeNorm. intros Hw HE Hm Hp Hi Hwm Hg. destruct Nele as [|k]; [discriminate|]. injection HE as <-.
  eapply Rlt_le_trans; [|apply (max_upto_ge k (fun i => GstarG Nmode Npix w G i i) i); lia].
  cbn beta. unfold GstarG.
  assert (Hin : 0 < rsum Npix (fun p => re_conj_mul (G m p i) (G m p i))).
  { eapply Rlt_le_trans with (sqmod (G m p i)).
    - unfold sqmod in *. nra.
    - apply (rsum_ge_one Npix p (fun p => re_conj_mul (G m p i) (G m p i)) Hp).
      intros; unfold re_conj_mul; nra. }
  assert (Ht : 0 < w m * rsum Npix (fun p => re_conj_mul (G m p i) (G m p i))) by nra.
  eapply Rlt_le_trans; [exact Ht|].
  apply (rsum_ge_one Nmode m (fun m => w m * rsum Npix (fun p => re_conj_mul (G m p i) (G m p i))) Hm).
  intros q Hq. apply Rmult_le_pos; auto. apply rsum_nonneg; intros. unfold re_conj_mul. nra.
Qed.
