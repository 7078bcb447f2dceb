From Verif Require Import Base RBase CBase OptModel ThinModel ThinSpec ThinProofs ThinProofs2.
From Coquelicot Require Import Coquelicot.
Open Scope R_scope.
(* ---- energy ---- *)
Lemma hd_conj f z l : has_dC f z l -> has_dC (fun x => Cconj (f x)) z (Cconj l).
Proof. intros [A B]. split; cbn; [exact A|]. apply (is_derive_opp (fun x => snd (f x))). exact B. Qed.
Section E.
  Variables (n : nat -> C) (d : nat -> R) (last : nat) (theta lam : R) (tm : bool).
  Hypothesis Hlam : 0 < lam.
  Hypothesis HP : passive n d last theta lam.
  Lemma K_pos : 0 < k0 lam * k0 lam.
  Proof. unfold k0. pose proof PI_RGT_0. assert (0 < 2 * PI / lam) by (apply Rdiv_lt_0_compat; lra). nra. Qed.
  Lemma n_ne j : (j <= last)%nat -> n j <> RtoC 0.
  Proof. intros Hj E. destruct HP as (H & _). specialize (H j Hj). rewrite E in H. cbn in H. lra. Qed.
  Lemma w_eq_tm j : (j <= last)%nat -> let a := fst (n j) in let b := snd (n j) in
    weight n true j = ((a * a - b * b) / ((a * a + b * b) * (a * a + b * b)), - (2 * a * b) / ((a * a + b * b) * (a * a + b * b))).
  Proof.
    intros Hj a b. destruct HP as (H & _). specialize (H j Hj). unfold weight. destruct (n j) as [x y]. cbn [fst snd] in *. subst a b. assert (0 < x * x) by nra. apply C_eq; unfold Cinv, Cmult; cbn [fst snd]; field.
    all: assert (Z : x * x + y * y <> 0) by nra; repeat split; auto.
    all: replace ((x * x - y * y) ^ 2 + (x * y + y * x) ^ 2) with ((x * x + y * y) * (x * x + y * y)) by ring; nra.
  Qed.
  Lemma w_im j : (j <= last)%nat -> 0 <= snd (weight n tm j).
  Proof.
    intros Hj. destruct tm; [|cbn; lra]. rewrite (w_eq_tm j Hj). cbn [snd]. destruct HP as (H & _). specialize (H j Hj).
    apply Rmult_le_pos; [nra|]. left. apply Rinv_0_lt_compat. assert (0 < fst (n j) * fst (n j)) by nra. nra.
  Qed.
  Lemma q2_im j : (j <= last)%nat -> snd (q2 n theta lam j) = (k0 lam * k0 lam) * (2 * fst (n j) * snd (n j)).
  Proof. intros Hj. destruct HP as (_ & H & _). unfold q2. destruct (n j), (n 0%nat). cbn in *. rewrite H. ring. Qed.
  Lemma wq_im j : (j <= last)%nat -> snd (Cmult (weight n tm j) (q2 n theta lam j)) <= 0.
  Proof.
    intros Hj. pose proof K_pos as K. destruct (Bool.bool_dec tm true) as [E|E].
    - rewrite E, (w_eq_tm j Hj). destruct HP as (H & H0 & _). specialize (H j Hj). unfold q2. destruct (n j) as [a b], (n 0%nat) as [c c']. cbn [fst snd] in *. subst c'.
      set (KK := k0 lam * k0 lam) in *. set (s := sin theta). assert (0 < a * a) by nra. set (D := (a * a + b * b) * (a * a + b * b)). assert (DP : 0 < D) by (unfold D; nra).
      cbn [fst snd Cmult Cminus Cplus Copp RtoC].
      match goal with |- ?L <= 0 => replace L with (KK * (c * s * (c * s)) * (2 * a * b) / D) by (unfold D; field; nra) end.
      assert (0 <= c * s * (c * s)) by nra. assert (2 * a * b <= 0) by nra. assert (0 < / D) by (apply Rinv_0_lt_compat; auto). unfold Rdiv. assert (0 <= KK * (c * s * (c * s))) by nra. assert (KK * (c * s * (c * s)) * (2 * a * b) <= 0) by nra. nra.
    - apply Bool.not_true_is_false in E. rewrite E. unfold weight. replace (Cmult (RtoC 1) (q2 n theta lam j)) with (q2 n theta lam j) by ring. rewrite q2_im by auto. destruct HP as (H & _). specialize (H j Hj). assert (fst (n j) * snd (n j) <= 0) by nra. nra.
  Qed.
  Variables (u v : nat -> R -> C).
  Hypothesis M : maxwell n d last theta lam tm u v.
  Lemma flux_der j z : (j <= last)%nat -> is_derive (flux n tm u v j) z (snd (Cmult (weight n tm j) (q2 n theta lam j)) * abs2 (u j z) - snd (weight n tm j) * abs2 (v j z)).
  Proof.
    intros Hj. destruct M as (M1 & M2 & _). specialize (M1 j z Hj). specialize (M2 j z Hj). unfold flux.
    pose proof (hd_mult _ _ _ _ _ (hd_conj _ _ _ M1) (hd_scal (weight n tm j) _ _ _ M2)) as [_ D]. cbv beta in D.
    eapply is_der_eq; [apply (is_derive_opp (fun x => snd (Cmult (Cconj (u j x)) (Cmult (weight n tm j) (v j x))))); exact D|].
    unfold opp, abs2. cbn. ring.
  Qed.
  Lemma flux_step j : (j < last)%nat -> flux n tm u v (S j) 0 <= flux n tm u v j 0.
  Proof.
    intros Hj. assert (E : flux n tm u v (S j) 0 = flux n tm u v j (d j)). { destruct M as (_ & _ & M3). destruct (M3 j Hj) as [E1 E2]. unfold flux. now rewrite <- E1, <- E2. }
    rewrite E. destruct HP as (_ & _ & _ & _ & Hd). apply (dec_le _ _ _ (Hd j ltac:(lia)) (fun x => flux_der j x ltac:(lia))). intros x. pose proof (wq_im j ltac:(lia)). pose proof (w_im j ltac:(lia)).
    assert (0 <= abs2 (u j x)) by (unfold abs2; nra). assert (0 <= abs2 (v j x)) by (unfold abs2; nra). nra.
  Qed.
  Lemma flux_le j : (j <= last)%nat -> flux n tm u v j 0 <= flux n tm u v 0 0.
  Proof. induction j as [|j IH]; intros Hj; [lra|]. pose proof (flux_step j ltac:(lia)). specialize (IH ltac:(lia)). lra. Qed.
  Lemma flux_eq j : transparent n last -> (j <= last)%nat -> flux n tm u v j 0 = flux n tm u v 0 0.
  Proof.
    intros HT. induction j as [|j IH]; intros Hj; [reflexivity|]. rewrite <- IH by lia.
    assert (E : flux n tm u v (S j) 0 = flux n tm u v j (d j)). { destruct M as (_ & _ & M3). destruct (M3 j ltac:(lia)) as [E1 E2]. unfold flux. now rewrite <- E1, <- E2. }
    rewrite E. assert (D : forall x, is_derive (flux n tm u v j) x 0).
    { intros x. eapply is_der_eq; [apply flux_der; lia|]. assert (W : snd (weight n tm j) = 0).
      { destruct tm; [|reflexivity]. rewrite (w_eq_tm j) by lia. cbn [snd]. rewrite (HT j) by lia. unfold Rdiv. ring. }
      rewrite W. cbn [Cmult snd]. rewrite W, (q2_im j), (HT j) by lia. cbn. ring. }
    destruct HP as (_ & _ & _ & _ & Hd). specialize (Hd j ltac:(lia)).
    pose proof (dec_le _ (fun _ => 0) _ Hd D (fun _ => Rle_refl 0)) as L1.
    assert (D' : forall x, is_derive (fun z => - flux n tm u v j z) x 0). { intros x. eapply is_der_eq; [apply (is_derive_opp (flux n tm u v j)); apply D|]. unfold opp; cbn; ring. }
    pose proof (dec_le _ (fun _ => 0) _ Hd D' (fun _ => Rle_refl 0)) as L2. cbn in L2. lra.
  Qed.
End E.
