From Verif Require Import Base RBase CBase OptModel ThinModel ThinSpec ThinProofs ThinProofs2 ThinProofs3.
From Coquelicot Require Import Coquelicot.
Open Scope R_scope.
Lemma mmul_assoc A B D : mmul (mmul A B) D = mmul A (mmul B D).
Proof. unfold mmul; cbn [a00 a01 a10 a11]. f_equal; ring. Qed.
Lemma mmul_eye A : mmul A eye2 = A. Proof. destruct A as [x1 x2 x3 x4]. unfold mmul, eye2; cbn [a00 a01 a10 a11]. f_equal; ring. Qed.
Lemma eye_mmul A : mmul eye2 A = A. Proof. destruct A as [x1 x2 x3 x4]. unfold mmul, eye2; cbn [a00 a01 a10 a11]. f_equal; ring. Qed.
Lemma act_eye p q : act eye2 p q = (p, q). Proof. unfold act, eye2; cbn [a00 a01 a10 a11]. f_equal; ring. Qed.
Fixpoint rprod (M : nat -> m2) (s k : nat) : m2 := match k with O => eye2 | S k' => mmul (M s) (rprod M (S s) k') end.
Lemma fold_rprod M k : forall s A, fold_left (fun A i => mmul A (M i)) (seq s k) A = mmul A (rprod M s k).
Proof. induction k as [|k IH]; intros s A; cbn [seq fold_left rprod]; [now rewrite mmul_eye|]. rewrite IH. apply mmul_assoc. Qed.
Section W.
  Variables (n : list C) (d : list R) (theta lam : R) (tm : bool).
  Hypothesis Hlam : 0 < lam.
  Let nn := ith n.
  Let dd := rth d.
  Let last := (length n - 1)%nat.
  Hypothesis HP : passive nn dd last theta lam.
  Let kz := tf_kz n theta lam.
  Let kzz := tf_kzz n theta lam tm.
  Let ep j z := cexp (Cmult (Cmult Ci (kz j)) (RtoC z)).
  Let em j z := cexp (Cmult (Cmult (Copp Ci) (kz j)) (RtoC z)).
  Let M := tf_mat n d theta lam tm.
  Definition wv (j : nat) (p q : C) (z : R) : C := Cplus (Cmult p (ep j z)) (Cmult q (em j z)).
  Definition dwv (j : nat) (p q : C) (z : R) : C := Cmult (Cmult Ci (kz j)) (Cminus (Cmult p (ep j z)) (Cmult q (em j z))).
  Lemma Ci2 : Cmult Ci Ci = RtoC (-1). Proof. apply C_eq; cbn; ring. Qed.
  Lemma wv_d j p q z : has_dC (wv j p q) z (dwv j p q z).
  Proof. eapply hd_eq; [apply hd_plus; apply hd_scal; apply hd_cexp|]. unfold dwv, ep, em. ring. Qed.
  Lemma dwv_d j p q z : has_dC (dwv j p q) z (Copp (Cmult (q2 nn theta lam j) (wv j p q z))).
  Proof.
    unfold dwv. eapply hd_eq; [apply hd_scal|].
    - apply (hd_ext (fun x => Cplus (Cmult p (ep j x)) (Cmult (Copp q) (em j x)))); [intros x; ring|]. apply hd_plus; apply hd_scal; apply hd_cexp.
    - unfold nn. rewrite <- (kz_sq n theta lam Hlam). fold kz. unfold wv. fold (ep j z). fold (em j z).
      transitivity (Cmult (Cmult Ci Ci) (Cmult (Cmult (kz j) (kz j)) (Cplus (Cmult p (ep j z)) (Cmult q (em j z))))); [ring|]. rewrite Ci2. replace (RtoC (-1)) with (Copp (RtoC 1)) by (apply C_eq; cbn; ring). ring.
  Qed.
  Lemma q2n j : (j <= last)%nat -> q2 nn theta lam j <> RtoC 0. Proof. intros Hj. destruct HP as (_ & _ & H & _). auto. Qed.
  Lemma kz_ne j : (j <= last)%nat -> kz j <> RtoC 0. Proof. intros Hj. apply low_ne. apply kz_low; [exact Hlam|]. apply q2n; auto. Qed.
  Lemma kzzl j : (j <= last)%nat -> low (kzz j).
  Proof. intros Hj. destruct HP as (H & H0 & H1 & _). specialize (H j Hj). destruct H. apply kzz_low; auto. Qed.
  Lemma kzzn j : (j <= last)%nat -> fst (kz j) < 0 -> fst (kzz j) < 0.
  Proof. intros Hj. destruct HP as (H & H0 & H1 & _). specialize (H j Hj). destruct H. apply kzz_low; auto. Qed.
  Lemma ep0 j : ep j 0 = RtoC 1. Proof. unfold ep. rewrite <- cexp_0. f_equal. ring. Qed.
  Lemma em0 j : em j 0 = RtoC 1. Proof. unfold em. rewrite <- cexp_0. f_equal. ring. Qed.
  Lemma wv0 j p q : wv j p q 0 = Cplus p q. Proof. unfold wv. rewrite ep0, em0. ring. Qed.
  Lemma dwv0 j p q : dwv j p q 0 = Cmult (Cmult Ci (kz j)) (Cminus p q). Proof. unfold dwv. rewrite ep0, em0. ring. Qed.
  Lemma ik_ne j : (j <= last)%nat -> Cmult Ci (kz j) <> RtoC 0.
  Proof. intros Hj. apply Cmult_neq_0; [|now apply kz_ne]. intros E. apply (f_equal snd) in E. cbn in E. lra. Qed.
  Lemma kzzw j : (j <= last)%nat -> kzz j = Cmult (weight nn tm j) (kz j).
  Proof. intros Hj. apply kzz_weight. apply (n_ne nn dd last theta lam HP j Hj). Qed.
  (* interface conditions in terms of amplitudes *)
  Lemma cond_act j p q p' q' : (j < last)%nat ->
    ((p, q) = act (M j) p' q' <-> wv j p q (dd j) = wv (S j) p' q' 0 /\ Cmult (weight nn tm j) (dwv j p q (dd j)) = Cmult (weight nn tm (S j)) (dwv (S j) p' q' 0)).
  Proof.
    intros Hj. unfold M. rewrite (iface_iff n d theta lam tm j p q p' q'); [|apply low_ne, kzzl; lia|apply low_plus; apply kzzl; lia].
    fold kz. fold kzz. fold dd. fold (ep j (dd j)). fold (em j (dd j)). rewrite wv0, dwv0. unfold wv, dwv. set (P := Cmult p (ep j (dd j))). set (Q := Cmult q (em j (dd j))).
    assert (X : forall a b, Cmult (kzz j) a = Cmult (kzz (S j)) b <-> Cmult (weight nn tm j) (Cmult (Cmult Ci (kz j)) a) = Cmult (weight nn tm (S j)) (Cmult (Cmult Ci (kz (S j))) b)).
    { intros a b. rewrite !kzzw by lia. split; intros H.
      - transitivity (Cmult Ci (Cmult (Cmult (weight nn tm j) (kz j)) a)); [ring|]. rewrite H. ring.
      - apply (cancel Ci); [intros E; apply (f_equal snd) in E; cbn in E; lra|]. transitivity (Cmult (weight nn tm j) (Cmult (Cmult Ci (kz j)) a)); [ring|]. rewrite H. ring. }
    rewrite X. reflexivity.
  Qed.
  (* every field is a pair of waves *)
  Lemma general u v j : maxwell nn dd last theta lam tm u v -> (j <= last)%nat -> exists p q, forall z, u j z = wv j p q z /\ v j z = dwv j p q z.
  Proof.
    intros (M1 & M2 & _) Hj. set (K := Cmult Ci (kz j)). pose proof (ik_ne j Hj) as KN. fold K in KN.
    assert (KK : Cmult K K = Copp (q2 nn theta lam j)). { unfold K, nn. rewrite <- (kz_sq n theta lam Hlam). fold kz. transitivity (Cmult (Cmult Ci Ci) (Cmult (kz j) (kz j))); [ring|]. rewrite Ci2. replace (RtoC (-1)) with (Copp (RtoC 1)) by (apply C_eq; cbn; ring). ring. }
    assert (F : forall z, Cmult (Cplus (Cmult K (u j z)) (v j z)) (em j z) = Cmult (Cplus (Cmult K (u j 0)) (v j 0)) (em j 0)).
    { intros z. apply (hd_zero_const (fun z => Cmult (Cplus (Cmult K (u j z)) (v j z)) (em j z))). intros x.
      eapply hd_eq; [apply hd_mult; [apply hd_plus; [apply hd_scal, M1; exact Hj|apply M2; exact Hj]|apply hd_cexp]|]. cbv beta. fold (em j x).
      replace (Cmult (Copp Ci) (kz j)) with (Copp K) by (unfold K; ring). replace (Copp (Cmult (q2 nn theta lam j) (u j x))) with (Cmult (Cmult K K) (u j x)) by (rewrite KK; ring). unfold em. replace (Cmult (Copp Ci) (kz j)) with (Copp K) by (unfold K; ring). ring. }
    assert (G : forall z, Cmult (Cminus (Cmult K (u j z)) (v j z)) (ep j z) = Cmult (Cminus (Cmult K (u j 0)) (v j 0)) (ep j 0)).
    { intros z. apply (hd_zero_const (fun z => Cmult (Cminus (Cmult K (u j z)) (v j z)) (ep j z))). intros x.
      eapply hd_eq; [apply hd_mult; [|apply hd_cexp]|].
      - apply (hd_ext (fun z => Cplus (Cmult K (u j z)) (Cmult (Copp (RtoC 1)) (v j z)))); [intros; ring|]. apply hd_plus; [apply hd_scal, M1; exact Hj|apply hd_scal, M2; exact Hj].
      - cbv beta. replace (Copp (Cmult (q2 nn theta lam j) (u j x))) with (Cmult (Cmult K K) (u j x)) by (rewrite KK; ring). unfold ep. fold K. ring. }
    rewrite em0 in F. rewrite ep0 in G.
    exists (Cdiv (Cplus (Cmult K (u j 0)) (v j 0)) (Cmult (RtoC 2) K)), (Cdiv (Cminus (Cmult K (u j 0)) (v j 0)) (Cmult (RtoC 2) K)). intros z.
    specialize (F z). specialize (G z). unfold wv, dwv. fold K. pose proof (ep_em n theta lam j z) as E. fold kz in E. change (Cmult (ep j z) (em j z) = RtoC 1) in E.
    set (a := Cplus (Cmult K (u j 0)) (v j 0)) in *. set (b := Cminus (Cmult K (u j 0)) (v j 0)) in *. set (e := ep j z) in *. set (f := em j z) in *.
    assert (F' : Cmult a e = Cplus (Cmult K (u j z)) (v j z)). { transitivity (Cmult (Cmult (Cplus (Cmult K (u j z)) (v j z)) f) e); [rewrite F; ring|]. transitivity (Cmult (Cplus (Cmult K (u j z)) (v j z)) (Cmult e f)); [ring|]. rewrite E. ring. }
    assert (G' : Cmult b f = Cminus (Cmult K (u j z)) (v j z)). { transitivity (Cmult (Cmult (Cminus (Cmult K (u j z)) (v j z)) e) f); [rewrite G; ring|]. transitivity (Cmult (Cminus (Cmult K (u j z)) (v j z)) (Cmult e f)); [ring|]. rewrite E. ring. }
    assert (N2 : RtoC 2 <> RtoC 0) by (apply RtoC_ne; lra). split.
    - transitivity (Cdiv (Cplus (Cmult a e) (Cmult b f)) (Cmult (RtoC 2) K)); [rewrite F', G'|unfold Cdiv; ring]. rewrite <- two in *. field. auto.
    - transitivity (Cdiv (Cmult K (Cminus (Cmult a e) (Cmult b f))) (Cmult (RtoC 2) K)); [rewrite F', G'|unfold Cdiv; ring]. rewrite <- two in *. field. auto.
  Qed.
  (* amplitudes from the bottom up *)
  Definition amp (t : C) (j : nat) : C * C := act (rprod M j (last - j)) t (RtoC 0).
  Lemma amp_last t : amp t last = (t, RtoC 0). Proof. unfold amp. rewrite Nat.sub_diag. apply act_eye. Qed.
  Lemma amp_step t j : (j < last)%nat -> amp t j = act (M j) (fst (amp t (S j))) (snd (amp t (S j))).
  Proof. intros Hj. unfold amp. replace (last - j)%nat with (S (last - S j)) by lia. cbn [rprod]. apply act_mul. Qed.
  Lemma amp_maxwell t : maxwell nn dd last theta lam tm (fun j => wv j (fst (amp t j)) (snd (amp t j))) (fun j => dwv j (fst (amp t j)) (snd (amp t j))).
  Proof.
    split; [|split].
    - intros j z _. apply wv_d.
    - intros j z _. apply dwv_d.
    - intros j Hj. apply (cond_act j); auto. rewrite <- amp_step by auto. now destruct (amp t j).
  Qed.
  Lemma prod_eq : tf_prod n d theta lam tm = rprod M 0 last.
  Proof. unfold tf_prod. rewrite fold_rprod. apply eye_mmul. Qed.
  Lemma amp_0 t : amp t 0 = (Cmult (a00 (rprod M 0 last)) t, Cmult (a10 (rprod M 0 last)) t).
  Proof. unfold amp. rewrite Nat.sub_0_r. unfold act. f_equal; ring. Qed.
  Lemma amp_unique u v t : maxwell nn dd last theta lam tm u v -> (forall z, u last z = wv last t (RtoC 0) z /\ v last z = dwv last t (RtoC 0) z) ->
    forall j, (j <= last)%nat -> forall z, u j z = wv j (fst (amp t j)) (snd (amp t j)) z /\ v j z = dwv j (fst (amp t j)) (snd (amp t j)) z.
  Proof.
    intros HM HL. assert (X : forall k j, (j + k = last)%nat -> forall z, u j z = wv j (fst (amp t j)) (snd (amp t j)) z /\ v j z = dwv j (fst (amp t j)) (snd (amp t j)) z).
    { induction k as [|k IH]; intros j Hj.
      - replace j with last by lia. rewrite amp_last. exact HL.
      - destruct (general u v j HM ltac:(lia)) as (p & q & E). specialize (IH (S j) ltac:(lia)).
        enough (A : amp t j = (p, q)) by (rewrite A; exact E). rewrite amp_step by lia. symmetry. apply cond_act; [lia|].
        destruct (E (dd j)) as [E1 E2]. destruct (IH 0) as [I1 I2]. destruct HM as (_ & _ & HC). destruct (HC j ltac:(lia)) as [C1 C2]. rewrite <- E1, <- E2, <- I1, <- I2. auto. }
    intros j Hj. apply (X (last - j)%nat). lia.
  Qed.
  (* downward wave numbers *)
  Lemma down_unique j k : (j <= last)%nat -> downward nn theta lam j k -> k = Copp (kz j).
  Proof.
    intros Hj [E P]. assert (Z : Cmult (Cminus k (kz j)) (Cplus k (kz j)) = RtoC 0). { transitivity (Cminus (Cmult k k) (Cmult (kz j) (kz j))); [ring|]. rewrite E. unfold kz, nn. rewrite kz_sq by auto. ring. }
    destruct (Ceq_dec (Cplus k (kz j)) (RtoC 0)) as [A|A].
    - transitivity (Cminus (Cplus k (kz j)) (kz j)); [ring|]. rewrite A. ring.
    - exfalso. assert (B : Cminus k (kz j) = RtoC 0). { apply (cancel (Cplus k (kz j)) _ _ A). rewrite Cmult_comm, Z. ring. }
      assert (F : fst k = fst (kz j)). { apply (f_equal fst) in B. cbn [fst Cminus Cplus Copp RtoC] in B. lra. }
      destruct (kz_low n theta lam Hlam j (q2n j Hj)) as [L|[L _]]; fold kz in L; lra.
  Qed.
  Lemma down_ex j : (j <= last)%nat -> (0 < fst (q2 nn theta lam j) \/ snd (q2 nn theta lam j) <> 0) -> downward nn theta lam j (Copp (kz j)).
  Proof.
    intros Hj H. pose proof (kz_sq n theta lam Hlam j) as E. fold nn in E. fold kz in E. split; [rewrite <- E; ring|].
    destruct (kz_low n theta lam Hlam j (q2n j Hj)) as [L|[L L']]; fold kz in L; cbn [fst Copp]; [lra|]. exfalso. rewrite <- E in H. destruct (kz j) as [a b]. cbn [fst snd Cmult] in *. subst a. destruct H as [H|H]; [nra|apply H; ring].
  Qed.
  Lemma q2_0 : snd (q2 nn theta lam 0) = 0 /\ 0 < fst (q2 nn theta lam 0).
  Proof.
    split; [rewrite (q2_im nn dd last theta lam HP 0) by lia; destruct HP as (_ & -> & _); ring|].
    assert (N := q2n 0 ltac:(lia)). pose proof (K_pos lam Hlam) as K. destruct HP as (_ & H0 & _). unfold q2 in *. destruct (nn 0%nat) as [c c']. cbn [fst snd] in *. subst c'. cbn [fst snd Cmult Cminus Cplus Copp RtoC] in *.
    set (s := sin theta) in *. assert (s * s <= 1) by (unfold s; pose proof (sin2_cos2 theta) as X; unfold Rsqr in X; nra).
    set (KK := k0 lam * k0 lam) in *. match goal with |- 0 < ?L => replace L with (KK * (c * c * (1 - s * s))) by ring end.
    assert (N' : KK * (c * c * (1 - s * s)) <> 0). { intros E. apply N. apply C_eq; cbn [fst snd Cmult Cminus Cplus Copp RtoC]; [|ring]. etransitivity; [|exact E]. ring. }
    assert (0 <= KK * (c * c * (1 - s * s))) by (apply Rmult_le_pos; [lra|apply Rmult_le_pos; nra]). lra.
  Qed.
  Lemma down_0 : downward nn theta lam 0 (Copp (kz 0)). Proof. apply down_ex; [lia|]. left. apply q2_0. Qed.
  Lemma down_last : downward nn theta lam last (Copp (kz last)).
  Proof. apply down_ex; [lia|]. destruct HP as (_ & _ & _ & [H|H] & _); [now left|right; lra]. Qed.
  Lemma kz0_real : snd (kz 0) = 0.
  Proof. destruct down_0 as [E P]. destruct q2_0 as [Q _]. rewrite <- E in Q. destruct (kz 0) as [a b]. cbn [fst snd Cmult Copp] in P, Q |- *. assert (Z : a * b = 0) by lra. apply Rmult_integral in Z. lra. Qed.
  Lemma w0_real : snd (weight nn tm 0) = 0 /\ 0 < fst (weight nn tm 0).
  Proof.
    destruct HP as (H & H0 & _). specialize (H 0%nat ltac:(lia)). destruct tm; [|cbn; lra]. pose proof (w_eq_tm nn dd last theta lam HP 0 ltac:(lia)) as E. cbv zeta in E. rewrite H0 in E. rewrite E. cbn [fst snd]. split; [unfold Rdiv; ring|].
    set (a := fst (nn 0%nat)) in *. replace (a * a - 0 * 0) with (a * a) by ring. replace (a * a + 0 * 0) with (a * a) by ring. assert (0 < a * a) by nra. apply Rdiv_lt_0_compat; [auto|apply Rmult_lt_0_compat; auto].
  Qed.
  Lemma kzz0_real : snd (kzz 0) = 0 /\ fst (kzz 0) < 0.
  Proof.
    rewrite kzzw by lia. pose proof kz0_real as A. destruct w0_real as [B C]. destruct down_0 as [_ D]. cbn [fst snd Cmult Copp] in *. rewrite A, B. split; [ring|]. nra.
  Qed.
  Lemma kzzL_neg : fst (kzz last) < 0. Proof. apply kzzn; [lia|]. destruct down_last as [_ D]. cbn [fst Copp] in D. lra. Qed.
  Lemma flux_waves j p q : (j <= last)%nat -> (snd (kzz j) = 0 \/ q = RtoC 0) ->
    flux nn tm (fun j => wv j p q) (fun j => dwv j p q) j 0 = - fst (kzz j) * (abs2 p - abs2 q).
  Proof.
    intros Hj H. unfold flux. rewrite wv0, dwv0.
    replace (Cmult (weight nn tm j) (Cmult (Cmult Ci (kz j)) (Cminus p q))) with (Cmult Ci (Cmult (kzz j) (Cminus p q))) by (rewrite kzzw by auto; ring).
    destruct (kzz j) as [a b], p as [p1 p2], q as [q1 q2]. unfold abs2. cbn [fst snd] in *. destruct H as [->|H]; [|injection H as -> ->]; cbn [fst snd Cmult Cplus Cminus Copp Cconj Ci]; ring.
  Qed.
  Let A := tf_prod n d theta lam tm.
  Lemma balance t : - fst (kzz last) * abs2 t <= - fst (kzz 0) * (abs2 (Cmult (a00 A) t) - abs2 (Cmult (a10 A) t)) /\
    (transparent nn last -> - fst (kzz last) * abs2 t = - fst (kzz 0) * (abs2 (Cmult (a00 A) t) - abs2 (Cmult (a10 A) t))).
  Proof.
    pose proof (flux_waves 0 (Cmult (a00 A) t) (Cmult (a10 A) t) ltac:(lia) (or_introl (proj1 kzz0_real))) as F0.
    pose proof (flux_waves last t (RtoC 0) (le_n _) (or_intror eq_refl)) as FL. replace (abs2 t - abs2 (RtoC 0)) with (abs2 t) in FL by (unfold abs2; cbn; ring).
    pose proof (amp_maxwell t) as MX. rewrite <- F0, <- FL.
    assert (X0 : forall f, f 0%nat = (Cmult (a00 A) t, Cmult (a10 A) t) -> flux nn tm (fun j => wv j (Cmult (a00 A) t) (Cmult (a10 A) t)) (fun j => dwv j (Cmult (a00 A) t) (Cmult (a10 A) t)) 0 0 = flux nn tm (fun j => wv j (fst (f j)) (snd (f j))) (fun j => dwv j (fst (f j)) (snd (f j))) 0 0).
    { intros f E. unfold flux. now rewrite E. }
    assert (XL : forall f, f last = (t, RtoC 0) -> flux nn tm (fun j => wv j t (RtoC 0)) (fun j => dwv j t (RtoC 0)) last 0 = flux nn tm (fun j => wv j (fst (f j)) (snd (f j))) (fun j => dwv j (fst (f j)) (snd (f j))) last 0).
    { intros f E. unfold flux. now rewrite E. }
    rewrite (X0 (amp t)), (XL (amp t)); [|apply amp_last|unfold A; rewrite amp_0, prod_eq; reflexivity]. split.
    - exact (flux_le nn dd last theta lam tm Hlam HP _ _ MX last (le_n _)).
    - intros HT. exact (flux_eq nn dd last theta lam tm HP _ _ MX last HT (le_n _)).
  Qed.
  Lemma A00_ne : a00 A <> RtoC 0.
  Proof.
    intros E. destruct (balance (RtoC 1)) as [B _]. rewrite E in B. pose proof kzzL_neg. destruct kzz0_real. unfold abs2 in B. cbn [fst snd Cmult RtoC] in B.
    replace (1 * 1 + 0 * 0) with 1 in B by ring. destruct (a10 A) as [x y]. cbn [fst snd] in B. nra.
  Qed.
End W.
