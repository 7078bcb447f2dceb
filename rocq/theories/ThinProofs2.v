From Verif Require Import Base RBase CBase OptModel ThinModel ThinSpec ThinProofs.
From Coquelicot Require Import Coquelicot.
Open Scope R_scope.
Section S.
  Variables (n : list C) (d : list R) (theta lam : R).
  Hypothesis Hlam : 0 < lam.
  Let nn := ith n.
  Let q2 := q2 nn theta lam.
  Lemma kz_sq j : Cmult (tf_kz n theta lam j) (tf_kz n theta lam j) = q2 j.
  Proof.
    unfold tf_kz. set (Z := Cminus _ _). replace (Cmult (Copp (csqrt Z)) (Copp (csqrt Z))) with (Cmult (csqrt Z) (csqrt Z)) by ring. rewrite csqrt_sq.
    unfold Z, tf_kx, q2, ThinSpec.q2, nn, k0. unfold Cdiv. rewrite <- !RtoC_inv by lra. unfold Rdiv. rewrite !RtoC_mult. ring.
  Qed.
  Lemma kz_low j : q2 j <> RtoC 0 -> low (tf_kz n theta lam j).
  Proof. intros H. rewrite <- kz_sq in H. unfold tf_kz in *. apply csqrt_low. intros E. apply H. rewrite E. set (Z := csqrt _). replace (Cmult (Copp Z) (Copp Z)) with (Cmult Z Z) by ring. unfold Z. apply csqrt_sq. Qed.
  Lemma kzz_weight tm j : nn j <> RtoC 0 -> tf_kzz n theta lam tm j = Cmult (weight nn tm j) (tf_kz n theta lam j).
  Proof. intros H. unfold tf_kzz, weight, Cdiv. destruct tm; [fold nn; ring|ring]. Qed.
  (* wave numbers of passive media *)
  Lemma kzz_low tm j : 0 < fst (nn j) -> snd (nn j) <= 0 -> snd (nn 0%nat) = 0 -> q2 j <> RtoC 0 ->
    low (tf_kzz n theta lam tm j) /\ (fst (tf_kz n theta lam j) < 0 -> fst (tf_kzz n theta lam tm j) < 0).
  Proof.
    intros Ha Hb H0 Hq. pose proof (kz_low j Hq) as L. destruct tm; [|split; [exact L|auto]]. unfold tf_kzz. fold nn.
    pose proof (kz_sq j) as E. unfold q2, ThinSpec.q2 in E. fold nn in E. destruct (tf_kz n theta lam j) as [al be]. destruct (nn j) as [a b]. destruct (nn 0%nat) as [c c']. cbn [fst snd] in *. subst c'.
    set (K := k0 lam * k0 lam) in *. assert (KP : 0 < K). { unfold K, k0. pose proof PI_RGT_0. assert (0 < 2 * PI / lam) by (apply Rdiv_lt_0_compat; lra). nra. }
    assert (E1 := f_equal fst E). assert (E2 := f_equal snd E). cbn in E1, E2. clear E.
    set (s := (c * c - 0 * 0) * (sin theta * sin theta) - (c * 0 + 0 * c) * 0) in *. assert (SP : 0 <= s). { unfold s. replace ((c * c - 0 * 0) * (sin theta * sin theta) - (c * 0 + 0 * c) * 0) with ((c * sin theta) * (c * sin theta)) by ring. nra. }
    assert (D : 0 < (a * a - b * b) * (a * a - b * b) + (2 * a * b) * (2 * a * b)).
    { replace ((a * a - b * b) * (a * a - b * b) + (2 * a * b) * (2 * a * b)) with ((a * a + b * b) * (a * a + b * b)) by ring. assert (0 < a * a + b * b) by nra. nra. }
    assert (V : Cdiv (al, be) (Cmult (a, b) (a, b)) = Cmult (RtoC (/ ((a * a - b * b) * (a * a - b * b) + (2 * a * b) * (2 * a * b)))) (al * (a * a - b * b) + be * (2 * a * b), be * (a * a - b * b) - al * (2 * a * b))).
    { apply C_eq; unfold Cdiv, Cinv, Cmult, RtoC; cbn [fst snd]; field; nra. }
    rewrite V. set (iD := / _). assert (IP : 0 < iD) by (apply Rinv_0_lt_compat; exact D).
    assert (F1 : al * al - be * be = K * (a * a - b * b - s)) by lra.
    assert (F2 : al * be = K * a * b) by lra. clear E1 E2 V D.
    cbn [fst].
    assert (B0 : b = 0 -> al < 0 -> fst (Cmult (RtoC iD) (al * (a * a - b * b) + be * (2 * a * b), be * (a * a - b * b) - al * (2 * a * b))) < 0).
    { intros -> A. assert (0 < a * a) by nra. cbn [fst snd Cmult RtoC].
      replace (iD * (al * (a * a - 0 * 0) + be * (2 * a * 0)) - 0 * (be * (a * a - 0 * 0) - al * (2 * a * 0))) with ((iD * (a * a)) * al) by ring. assert (0 < iD * (a * a)) by nra. nra. }
    assert (B1 : b <> 0 -> fst (Cmult (RtoC iD) (al * (a * a - b * b) + be * (2 * a * b), be * (a * a - b * b) - al * (2 * a * b))) < 0).
    { intros Hb'. assert (Bn : b < 0) by lra. assert (AB : al * be < 0) by (rewrite F2; assert (0 < K * a) by nra; nra).
      assert (A0 : al < 0). { destruct L as [L|[L1 L2]]; cbn [fst snd] in *; [exact L|]. subst al. lra. }
      cbn [fst snd Cmult RtoC].
      assert (G : K * (al * (a * a - b * b) + be * (2 * a * b)) = al * (al * al + be * be + K * s)).
      { replace (K * (al * (a * a - b * b) + be * (2 * a * b))) with (al * (K * (a * a - b * b - s)) + al * (K * s) + 2 * be * (K * a * b)) by ring. rewrite <- F1, <- F2. ring. }
      assert (P : 0 < al * al + be * be + K * s) by nra. assert (G2 : al * (a * a - b * b) + be * (2 * a * b) < 0) by nra.
      set (X := al * (a * a - b * b) + be * (2 * a * b)) in *. replace (iD * X - _) with (iD * X) by ring. nra. }
    destruct (Req_dec b 0) as [Hb'|Hb']; split.
    - destruct L as [L|[L1 L2]]; cbn [fst snd] in *; [left; auto|right]. subst al b. assert (0 < a * a) by nra. cbn [fst snd Cmult RtoC].
      split; [ring|]. replace (iD * (be * (a * a - 0 * 0) - 0 * (2 * a * 0)) + 0 * (0 * (a * a - 0 * 0) + be * (2 * a * 0))) with ((iD * (a * a)) * be) by ring. assert (0 < iD * (a * a)) by nra. nra.
    - auto.
    - left. auto.
    - auto.
  Qed.
  (* one interface *)
  Variable tm : bool.
  Let kz := tf_kz n theta lam.
  Let kzz := tf_kzz n theta lam tm.
  Let ep j z := cexp (Cmult (Cmult Ci (kz j)) (RtoC z)).
  Let em j z := cexp (Cmult (Cmult (Copp Ci) (kz j)) (RtoC z)).
  Lemma ep_em j z : Cmult (ep j z) (em j z) = RtoC 1.
  Proof. unfold ep, em. rewrite <- (cexp_inv (Cmult (Cmult Ci (kz j)) (RtoC z))). f_equal. f_equal. ring. Qed.
  Definition act (A : m2) (p q : C) : C * C := (Cplus (Cmult (a00 A) p) (Cmult (a01 A) q), Cplus (Cmult (a10 A) p) (Cmult (a11 A) q)).
  Lemma act_mul A B p q : act (mmul A B) p q = act A (fst (act B p q)) (snd (act B p q)).
  Proof. unfold act, mmul. cbn [fst snd a00 a01 a10 a11]. f_equal; ring. Qed.
  Lemma RtoC_ne (r : R) : r <> 0 -> RtoC r <> RtoC 0. Proof. intros H E. apply H. now apply RtoC_inj. Qed.
  Lemma two : Cplus (RtoC 1) (RtoC 1) = RtoC 2. Proof. rewrite <- RtoC_plus. f_equal. Qed.
  Lemma cancel (c a b : C) : c <> RtoC 0 -> Cmult c a = Cmult c b -> a = b.
  Proof. intros X H'. apply (f_equal (Cmult (Cinv c))) in H'. now rewrite !Cmult_assoc, !Cinv_l, !Cmult_1_l in H'. Qed.
  Lemma iface_iff j p q p' q' : kzz j <> RtoC 0 -> Cplus (kzz j) (kzz (S j)) <> RtoC 0 ->
    ((p, q) = act (tf_mat n d theta lam tm j) p' q' <->
     Cplus (Cmult p (ep j (rth d j))) (Cmult q (em j (rth d j))) = Cplus p' q' /\
     Cmult (kzz j) (Cminus (Cmult p (ep j (rth d j))) (Cmult q (em j (rth d j)))) = Cmult (kzz (S j)) (Cminus p' q')).
  Proof.
    intros K1 K2. pose proof (ep_em j (rth d j)) as E. unfold act, tf_mat. cbn [a00 a01 a10 a11]. fold kz. fold kzz. fold (ep j (rth d j)). fold (em j (rth d j)).
    set (e := ep j (rth d j)) in *. set (f := em j (rth d j)) in *. set (k := kzz j) in *. set (l := kzz (S j)) in *. clearbody e f k l.
    assert (T : forall x y, Cplus (Cmult (Cmult (Cdiv (Cmult (RtoC (/ 2)) (Cplus k l)) k) x) p') (Cmult (Cmult (Cdiv (Cmult (RtoC (/ 2)) (Cplus k l)) k) (Cmult (Cdiv (Cminus k l) (Cplus k l)) x)) q') = y <->
       Cmult x (Cplus (Cmult k (Cplus p' q')) (Cmult l (Cminus p' q'))) = Cmult (RtoC 2) (Cmult k y)).
    { intros x y. set (L := Cplus (Cmult _ _) _). assert (EL : Cmult (RtoC 2) (Cmult k L) = Cmult x (Cplus (Cmult k (Cplus p' q')) (Cmult l (Cminus p' q')))).
      { unfold L. rewrite RtoC_inv by lra. field. repeat split; auto. apply RtoC_ne; lra. }
      rewrite <- EL. split; [now intros ->|]. intros H. assert (X : Cmult (RtoC 2) k <> RtoC 0) by (apply Cmult_neq_0; [apply RtoC_ne; lra|auto]).
      assert (H' : Cmult (Cmult (RtoC 2) k) L = Cmult (Cmult (RtoC 2) k) y) by (rewrite <- !Cmult_assoc; exact H).
      exact (cancel _ _ _ X H'). }
    assert (T' : forall x y, Cplus (Cmult (Cmult (Cdiv (Cmult (RtoC (/ 2)) (Cplus k l)) k) (Cmult (Cdiv (Cminus k l) (Cplus k l)) x)) p') (Cmult (Cmult (Cdiv (Cmult (RtoC (/ 2)) (Cplus k l)) k) x) q') = y <->
       Cmult x (Cminus (Cmult k (Cplus p' q')) (Cmult l (Cminus p' q'))) = Cmult (RtoC 2) (Cmult k y)).
    { intros x y. set (L := Cplus (Cmult _ _) _). assert (EL : Cmult (RtoC 2) (Cmult k L) = Cmult x (Cminus (Cmult k (Cplus p' q')) (Cmult l (Cminus p' q')))).
      { unfold L. rewrite RtoC_inv by lra. field. repeat split; auto. apply RtoC_ne; lra. }
      rewrite <- EL. split; [now intros ->|]. intros H. assert (X : Cmult (RtoC 2) k <> RtoC 0) by (apply Cmult_neq_0; [apply RtoC_ne; lra|auto]).
      assert (H' : Cmult (Cmult (RtoC 2) k) L = Cmult (Cmult (RtoC 2) k) y) by (rewrite <- !Cmult_assoc; exact H).
      exact (cancel _ _ _ X H'). }
    assert (N2 : RtoC 2 <> RtoC 0) by (apply RtoC_ne; lra).
    set (U := Cplus p' q'). set (W := Cmult l (Cminus p' q')). split.
    - intros H. injection H as H1 H2. symmetry in H1, H2. apply T in H1. apply T' in H2. fold W in H1, H2. fold U in H1, H2.
      assert (Q1 : Cplus (Cmult k U) W = Cmult (RtoC 2) (Cmult k (Cmult p e))).
      { transitivity (Cmult e (Cmult f (Cplus (Cmult k U) W))); [rewrite Cmult_assoc, E; ring|]. rewrite H1. ring. }
      assert (Q2 : Cminus (Cmult k U) W = Cmult (RtoC 2) (Cmult k (Cmult q f))).
      { transitivity (Cmult f (Cmult e (Cminus (Cmult k U) W))); [rewrite Cmult_assoc, (Cmult_comm f e), E; ring|]. rewrite H2. ring. }
      clear H1 H2 T T'. set (P := Cmult p e) in *. set (Q := Cmult q f) in *. split.
      + apply (cancel (Cmult (RtoC 2) k)); [apply Cmult_neq_0; auto|]. transitivity (Cplus (Cmult (RtoC 2) (Cmult k P)) (Cmult (RtoC 2) (Cmult k Q))); [ring|]. rewrite <- Q1, <- Q2. rewrite <- two. ring.
      + apply (cancel (RtoC 2)); auto. transitivity (Cminus (Cmult (RtoC 2) (Cmult k P)) (Cmult (RtoC 2) (Cmult k Q))); [ring|]. rewrite <- Q1, <- Q2. rewrite <- two. ring.
    - intros [H1 H2]. f_equal; symmetry; [apply T|apply T']; clear T T'; fold W; fold U; rewrite <- H1, <- H2.
      + transitivity (Cmult (Cmult e f) (Cmult (RtoC 2) (Cmult k p))); [rewrite <- two; ring|]. rewrite E. ring.
      + transitivity (Cmult (Cmult e f) (Cmult (RtoC 2) (Cmult k q))); [rewrite <- two; ring|]. rewrite E. ring.
  Qed.
End S.
