From Verif Require Import Base RBase CBase OptModel ThinModel ThinSpec ThinProofs ThinProofs2 ThinProofs3 ThinProofs4.
From Coquelicot Require Import Coquelicot.
Open Scope R_scope.
Definition Pn_of (n : list C) (theta lam : R) (tm : bool) : R := fst (Cdiv (tf_kzz n theta lam tm (length n - 1)) (tf_kzz n theta lam tm 0)).
Lemma solver_ok n d0 theta lam tm o : solver n d0 theta lam tm = Ok o ->
  Z.of_nat (length d0) = (Z.of_nat (length n) - 2)%Z /\ 0 <= theta /\ 0 < lam /\
  let A := tf_prod n ((0 :: d0) ++ 0 :: nil) theta lam tm in
  let Pn := Pn_of n theta lam tm in
  o = mktf (Cmod (Cdiv (a10 A) (a00 A)) * Cmod (Cdiv (a10 A) (a00 A))) (Pn * (Cmod (Cdiv (RtoC 1) (a00 A)) * Cmod (Cdiv (RtoC 1) (a00 A)))) (Cdiv (a10 A) (a00 A)) (Cmult (RtoC (sqrt Pn)) (Cdiv (RtoC 1) (a00 A))).
Proof.
  unfold solver. destruct (Z.eqb_spec (Z.of_nat (length d0)) (Z.of_nat (length n) - 2)) as [E|E]; cbn [negb]; [|discriminate].
  destruct (Rlt_dec theta 0); [discriminate|]. destruct (Rle_dec lam 0); [discriminate|]. intros H. injection H as <-. split; [exact E|]. split; [lra|]. split; [lra|].
  cbv zeta. unfold Pn_of, tf_kzz. destruct tm; reflexivity.
Qed.
Lemma solver_raise n d0 theta lam tm e : solver n d0 theta lam tm = Raise e ->
  (Z.of_nat (length d0) <> (Z.of_nat (length n) - 2)%Z /\ e = ValueError) \/ (Z.of_nat (length d0) = (Z.of_nat (length n) - 2)%Z /\ (theta < 0 \/ lam <= 0) /\ e = TypeError).
Proof.
  unfold solver. destruct (Z.eqb_spec (Z.of_nat (length d0)) (Z.of_nat (length n) - 2)) as [E|E]; cbn [negb].
  - destruct (Rlt_dec theta 0); [|destruct (Rle_dec lam 0); [|discriminate]]; intros H; injection H as <-; right; auto.
  - intros H; injection H as <-; left; auto.
Qed.
Section P.
  Variables (n : list C) (d : list R) (theta lam : R) (tm : bool).
  Hypothesis Hlam : 0 < lam.
  Let last := (length n - 1)%nat.
  Hypothesis HP : passive (ith n) (rth d) last theta lam.
  Let A := tf_prod n d theta lam tm.
  Let kz := tf_kz n theta lam.
  Let kzz := tf_kzz n theta lam tm.
  Lemma Pn_val : Pn_of n theta lam tm = fst (kzz last) / fst (kzz 0%nat) /\ 0 < Pn_of n theta lam tm.
  Proof.
    destruct (kzz0_real n d theta lam tm Hlam HP) as [Z N]. pose proof (kzzL_neg n d theta lam tm Hlam HP) as L. fold last in L. fold kzz in Z, N, L.
    assert (E : Pn_of n theta lam tm = fst (kzz last) / fst (kzz 0%nat)).
    { unfold Pn_of. fold last. fold kzz. destruct (kzz 0%nat) as [a b], (kzz last) as [x y]. cbn [fst snd] in *. subst b. unfold Cdiv, Cinv. cbn [fst snd Cmult]. field. lra. }
    split; [exact E|]. rewrite E. replace (fst (kzz last) / fst (kzz 0%nat)) with ((- fst (kzz last)) / (- fst (kzz 0%nat))) by (field; lra). apply Rdiv_lt_0_compat; lra.
  Qed.
  (* A t for t = 1 / A00 *)
  Lemma exists_response : exists u v, response (ith n) (rth d) last theta lam tm u v (Cdiv (a10 A) (a00 A)) (Cdiv (RtoC 1) (a00 A)).
  Proof.
    set (t := Cdiv (RtoC 1) (a00 A)). pose proof (A00_ne n d theta lam tm Hlam HP) as NA. fold A in NA.
    exists (fun j => wv n theta lam j (fst (amp n d theta lam tm t j)) (snd (amp n d theta lam tm t j))), (fun j => dwv n theta lam j (fst (amp n d theta lam tm t j)) (snd (amp n d theta lam tm t j))).
    split; [apply amp_maxwell; auto|]. split.
    - exists (Copp (kz 0%nat)). split; [exact (down_0 n d theta lam tm Hlam HP)|]. rewrite wv0, dwv0, amp_0. cbn [fst snd]. rewrite <- prod_eq. fold A. fold kz. unfold t, Cdiv.
      split; [|]; field_simplify; auto. 
      all: try (field; auto).
    - exists (Copp (kz last)). split; [exact (down_last n d theta lam tm Hlam HP)|]. rewrite wv0, dwv0. unfold last. rewrite amp_last. cbn [fst snd]. fold last. fold kz. split; ring.
  Qed.
  Lemma response_unique u v r t : response (ith n) (rth d) last theta lam tm u v r t ->
    Cdiv (a10 A) (a00 A) = r /\ Cdiv (RtoC 1) (a00 A) = t /\
    flux (ith n) tm u v last 0 = - fst (kzz last) * abs2 t.
  Proof.
    intros (MX & (k & Hk & U0 & V0) & (l & Hl & UL & VL)). pose proof (A00_ne n d theta lam tm Hlam HP) as NA. fold A in NA.
    apply (down_unique n d theta lam Hlam HP) in Hk; [|lia]. apply (down_unique n d theta lam Hlam HP) in Hl; [|unfold last; lia]. fold kz in Hk, Hl. subst k l.
    destruct (general n d theta lam tm Hlam HP u v last MX (le_n _)) as (p & q & G).
    assert (KL := ik_ne n d theta lam Hlam HP last (le_n _)). fold kz in KL.
    assert (PQ : p = t /\ q = RtoC 0).
    { destruct (G 0) as [G1 G2]. rewrite wv0 in G1. rewrite dwv0 in G2. fold kz in G2. rewrite UL in G1. rewrite VL in G2.
      assert (X : t = Cminus p q). { apply (cancel _ _ _ KL). rewrite <- G2. ring. }
      assert (N2 : RtoC 2 <> RtoC 0) by (apply RtoC_ne; lra). split.
      - apply (cancel (RtoC 2) _ _ N2). rewrite <- two. transitivity (Cplus (Cplus p q) (Cminus p q)); [ring|]. rewrite <- G1, <- X. ring.
      - apply (cancel (RtoC 2) _ _ N2). rewrite <- two. transitivity (Cminus (Cplus p q) (Cminus p q)); [ring|]. rewrite <- G1, <- X. ring. }
    destruct PQ as [-> ->]. pose proof (amp_unique n d theta lam tm Hlam HP u v t MX G 0%nat ltac:(lia) 0) as [B1 B2].
    rewrite wv0 in B1. rewrite dwv0 in B2. rewrite amp_0 in B1, B2. cbn [fst snd] in B1, B2. rewrite <- prod_eq in B1, B2. fold A in B1, B2. fold kz in B2. rewrite U0 in B1. rewrite V0 in B2.
    assert (K0 := ik_ne n d theta lam Hlam HP 0%nat ltac:(lia)). fold kz in K0.
    assert (X : Cminus (RtoC 1) r = Cminus (Cmult (a00 A) t) (Cmult (a10 A) t)). { apply (cancel _ _ _ K0). rewrite <- B2. ring. }
    assert (N2 : RtoC 2 <> RtoC 0) by (apply RtoC_ne; lra).
    assert (Y1 : Cmult (a00 A) t = RtoC 1). { apply (cancel (RtoC 2) _ _ N2). rewrite <- two. transitivity (Cplus (Cplus (Cmult (a00 A) t) (Cmult (a10 A) t)) (Cminus (Cmult (a00 A) t) (Cmult (a10 A) t))); [ring|]. rewrite <- B1, <- X. ring. }
    assert (Y2 : Cmult (a10 A) t = r). { apply (cancel (RtoC 2) _ _ N2). rewrite <- two. transitivity (Cminus (Cplus (Cmult (a00 A) t) (Cmult (a10 A) t)) (Cminus (Cmult (a00 A) t) (Cmult (a10 A) t))); [ring|]. rewrite <- B1, <- X. ring. }
    assert (T : Cdiv (RtoC 1) (a00 A) = t). { rewrite <- Y1. field. exact NA. }
    split; [|split; [exact T|]].
    - rewrite <- Y2, <- T. field. exact NA.
    - pose proof (flux_waves n d theta lam tm HP last t (RtoC 0) (le_n _) (or_intror eq_refl)) as F. fold kzz in F. replace (abs2 t - abs2 (RtoC 0)) with (abs2 t) in F by (unfold abs2; cbn; ring). rewrite <- F. unfold flux. destruct (G 0) as [G1 G2]. now rewrite G1, G2.
  Qed.
  Lemma abs2_div1 (a b : C) : b <> RtoC 0 -> abs2 (Cdiv a b) = abs2 a * abs2 (Cdiv (RtoC 1) b).
  Proof. intros H. rewrite <- abs2_mult. f_equal. field. exact H. Qed.
  Lemma energy_bound : let r := Cdiv (a10 A) (a00 A) in let t := Cdiv (RtoC 1) (a00 A) in
    abs2 r + Pn_of n theta lam tm * abs2 t <= 1 /\ (transparent (ith n) last -> abs2 r + Pn_of n theta lam tm * abs2 t = 1) /\ 0 < abs2 t.
  Proof.
    intros r t. pose proof (A00_ne n d theta lam tm Hlam HP) as NA. fold A in NA. destruct (balance n d theta lam tm Hlam HP t) as [B1 B2].
    fold A in B1, B2. fold last in B1, B2. fold kzz in B1, B2. destruct (kzz0_real n d theta lam tm Hlam HP) as [Z N]. fold kzz in Z, N.
    assert (E0 : Cmult (a00 A) t = RtoC 1) by (unfold t; field; auto). assert (E1 : Cmult (a10 A) t = r) by (unfold t, r; field; auto). rewrite E0, E1 in B1, B2.
    assert (O : abs2 (RtoC 1) = 1) by (unfold abs2; cbn; ring). rewrite O in B1, B2. destruct Pn_val as [P _]. rewrite P.
    assert (Q : fst (kzz last) / fst (kzz 0%nat) * abs2 t * (- fst (kzz 0%nat)) = - fst (kzz last) * abs2 t) by (field; lra).
    split; [|split].
    - set (X := fst (kzz last) / fst (kzz 0%nat) * abs2 t) in *. nra.
    - intros HT. specialize (B2 HT). set (X := fst (kzz last) / fst (kzz 0%nat) * abs2 t) in *. nra.
    - assert (S : abs2 (a00 A) * abs2 t = 1) by (rewrite <- abs2_mult, E0; exact O). assert (0 <= abs2 t) by (unfold abs2; nra). destruct (Req_dec (abs2 t) 0) as [W|W]; [rewrite W in S; lra|lra].
  Qed.
End P.
