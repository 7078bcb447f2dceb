(* Proofs for C84: the obscured polynomials *)
From Coq Require Import Factorial.
From Coquelicot Require Import Coquelicot.
From Verif Require Import Base RBase StrBase CBase EstModel ZrnModel ZrnSpec ZrnProofs ZrnProofs2 ZrnProofs3 ZrnProofs4.
Open Scope R_scope.
Definition pval (l : list (R * nat)) (r : R) : R := rsuml (map (fun cp => fst cp * r ^ snd cp) l).
Fixpoint pint1 (c : R) (p : nat) (l : list (R * nat)) (a : R) : R :=
  match l with [] => 0 | (d, q) :: k => c * d * ((1 - a ^ (p + q + 1 + 1)) / INR (p + q + 1 + 1)) + pint1 c p k a end.
Fixpoint pint (l l' : list (R * nat)) (a : R) : R := match l with [] => 0 | (c, p) :: k => pint1 c p l' a + pint k l' a end.
Lemma pval_cons c p l r : pval ((c, p) :: l) r = c * r ^ p + pval l r.
Proof. reflexivity. Qed.
Lemma int_zero a b : is_RInt (fun _ : R => 0) a b 0.
Proof. eapply is_RInt_val; [|apply (is_RInt_const a b 0)]. unfold scal; cbn; unfold mult; cbn. ring. Qed.
Lemma int_pint1 c p l a : is_RInt (fun r => c * r ^ p * pval l r * r) a 1 (pint1 c p l a).
Proof.
  induction l as [|(d, q) l IH]; unfold pval in *; cbn [map rsuml fst snd pint1].
  - eapply is_RInt_ext'; [|apply int_zero]. intros r; cbv beta; ring.
  - eapply is_RInt_ext'; [|apply int_plus; [apply (int_scal (c * d) (fun r => r ^ (p + q + 1)) a 1 ((1 - a ^ (p + q + 1 + 1)) / INR (p + q + 1 + 1)))|apply IH]].
    + intros r. cbv beta. rewrite !pow_add, pow_1. ring.
    + eapply is_RInt_val; [|apply int_pow]. now rewrite pow1.
Qed.
Lemma int_pint l l' a : is_RInt (fun r => pval l r * pval l' r * r) a 1 (pint l l' a).
Proof.
  induction l as [|(c, p) l IH]; cbn [pint].
  - eapply is_RInt_ext'; [|apply int_zero]. intros r; unfold pval; cbn; ring.
  - eapply is_RInt_ext'; [|apply int_plus; [apply (int_pint1 c p l' a)|apply IH]]. intros r. rewrite pval_cons. ring.
Qed.
(* mean of the product of two modes *)
Lemma mean_modes a s s' l l' m c m' c' w : a <> 1 -> a <> -1 -> s * s' * pint l l' a * ang_ip m c m' c' = w * (PI * (1 - a ^ 2)) ->
  annulus_mean a (fun r t => (s * pval l r * ang m c t) * (s' * pval l' r * ang m' c' t)) w.
Proof.
  intros _ _ E. exists (fun t => s * s' * pint l l' a * (ang m c t * ang m' c' t)). split.
  - intros t. eapply is_RInt_ext'; [|eapply is_RInt_val; [|apply (int_scal (s * s' * (ang m c t * ang m' c' t)) _ _ _ _ (int_pint l l' a))]]; [intros r; cbv beta; ring|ring].
  - eapply is_RInt_val; [|apply int_scal, int_ang]. exact E.
Qed.
(* number -> order, cosine, scale, terms of the radial polynomial *)
Definition oscale (k : nat) (e : R) : R :=
  let e2 := e ^ 2 in let e4 := e ^ 4 in let e6 := e ^ 6 in let e8 := e ^ 8 in
  match k with
  | 1%nat => 1
  | 2%nat | 3%nat => 2 / sqrt (1 + e2)
  | 4%nat => sqrt 3 / (-1 + e2)
  | 5%nat | 6%nat => sqrt 6 / sqrt (1 + e2 + e4)
  | 7%nat | 8%nat => 2 * sqrt 2 / ((-1 + e2) * sqrt (1 + 5 * e2 + 5 * e4 + e6))
  | 9%nat | 10%nat => 2 * sqrt 2 / sqrt (1 + e2 + e4 + e6)
  | 11%nat => sqrt 5 / (-1 + e2) ^ 2
  | 12%nat | 13%nat => sqrt 10 / ((-1 + e2) * sqrt ((1 + e2 + e4) * (1 + 4 * e2 + 10 * e4 + 4 * e6 + e8)))
  | 14%nat | 15%nat => sqrt 10 / sqrt (1 + e2 + e4 + e6 + e8)
  | 16%nat | 17%nat => 2 * sqrt 3 / ((-1 + e2) ^ 2 * sqrt ((1 + 4 * e2 + e4) * (1 + 9 * e2 + 9 * e4 + e6)))
  | 18%nat | 19%nat => 2 * sqrt 3 / ((-1 + e2) * sqrt ((1 + e2 + e4 + e6) * (1 + 4 * e2 + 10 * e4 + 20 * e6 + 10 * e8 + 4 * e ^ 10 + e ^ 12)))
  | 20%nat | 21%nat => 2 * sqrt 3 / sqrt (1 + e2 + e4 + e6 + e8 + e ^ 10)
  | 22%nat => sqrt 7 / (-1 + e2) ^ 3
  | _ => 0
  end.
Definition opoly (k : nat) (e : R) : list (R * nat) :=
  let e2 := e ^ 2 in let e4 := e ^ 4 in let e6 := e ^ 6 in let e8 := e ^ 8 in
  match k with
  | 1%nat => [(1, 0%nat)]
  | 2%nat | 3%nat => [(1, 1%nat)]
  | 4%nat => [(1 + e2, 0%nat); (-2, 2%nat)]
  | 5%nat | 6%nat => [(1, 2%nat)]
  | 7%nat | 8%nat => [(2 + 2 * e2 + 2 * e4, 1%nat); (-3 - 3 * e2, 3%nat)]
  | 9%nat | 10%nat => [(1, 3%nat)]
  | 11%nat => [(1 + 4 * e2 + e4, 0%nat); (-6 - 6 * e2, 2%nat); (6, 4%nat)]
  | 12%nat | 13%nat => [(3 + 3 * e2 + 3 * e4 + 3 * e6, 2%nat); (-4 - 4 * e2 - 4 * e4, 4%nat)]
  | 14%nat | 15%nat => [(1, 4%nat)]
  | 16%nat | 17%nat => [(3 + 12 * e2 + 30 * e4 + 12 * e6 + 3 * e8, 1%nat); (-12 - 48 * e2 - 48 * e4 - 12 * e6, 3%nat); (10 + 40 * e2 + 10 * e4, 5%nat)]
  | 18%nat | 19%nat => [(4 + 4 * e2 + 4 * e4 + 4 * e6 + 4 * e8, 3%nat); (-5 - 5 * e2 - 5 * e4 - 5 * e6, 5%nat)]
  | 20%nat | 21%nat => [(1, 5%nat)]
  | 22%nat => [(1 + 9 * e2 + 9 * e4 + e6, 0%nat); (-12 - 36 * e2 - 12 * e4, 2%nat); (30 + 30 * e2, 4%nat); (-20, 6%nat)]
  | _ => []
  end.
Definition oang (k : nat) : nat * bool :=
  (nth k [0; 0; 1; 1; 0; 2; 2; 1; 1; 3; 3; 0; 2; 2; 4; 4; 1; 1; 3; 3; 5; 5; 0] 0, Nat.even k)%nat.
Lemma zobs_split k e r t : (1 <= k <= 22)%nat -> zobs k e r t = Some (oscale k e * pval (opoly k e) r * ang (fst (oang k)) (snd (oang k)) t).
Proof.
  intros K. do 23 (destruct k as [|k]; [try lia; unfold zobs, oscale, opoly, oang, ang, pval; cbv zeta; cbn [nth fst snd Nat.eqb Nat.even map rsuml]; f_equal; cbn [INR];
    replace (1 + 1) with 2 by ring; replace (2 + 1) with 3 by ring; replace (3 + 1) with 4 by ring; replace (4 + 1) with 5 by ring; rewrite ?Rmult_1_l; unfold Rdiv; ring|]). lia.
Qed.
