From Verif Require Import Base RBase CBase OptModel ThinModel ThinSpec ThinProofs ThinProofs2 ThinProofs3 ThinProofs4 ThinProofs5.
From Coquelicot Require Import Coquelicot.
Open Scope R_scope.
Section L.
  Variables (n0 : C) (theta lam : R) (tm : bool).
  Definition kzf (a : C) : C := tf_kz (n0 :: a :: nil) theta lam 1.
  Definition kzzf (a : C) : C := if tm then Cdiv (kzf a) (Cmult a a) else kzf a.
  Definition mat1 (a : C) (x : R) (b : C) : m2 :=
    let eep := cexp (Cmult (Cmult (Copp Ci) (kzf a)) (RtoC x)) in
    let eem := cexp (Cmult (Cmult Ci (kzf a)) (RtoC x)) in
    let tin := Cdiv (Cmult (RtoC (/ 2)) (Cplus (kzzf a) (kzzf b))) (kzzf a) in
    let ri := Cdiv (Cminus (kzzf a) (kzzf b)) (Cplus (kzzf a) (kzzf b)) in
    mkm2 (Cmult tin eep) (Cmult tin (Cmult ri eep)) (Cmult tin (Cmult ri eem)) (Cmult tin eem).
  Fixpoint lp (l : list (C * R)) : m2 :=
    match l with (a, x) :: (((b, _) :: _) as t) => mmul (mat1 a x b) (lp t) | _ => eye2 end.
  Lemma lp_cons a x b y t : lp ((a, x) :: (b, y) :: t) = mmul (mat1 a x b) (lp ((b, y) :: t)). Proof. reflexivity. Qed.
  Lemma lp_ctx pre : forall a x x' t t', lp ((a, x) :: t) = lp ((a, x') :: t') -> lp (pre ++ (a, x) :: t) = lp (pre ++ (a, x') :: t').
  Proof.
    induction pre as [|[p xp] pre IH]; intros a x x' t t' H; [exact H|]. cbn [app]. destruct pre as [|[q xq] pre]; cbn [app] in *.
    - rewrite !lp_cons. now rewrite H.
    - rewrite !lp_cons. f_equal. now apply IH.
  Qed.
  Lemma lp_ctx2 pre : forall p xp t t', lp ((p, xp) :: t) = lp ((p, xp) :: t') -> lp (pre ++ (p, xp) :: t) = lp (pre ++ (p, xp) :: t').
  Proof. intros. now apply lp_ctx. Qed.
  Lemma same_mat a x y b : kzzf a <> RtoC 0 -> mmul (mat1 a x a) (mat1 a y b) = mat1 a (x + y) b.
  Proof.
    intros K. assert (N2 : RtoC 2 <> RtoC 0) by (apply RtoC_ne; lra).
    assert (T : Cdiv (Cmult (RtoC (/ 2)) (Cplus (kzzf a) (kzzf a))) (kzzf a) = RtoC 1). { rewrite RtoC_inv by lra. rewrite <- two in *. field. auto. }
    assert (R0 : Cdiv (Cminus (kzzf a) (kzzf a)) (Cplus (kzzf a) (kzzf a)) = RtoC 0). { unfold Cdiv. ring. }
    unfold mat1, mmul. cbn [a00 a01 a10 a11]. rewrite T, R0.
    assert (E1 : cexp (Cmult (Cmult (Copp Ci) (kzf a)) (RtoC (x + y))) = Cmult (cexp (Cmult (Cmult (Copp Ci) (kzf a)) (RtoC x))) (cexp (Cmult (Cmult (Copp Ci) (kzf a)) (RtoC y)))). { rewrite <- cexp_add. f_equal. rewrite RtoC_plus. ring. }
    assert (E2 : cexp (Cmult (Cmult Ci (kzf a)) (RtoC (x + y))) = Cmult (cexp (Cmult (Cmult Ci (kzf a)) (RtoC x))) (cexp (Cmult (Cmult Ci (kzf a)) (RtoC y)))). { rewrite <- cexp_add. f_equal. rewrite RtoC_plus. ring. }
    rewrite E1, E2. f_equal; ring.
  Qed.
  Lemma thin_mat a x b c : kzzf a <> RtoC 0 -> kzzf b <> RtoC 0 -> Cplus (kzzf a) (kzzf b) <> RtoC 0 -> Cplus (kzzf b) (kzzf c) <> RtoC 0 -> Cplus (kzzf a) (kzzf c) <> RtoC 0 ->
    mmul (mat1 a x b) (mat1 b 0 c) = mat1 a x c.
  Proof.
    intros K1 K2 K3 K4 K5. assert (N2 : RtoC 2 <> RtoC 0) by (apply RtoC_ne; lra).
    assert (Z1 : cexp (Cmult (Cmult (Copp Ci) (kzf b)) (RtoC 0)) = RtoC 1). { rewrite <- cexp_0. f_equal. ring. }
    assert (Z2 : cexp (Cmult (Cmult Ci (kzf b)) (RtoC 0)) = RtoC 1). { rewrite <- cexp_0. f_equal. ring. }
    unfold mat1, mmul. cbn [a00 a01 a10 a11]. rewrite Z1, Z2, !RtoC_inv by lra. set (A := kzzf a) in *. set (B := kzzf b) in *. set (D := kzzf c) in *. rewrite <- two in *.
    f_equal; field; repeat split; auto.
  Qed.
End L.
Lemma tf_mat_eq n d theta lam tm i : tf_mat n d theta lam tm i = mat1 (ith n 0) theta lam tm (ith n i) (rth d i) (ith n (S i)).
Proof. reflexivity. Qed.
Lemma kzz_eq n theta lam tm i : tf_kzz n theta lam tm i = kzzf (ith n 0) theta lam tm (ith n i). Proof. reflexivity. Qed.
Lemma rprod_lp f g c0 : forall (n : list C) (d : list R) s, length n = length d ->
  (forall i, (S i < length n)%nat -> f (s + i)%nat = g (nth i n c0) (nth i d 0) (nth (S i) n c0)) ->
  forall LP, (forall a x b y t, LP ((a, x) :: (b, y) :: t) = mmul (g a x b) (LP ((b, y) :: t))) -> (LP nil = eye2) -> (forall a, LP (a :: nil) = eye2) ->
  rprod f s (length n - 1) = LP (combine n d).
Proof.
  induction n as [|a n IH]; intros d s E F LP L1 L2 L3; [cbn; auto|]. destruct d as [|x d]; [discriminate|]. cbn [combine length]. rewrite Nat.sub_succ, Nat.sub_0_r.
  destruct n as [|b n]; [cbn; auto|]. destruct d as [|y d]; [discriminate|]. cbn [length combine]. rewrite L1. cbn [rprod]. f_equal.
  - specialize (F 0%nat ltac:(cbn; lia)). rewrite Nat.add_0_r in F. exact F.
  - specialize (IH (y :: d) (S s) ltac:(cbn in *; lia)). cbn [length] in IH. rewrite Nat.sub_succ, Nat.sub_0_r in IH. apply IH; auto.
    intros i Hi. specialize (F (S i) ltac:(cbn in *; lia)). rewrite Nat.add_succ_r in F. cbn [nth] in F |- *. exact F.
Qed.
Lemma prod_lp n d theta lam tm : length n = length d -> tf_prod n d theta lam tm = lp (ith n 0) theta lam tm (combine n d).
Proof.
  intros E. rewrite prod_eq. apply (rprod_lp _ (mat1 (ith n 0) theta lam tm) (RtoC 0) n d 0 E); auto. intros [a x]; reflexivity.
Qed.

(* equal products and equal end indices give equal answers *)
Lemma solver_eq n d0 n' d0' theta lam tm : Z.of_nat (length d0) = (Z.of_nat (length n) - 2)%Z -> Z.of_nat (length d0') = (Z.of_nat (length n') - 2)%Z ->
  ith n 0 = ith n' 0 -> ith n (length n - 1) = ith n' (length n' - 1) ->
  tf_prod n ((0 :: d0) ++ 0 :: nil) theta lam tm = tf_prod n' ((0 :: d0') ++ 0 :: nil) theta lam tm -> solver n d0 theta lam tm = solver n' d0' theta lam tm.
Proof.
  intros L L' H0 HL HA. unfold solver. apply Z.eqb_eq in L, L'. rewrite L, L'. cbn [negb]. rewrite HA.
  assert (K0 : tf_kz n theta lam 0 = tf_kz n' theta lam 0) by (unfold tf_kz, tf_kx; now rewrite H0).
  assert (KL : tf_kz n theta lam (length n - 1) = tf_kz n' theta lam (length n' - 1)) by (unfold tf_kz, tf_kx; now rewrite H0, HL).
  rewrite K0, KL, H0, HL. reflexivity.
Qed.
Lemma len_Z (a b : nat) : Z.of_nat a = (Z.of_nat b - 2)%Z -> b = S (S a). Proof. lia. Qed.
Lemma ith_app_last pre b post : ith (pre ++ b :: post) (length (pre ++ b :: post) - 1) = ith (b :: post) (length (b :: post) - 1).
Proof. unfold ith. rewrite app_length. cbn [length]. rewrite app_nth2 by lia. f_equal. lia. Qed.
Lemma combine_app2 {A B} (a : list A) (b : list B) a' b' : length a = length b -> combine (a ++ a') (b ++ b') = combine a b ++ combine a' b'.
Proof. revert b. induction a as [|x a IH]; intros [|y b] H; try discriminate; [reflexivity|]. cbn [app combine]. f_equal. apply IH. cbn in H. lia. Qed.
Section T.
  Variables (theta lam : R) (tm : bool) (pre post : list C) (dpre dpost : list R) (p0 b : C).
  Hypothesis Hlam : 0 < lam.
  Hypothesis Hd : length dpre = length pre.
  Hypothesis Hp : length dpost = length post.
  Lemma comb l r : combine (p0 :: pre ++ l) ((0 :: dpre ++ r) ++ 0 :: nil) = combine (p0 :: pre) (0 :: dpre) ++ combine l (r ++ 0 :: nil).
  Proof. change (p0 :: pre ++ l) with ((p0 :: pre) ++ l). replace ((0 :: dpre ++ r) ++ 0 :: nil) with ((0 :: dpre) ++ (r ++ 0 :: nil)) by (cbn [app]; now rewrite <- app_assoc). apply combine_app2. cbn [length]. lia. Qed.
  Lemma last_b l l' : ith (p0 :: pre ++ l ++ b :: post) (length (p0 :: pre ++ l ++ b :: post) - 1) = ith (p0 :: pre ++ l' ++ b :: post) (length (p0 :: pre ++ l' ++ b :: post) - 1).
  Proof.
    assert (E : forall k, p0 :: pre ++ k ++ b :: post = (p0 :: pre ++ k) ++ b :: post) by (intros; cbn [app]; now rewrite <- app_assoc). rewrite !E, !ith_app_last. reflexivity.
  Qed.
  Lemma len_ok l r : length l = length r -> Z.of_nat (length (dpre ++ r ++ dpost)) = (Z.of_nat (length (p0 :: pre ++ l ++ b :: post)) - 2)%Z.
  Proof. intros E. cbn [length]. rewrite ?app_length. cbn [length]. lia. Qed.
  Lemma len_ok2 l r : length l = length r -> length (p0 :: pre ++ l ++ b :: post) = length ((0 :: dpre ++ r ++ dpost) ++ 0 :: nil).
  Proof. intros E. cbn [length app]. rewrite ?app_length. cbn [length]. rewrite ?app_length. cbn [length]. lia. Qed.
  Lemma insert_eq l r l' r' : length l = length r -> length l' = length r' ->
    (forall w z, lp p0 theta lam tm (combine (p0 :: pre) (0 :: dpre) ++ combine (l ++ b :: post) (r ++ w :: z)) = lp p0 theta lam tm (combine (p0 :: pre) (0 :: dpre) ++ combine (l' ++ b :: post) (r' ++ w :: z))) ->
    solver (p0 :: pre ++ l ++ b :: post) (dpre ++ r ++ dpost) theta lam tm = solver (p0 :: pre ++ l' ++ b :: post) (dpre ++ r' ++ dpost) theta lam tm.
  Proof.
    intros E E' H. apply solver_eq; [now apply len_ok|now apply len_ok|reflexivity|apply last_b|]. rewrite !prod_lp by now apply len_ok2.
    change (ith (p0 :: pre ++ l ++ b :: post) 0) with p0. change (ith (p0 :: pre ++ l' ++ b :: post) 0) with p0. rewrite !comb, <- !app_assoc. destruct (dpost ++ 0 :: nil) as [|w z] eqn:D; [destruct dpost; discriminate|]. apply H.
  Qed.
  Lemma split_prod a x y : kzzf p0 theta lam tm a <> RtoC 0 ->
    solver (p0 :: pre ++ a :: a :: b :: post) (dpre ++ x :: y :: dpost) theta lam tm = solver (p0 :: pre ++ a :: b :: post) (dpre ++ (x + y) :: dpost) theta lam tm.
  Proof.
    intros K. apply (insert_eq (a :: a :: nil) (x :: y :: nil) (a :: nil) ((x + y) :: nil)); auto. intros w z. cbn [app combine]. rewrite !(app_comm_cons (combine pre dpre)). apply lp_ctx.
    rewrite !lp_cons. rewrite <- mmul_assoc. rewrite same_mat by auto. reflexivity.
  Qed.
  Lemma zero_prod a : (forall c, In c (p0 :: pre ++ a :: b :: post) -> low (kzzf p0 theta lam tm c)) ->
    solver (p0 :: pre ++ a :: b :: post) (dpre ++ 0 :: dpost) theta lam tm = solver (p0 :: pre ++ b :: post) (dpre ++ dpost) theta lam tm.
  Proof.
    intros K. apply (insert_eq (a :: nil) (0 :: nil) nil nil); auto. intros w z. cbn [app combine].
    destruct (exists_last (l := combine (p0 :: pre) (0 :: dpre)) ltac:(cbn; discriminate)) as (init & [p xp] & E). cbn [combine] in E. rewrite !(app_comm_cons (combine pre dpre)), E, <- !app_assoc. cbn [app].
    assert (IN : In p (p0 :: pre)). { apply (in_combine_l (p0 :: pre) (0 :: dpre) p xp). cbn [combine]. rewrite E. apply in_or_app. right. now left. }
    apply lp_ctx. rewrite !lp_cons, <- mmul_assoc. rewrite thin_mat; [reflexivity|..].
    all: assert (Kp : low (kzzf p0 theta lam tm p)) by (apply K; change (p0 :: pre ++ a :: b :: post) with ((p0 :: pre) ++ a :: b :: post); apply in_or_app; now left).
    all: assert (Ka : low (kzzf p0 theta lam tm a)) by (apply K; right; apply in_or_app; right; now left).
    all: assert (Kb : low (kzzf p0 theta lam tm b)) by (apply K; right; apply in_or_app; right; right; now left).
    all: try (apply low_ne; assumption); apply low_plus; assumption.
  Qed.
End T.

Lemma passive_low n d0 theta lam tm : 0 < lam -> passive (ith n) (rth ((0 :: d0) ++ 0 :: nil)) (length n - 1) theta lam -> forall c, In c n -> low (kzzf (ith n 0) theta lam tm c).
Proof.
  intros Hl HP c Hc. destruct (In_nth n c (RtoC 0) Hc) as (i & Hi & <-). apply (kzzl n ((0 :: d0) ++ 0 :: nil) theta lam tm Hl HP i). lia.
Qed.
(* the gap above the stack *)
Lemma gap_prod p0 theta lam tm post dpost g b : kzzf p0 theta lam tm p0 <> RtoC 0 -> length dpost = length post ->
  let A := tf_prod (p0 :: p0 :: b :: post) ((0 :: g :: dpost) ++ 0 :: nil) theta lam tm in
  let B := tf_prod (p0 :: b :: post) ((0 :: dpost) ++ 0 :: nil) theta lam tm in
  a00 A = Cmult (cexp (Cmult (Cmult (Copp Ci) (tf_kz (p0 :: b :: post) theta lam 0)) (RtoC g))) (a00 B) /\
  a10 A = Cmult (cexp (Cmult (Cmult Ci (tf_kz (p0 :: b :: post) theta lam 0)) (RtoC g))) (a10 B).
Proof.
  intros K E. cbv zeta. rewrite !prod_lp by (cbn [length app]; rewrite ?app_length; cbn [length]; lia). change (ith (p0 :: p0 :: b :: post) 0) with p0. change (ith (p0 :: b :: post) 0) with p0.
  cbn [app combine]. destruct (dpost ++ 0 :: nil) as [|w z] eqn:D; [destruct dpost; discriminate|]. cbn [combine].
  rewrite !lp_cons, <- mmul_assoc, same_mat by auto. rewrite Rplus_0_l.
  assert (M : forall x, mat1 p0 theta lam tm p0 x b = mmul (mat1 p0 theta lam tm p0 x p0) (mat1 p0 theta lam tm p0 0 b)) by (intros; rewrite same_mat, Rplus_0_r by auto; reflexivity).
  rewrite (M g), mmul_assoc. set (X := mmul (mat1 p0 theta lam tm p0 0 b) _). unfold mmul, mat1. cbn [a00 a10 a01 a11].
  change (tf_kz (p0 :: b :: post) theta lam 0) with (kzf p0 theta lam p0). set (k := kzzf p0 theta lam tm p0) in *. assert (N2 : RtoC 2 <> RtoC 0) by (apply RtoC_ne; lra).
  assert (T : Cdiv (Cmult (RtoC (/ 2)) (Cplus k k)) k = RtoC 1). { rewrite RtoC_inv by lra. rewrite <- two in *. field. auto. }
  rewrite T. replace (Cdiv (Cminus k k) (Cplus k k)) with (RtoC 0) by (unfold Cdiv; ring). split; ring.
Qed.
