(* C73: the thin-film solver (thinfilm.solver) against the boundary-value problem of ThinSpec. *)
From Verif Require Import Base RBase CBase OptModel ThinModel ThinSpec ThinProofs ThinProofs2 ThinProofs3 ThinProofs4 ThinProofs5 ThinProofs6.
From Coquelicot Require Import Coquelicot.
Open Scope R_scope.
(* media n_0 .. n_last and thicknesses of the call solver(n, d0, ...); the outer media have thickness 0 *)
Definition medium (n : list C) (j : nat) : C := nth j n (RtoC 0).
Definition thick (d0 : list R) (j : nat) : R := nth j ((0 :: d0) ++ (0 :: nil)) 0.
Definition bottom (n : list C) : nat := (length n - 1)%nat.
(* every field that solves the boundary-value problem has the reflected amplitude rr; R and T are the reflected and transmitted shares of the incident
   power; tt is a positive multiple of the transmitted amplitude with |tt|^2 = T *)
Theorem C73_agrees_with_maxwell n d0 theta lam tm o u v r t : solver n d0 theta lam tm = Ok o ->
  passive (medium n) (thick d0) (bottom n) theta lam -> response (medium n) (thick d0) (bottom n) theta lam tm u v r t ->
  tf_rr o = r /\ tf_R o = abs2 r /\
  (exists p, incident (medium n) theta lam tm p /\ 0 < p /\ tf_T o = flux (medium n) tm u v (bottom n) 0 / p) /\
  (exists s, 0 < s /\ tf_tt o = Cmult (RtoC s) t) /\ abs2 (tf_tt o) = tf_T o.
Proof.
  intros H HP HR. destruct (solver_ok _ _ _ _ _ _ H) as (Hl & Ht & Hlam & ->). set (d := (0 :: d0) ++ 0 :: nil). set (A := tf_prod n d theta lam tm). cbn [tf_rr tf_R tf_T tf_tt].
  destruct (response_unique n d theta lam tm Hlam HP u v r t HR) as (E1 & E2 & E3). fold A in E1, E2. destruct (Pn_val n d theta lam tm Hlam HP) as [P1 P2].
  rewrite !cmod_sq, E1, E2. split; [reflexivity|]. split; [reflexivity|].
  destruct (kzz0_real n d theta lam tm Hlam HP) as [Z N].
  assert (SS : sqrt (Pn_of n theta lam tm) * sqrt (Pn_of n theta lam tm) = Pn_of n theta lam tm) by (apply sqrt_sqrt; lra).
  split; [|split].
  - exists (- fst (tf_kzz n theta lam tm 0)). split; [|split; [lra|]].
    + exists (Copp (tf_kz n theta lam 0)). split; [exact (down_0 n d theta lam tm Hlam HP)|]. rewrite (kzzw n d theta lam tm HP 0) by lia.
      change (weight (ith n) tm 0) with (weight (medium n) tm 0). destruct (weight (medium n) tm 0), (tf_kz n theta lam 0). cbn [fst snd Cmult Copp]. ring.
    + change (flux (medium n) tm u v (bottom n) 0) with (flux (ith n) tm u v (length n - 1) 0). rewrite E3, P1. field. lra.
  - exists (sqrt (Pn_of n theta lam tm)). split; [now apply sqrt_lt_R0|reflexivity].
  - rewrite abs2_mult. unfold abs2 at 1. cbn [fst snd RtoC]. rewrite SS. ring.
Qed.
Theorem C73_solution_exists n d0 theta lam tm : length n = S (S (length d0)) -> 0 <= theta -> 0 < lam -> passive (medium n) (thick d0) (bottom n) theta lam ->
  exists o u v t, solver n d0 theta lam tm = Ok o /\ response (medium n) (thick d0) (bottom n) theta lam tm u v (tf_rr o) t.
Proof.
  intros HL Ht Hlam HP. destruct (solver n d0 theta lam tm) as [o|e] eqn:H.
  - destruct (solver_ok _ _ _ _ _ _ H) as (_ & _ & _ & E). destruct (exists_response n ((0 :: d0) ++ 0 :: nil) theta lam tm Hlam HP) as (u & v & HR). exists o, u, v. eexists. split; [reflexivity|]. rewrite E. cbn [tf_rr]. exact HR.
  - exfalso. destruct (solver_raise _ _ _ _ _ _ H) as [[A _]|(_ & [A|A] & _)]; [lia|lra|lra].
Qed.
(* no stack returns more light than it gets, and a transparent one returns all of it *)
Theorem C73_energy n d0 theta lam tm o : solver n d0 theta lam tm = Ok o -> passive (medium n) (thick d0) (bottom n) theta lam ->
  0 <= tf_R o /\ 0 < tf_T o /\ tf_R o + tf_T o <= 1 /\ (transparent (medium n) (bottom n) -> tf_R o + tf_T o = 1).
Proof.
  intros H HP. destruct (solver_ok _ _ _ _ _ _ H) as (Hl & Ht & Hlam & ->). cbn [tf_R tf_T]. rewrite !cmod_sq.
  destruct (energy_bound n ((0 :: d0) ++ 0 :: nil) theta lam tm Hlam HP) as (B1 & B2 & B3). destruct (Pn_val n ((0 :: d0) ++ 0 :: nil) theta lam tm Hlam HP) as [_ P].
  split; [unfold abs2; nra|]. split; [nra|]. split; [exact B1|exact B2].
Qed.
(* two touching layers of one material act as one layer *)
Theorem C73_split_layer p0 pre a b post dpre x y dpost theta lam tm : length dpre = length pre -> length dpost = length post ->
  let n := p0 :: pre ++ a :: a :: b :: post in let d0 := dpre ++ x :: y :: dpost in
  0 < lam -> passive (medium n) (thick d0) (bottom n) theta lam ->
  solver n d0 theta lam tm = solver (p0 :: pre ++ a :: b :: post) (dpre ++ (x + y) :: dpost) theta lam tm.
Proof.
  intros Hd Hp n d0 Hlam HP. apply (split_prod theta lam tm pre post dpre dpost p0 b Hd Hp). apply low_ne. apply (passive_low n d0 theta lam tm Hlam HP). right. apply in_or_app. right. now left.
Qed.
(* a layer of zero thickness does nothing, whatever its material *)
Theorem C73_zero_layer p0 pre a b post dpre dpost theta lam tm : length dpre = length pre -> length dpost = length post ->
  let n := p0 :: pre ++ a :: b :: post in let d0 := dpre ++ 0 :: dpost in
  0 < lam -> passive (medium n) (thick d0) (bottom n) theta lam ->
  solver n d0 theta lam tm = solver (p0 :: pre ++ b :: post) (dpre ++ dpost) theta lam tm.
Proof. intros Hd Hp n d0 Hlam HP. apply (zero_prod theta lam tm pre post dpre dpost p0 b Hd Hp). exact (passive_low n d0 theta lam tm Hlam HP). Qed.
(* a gap of the incident medium above the stack (thickness g, any sign) delays the waves and changes no intensity *)
Theorem C73_reference_height p0 b post g dpost theta lam tm o : solver (p0 :: p0 :: b :: post) (g :: dpost) theta lam tm = Ok o ->
  passive (medium (p0 :: b :: post)) (thick dpost) (bottom (p0 :: b :: post)) theta lam ->
  let k := 2 * PI / lam * (fst p0 * Rabs (cos theta)) in
  exists o', solver (p0 :: b :: post) dpost theta lam tm = Ok o' /\ tf_R o = tf_R o' /\ tf_T o = tf_T o' /\
    tf_rr o = Cmult (cis (- (2 * k * g))) (tf_rr o') /\ tf_tt o = Cmult (cis (- (k * g))) (tf_tt o').
Proof.
  intros H HP k. destruct (solver_ok _ _ _ _ _ _ H) as (Hl & Ht & Hlam & ->). assert (HL : length dpost = length post) by (cbn [length] in Hl; lia).
  destruct (solver (p0 :: b :: post) dpost theta lam tm) as [o'|e] eqn:H'.
  2: { exfalso. destruct (solver_raise _ _ _ _ _ _ H') as [[A _]|(_ & [A|A] & _)]; [cbn [length] in A; lia|lra|lra]. }
  exists o'. split; [reflexivity|]. destruct (solver_ok _ _ _ _ _ _ H') as (_ & _ & _ & ->). cbn [tf_R tf_T tf_rr tf_tt].
  set (n := p0 :: b :: post) in *. set (d := (0 :: dpost) ++ 0 :: nil) in *.
  assert (PE : Pn_of (p0 :: n) theta lam tm = Pn_of n theta lam tm) by reflexivity. change (p0 :: p0 :: b :: post) with (p0 :: n) in *. rewrite PE.
  assert (K : kzzf p0 theta lam tm p0 <> RtoC 0) by (apply low_ne; apply (passive_low n dpost theta lam tm Hlam HP); now left).
  destruct (gap_prod p0 theta lam tm post dpost g b K HL) as [E0 E1]. fold n in E0, E1. fold d in E0, E1. change ((0 :: g :: dpost) ++ 0 :: nil) with (0 :: g :: (dpost ++ 0 :: nil)) in *.
  set (A := tf_prod (p0 :: n) _ theta lam tm) in *. set (B := tf_prod n d theta lam tm) in *.
  pose proof (A00_ne n d theta lam tm Hlam HP) as NB. fold B in NB.
  (* the wave number of the incident medium *)
  assert (KR := kz0_real n d theta lam tm Hlam HP). assert (KD := down_0 n d theta lam tm Hlam HP). destruct KD as [KE KP].
  assert (KV : tf_kz n theta lam 0 = RtoC (- k)).
  { assert (Q := f_equal fst KE). unfold q2 in Q. destruct HP as (HP1 & HP2 & _). specialize (HP1 0%nat ltac:(unfold bottom; lia)). unfold medium in HP1, HP2. cbn [nth n] in HP1, HP2. change (ith n 0) with p0 in Q.
    destruct (tf_kz n theta lam 0) as [a a']. destruct p0 as [c c']. cbn [fst snd Copp] in *. subst a' c'. cbn [fst snd Cmult Cminus Cplus Copp RtoC] in Q.
    apply C_eq; cbn [fst snd RtoC]; [|reflexivity]. unfold k. fold (k0 lam). pose proof (sin2_cos2 theta) as SC. unfold Rsqr in SC.
    assert (AC : Rabs (cos theta) * Rabs (cos theta) = cos theta * cos theta) by (rewrite <- Rabs_mult; apply Rabs_right; nra).
    assert (KK : 0 < k0 lam) by (unfold k0; pose proof PI_RGT_0; apply Rdiv_lt_0_compat; lra).
    set (X := k0 lam * (c * Rabs (cos theta))). assert (XP : 0 <= X) by (unfold X; apply Rmult_le_pos; [lra|apply Rmult_le_pos; [lra|apply Rabs_pos]]).
    assert (SQ : a * a = X * X). { unfold X. replace (k0 lam * (c * Rabs (cos theta)) * (k0 lam * (c * Rabs (cos theta)))) with (k0 lam * k0 lam * (c * c * (Rabs (cos theta) * Rabs (cos theta)))) by ring. rewrite AC. replace (cos theta * cos theta) with (1 - sin theta * sin theta) by lra. lra. }
    assert ((- a - X) * (- a + X) = 0) as Z by lra. apply Rmult_integral in Z. destruct Z as [Z|Z]; lra. }
  assert (C1 : cexp (Cmult (Cmult (Copp Ci) (tf_kz n theta lam 0)) (RtoC g)) = cis (k * g)).
  { rewrite KV. unfold cexp. replace (fst (Cmult (Cmult (Copp Ci) (RtoC (- k))) (RtoC g))) with 0 by (cbn; ring). replace (snd (Cmult (Cmult (Copp Ci) (RtoC (- k))) (RtoC g))) with (k * g) by (cbn; ring). rewrite exp_0. ring. }
  assert (C2 : cexp (Cmult (Cmult Ci (tf_kz n theta lam 0)) (RtoC g)) = cis (- (k * g))).
  { rewrite KV. unfold cexp. replace (fst (Cmult (Cmult Ci (RtoC (- k))) (RtoC g))) with 0 by (cbn; ring). replace (snd (Cmult (Cmult Ci (RtoC (- k))) (RtoC g))) with (- (k * g)) by (cbn; ring). rewrite exp_0. ring. }
  rewrite C1 in E0. rewrite C2 in E1.
  assert (NC : cis (k * g) <> RtoC 0). { intros W. pose proof (cis_inv (k * g)) as V. rewrite W in V. apply (f_equal fst) in V. cbn in V. lra. }
  assert (I : forall x, Cdiv x (Cmult (cis (k * g)) (a00 B)) = Cmult (cis (- (k * g))) (Cdiv x (a00 B))).
  { intros x. assert (V : cis (- (k * g)) = Cinv (cis (k * g))). { apply (cancel _ _ _ NC). rewrite cis_inv, Cinv_r; auto. } rewrite V. field. auto. }
  rewrite !cmod_sq, E0, E1, !I. rewrite !abs2_mult, !abs2_cis.
  split; [|split; [|split]].
  - replace (Cdiv (Cmult (cis (- (k * g))) (a10 B)) (a00 B)) with (Cmult (cis (- (k * g))) (Cdiv (a10 B) (a00 B))) by (unfold Cdiv; ring). rewrite abs2_mult, abs2_cis. ring.
  - ring.
  - replace (- (2 * k * g)) with (- (k * g) + - (k * g)) by ring. rewrite cis_add. unfold Cdiv. ring.
  - ring.
Qed.
(* refusals *)
Theorem C73_refuses n d0 theta lam tm :
  (length n <> S (S (length d0)) -> solver n d0 theta lam tm = Raise ValueError) /\
  (length n = S (S (length d0)) -> theta < 0 \/ lam <= 0 -> solver n d0 theta lam tm = Raise TypeError).
Proof.
  unfold solver. destruct (Z.eqb_spec (Z.of_nat (length d0)) (Z.of_nat (length n) - 2)) as [E|E]; cbn [negb]; split; intros H; try lia; try reflexivity.
  intros [K|K]; destruct (Rlt_dec theta 0); try reflexivity; [lra|]. destruct (Rle_dec lam 0); [reflexivity|lra].
Qed.
(* one surface between two transparent media: Fresnel's formulas.  c_j = n_j cos(theta_j) with theta_1 from Snell's law *)
Theorem C73_fresnel n0 n1 theta lam tm o : 0 < n0 -> 0 < n1 -> Rabs (sin theta) < 1 -> n0 * Rabs (sin theta) < n1 ->
  solver (RtoC n0 :: RtoC n1 :: nil) nil theta lam tm = Ok o ->
  let c0 := n0 * Rabs (cos theta) in
  let c1 := n1 * sqrt (1 - (n0 * sin theta / n1) * (n0 * sin theta / n1)) in
  let e0 := if tm then c0 / (n0 * n0) else c0 in
  let e1 := if tm then c1 / (n1 * n1) else c1 in
  tf_rr o = RtoC ((e0 - e1) / (e0 + e1)) /\ tf_R o = ((e0 - e1) / (e0 + e1)) * ((e0 - e1) / (e0 + e1)) /\ tf_T o = 4 * e0 * e1 / ((e0 + e1) * (e0 + e1)).
Proof.
  intros P0 P1 Ps Pt H c0 c1 e0 e1. destruct (solver_ok _ _ _ _ _ _ H) as (_ & _ & Hlam & ->). set (n := RtoC n0 :: RtoC n1 :: nil) in *.
  assert (SS : Rabs (sin theta) * Rabs (sin theta) = sin theta * sin theta) by (rewrite <- Rabs_mult; apply Rabs_right; nra). pose proof (Rabs_pos (sin theta)) as AP.
  assert (KK : 0 < k0 lam) by (unfold k0; pose proof PI_RGT_0; apply Rdiv_lt_0_compat; lra).
  assert (C0 : 0 < c0 /\ c0 * c0 = n0 * n0 - n0 * n0 * (sin theta * sin theta)).
  { unfold c0. pose proof (sin2_cos2 theta) as SC. unfold Rsqr in SC. assert (AC : Rabs (cos theta) * Rabs (cos theta) = cos theta * cos theta) by (rewrite <- Rabs_mult; apply Rabs_right; nra). split.
    - apply Rmult_lt_0_compat; [auto|]. apply Rabs_pos_lt. intros Z. rewrite Z in SC. nra.
    - replace (n0 * Rabs (cos theta) * (n0 * Rabs (cos theta))) with (n0 * n0 * (Rabs (cos theta) * Rabs (cos theta))) by ring. rewrite AC. replace (cos theta * cos theta) with (1 - sin theta * sin theta) by lra. ring. }
  assert (C1 : 0 < c1 /\ c1 * c1 = n1 * n1 - n0 * n0 * (sin theta * sin theta)).
  { unfold c1. set (x := n0 * sin theta / n1). assert (X : x * x * (n1 * n1) = n0 * n0 * (sin theta * sin theta)) by (unfold x; field; lra).
    assert (L : n0 * n0 * (sin theta * sin theta) < n1 * n1) by (rewrite <- SS; assert (0 <= n0 * Rabs (sin theta)) by nra; replace (n0 * n0 * (Rabs (sin theta) * Rabs (sin theta))) with ((n0 * Rabs (sin theta)) * (n0 * Rabs (sin theta))) by ring; nra). assert (0 < n1 * n1) by nra. assert (Y : 0 < 1 - x * x) by (apply (Rmult_lt_reg_r (n1 * n1)); [auto|]; lra). split.
    - apply Rmult_lt_0_compat; [auto|]. now apply sqrt_lt_R0.
    - replace (n1 * sqrt (1 - x * x) * (n1 * sqrt (1 - x * x))) with (n1 * n1 * (sqrt (1 - x * x) * sqrt (1 - x * x))) by ring. rewrite sqrt_sqrt by lra. lra. }
  assert (KZ : forall j c, 0 < c -> q2 (ith n) theta lam j = RtoC ((k0 lam * c) * (k0 lam * c)) -> tf_kz n theta lam j = RtoC (- (k0 lam * c))).
  { intros j c Hc Q. pose proof (kz_sq n theta lam Hlam j) as E. rewrite Q in E. assert (QN : q2 (ith n) theta lam j <> RtoC 0) by (rewrite Q; apply RtoC_ne; assert (0 < k0 lam * c) by nra; nra).
    pose proof (kz_low n theta lam Hlam j QN) as L. destruct (tf_kz n theta lam j) as [a b]. assert (E1 := f_equal fst E). assert (E2 := f_equal snd E). cbn [fst snd Cmult RtoC] in *. set (X := k0 lam * c) in *. assert (0 < X) by (unfold X; nra).
    assert (a * b = 0) as Z by lra. apply Rmult_integral in Z. destruct L as [L|[L1 L2]]; cbn [fst snd] in *; [|subst a; nra]. destruct Z as [Z|Z]; [lra|]. subst b. apply C_eq; cbn [fst snd RtoC]; [|reflexivity]. assert ((a - X) * (a + X) = 0) as W by lra. apply Rmult_integral in W. lra. }
  assert (K0 : tf_kz n theta lam 0 = RtoC (- (k0 lam * c0))).
  { apply KZ; [apply C0|]. unfold q2, n, ith. cbn [nth]. replace (k0 lam * c0 * (k0 lam * c0)) with (k0 lam * k0 lam * (c0 * c0)) by ring. rewrite (proj2 C0). apply C_eq; cbn; ring. }
  assert (K1 : tf_kz n theta lam 1 = RtoC (- (k0 lam * c1))).
  { apply KZ; [apply C1|]. unfold q2, n, ith. cbn [nth]. replace (k0 lam * c1 * (k0 lam * c1)) with (k0 lam * k0 lam * (c1 * c1)) by ring. rewrite (proj2 C1). apply C_eq; cbn; ring. }
  assert (Z0 : tf_kzz n theta lam tm 0 = RtoC (- (k0 lam * e0))). { unfold tf_kzz, e0. rewrite K0. change (ith n 0) with (RtoC n0). destruct tm; [|reflexivity]. rewrite <- RtoC_mult, <- RtoC_div by nra. f_equal. field. lra. }
  assert (Z1 : tf_kzz n theta lam tm 1 = RtoC (- (k0 lam * e1))). { unfold tf_kzz, e1. rewrite K1. change (ith n 1) with (RtoC n1). destruct tm; [|reflexivity]. rewrite <- RtoC_mult, <- RtoC_div by nra. f_equal. field. lra. }
  assert (EP0 : 0 < e0). { unfold e0. destruct tm; [apply Rdiv_lt_0_compat; [apply C0|nra]|apply C0]. }
  assert (EP1 : 0 < e1). { unfold e1. destruct tm; [apply Rdiv_lt_0_compat; [apply C1|nra]|apply C1]. }
  unfold Pn_of. cbn [length n Nat.sub]. change (RtoC n0 :: RtoC n1 :: nil) with n. rewrite Z0, Z1.
  unfold tf_prod. cbn [length n Nat.sub seq fold_left]. change (RtoC n0 :: RtoC n1 :: nil) with n. rewrite eye_mmul. unfold tf_mat. cbn [a00 a10]. rewrite Z0, Z1. change (rth (0 :: nil ++ 0 :: nil) 0) with 0. change (rth ((0 :: nil) ++ 0 :: nil) 0) with 0.
  replace (cexp (Cmult (Cmult (Copp Ci) (tf_kz n theta lam 0)) (RtoC 0))) with (RtoC 1) by (rewrite <- cexp_0; f_equal; ring). replace (cexp (Cmult (Cmult Ci (tf_kz n theta lam 0)) (RtoC 0))) with (RtoC 1) by (rewrite <- cexp_0; f_equal; ring).
  assert (NZ : - (k0 lam * e0) <> 0) by nra. assert (NS : - (k0 lam * e0) + - (k0 lam * e1) <> 0) by nra.
  replace (Cdiv (Cmult (RtoC (/ 2)) (Cplus (RtoC (- (k0 lam * e0))) (RtoC (- (k0 lam * e1))))) (RtoC (- (k0 lam * e0)))) with (RtoC ((e0 + e1) / (2 * e0))).
  2: { rewrite <- RtoC_plus, <- RtoC_mult, <- RtoC_div by auto. f_equal. field. lra. }
  replace (Cdiv (Cminus (RtoC (- (k0 lam * e0))) (RtoC (- (k0 lam * e1)))) (Cplus (RtoC (- (k0 lam * e0))) (RtoC (- (k0 lam * e1))))) with (RtoC ((e0 - e1) / (e0 + e1))).
  2: { rewrite <- RtoC_plus, <- RtoC_minus, <- RtoC_div by auto. f_equal. field. split; lra. }
  assert (NT : (e0 + e1) / (2 * e0) <> 0). { assert (0 < (e0 + e1) / (2 * e0)) by (apply Rdiv_lt_0_compat; lra). lra. }
  replace (Cdiv (Cmult (RtoC ((e0 + e1) / (2 * e0))) (Cmult (RtoC ((e0 - e1) / (e0 + e1))) (RtoC 1))) (Cmult (RtoC ((e0 + e1) / (2 * e0))) (RtoC 1))) with (RtoC ((e0 - e1) / (e0 + e1))).
  2: { rewrite <- !RtoC_mult, <- RtoC_div by (rewrite Rmult_1_r; auto). f_equal. field. split; lra. }
  replace (Cdiv (RtoC 1) (Cmult (RtoC ((e0 + e1) / (2 * e0))) (RtoC 1))) with (RtoC (2 * e0 / (e0 + e1))).
  2: { rewrite <- !RtoC_mult, <- RtoC_div by (rewrite Rmult_1_r; auto). f_equal. field. split; lra. }
  cbn [tf_rr tf_R tf_T]. rewrite !cmod_sq, <- RtoC_div by auto. unfold abs2. cbn [fst snd RtoC]. split; [reflexivity|]. split; [ring|]. field. split; lra.
Qed.
(* glass in air at normal incidence: 4 percent reflected *)
Example C73_example : exists o, solver (RtoC 1 :: RtoC (3 / 2) :: nil) nil 0 1 false = Ok o /\ tf_rr o = RtoC (- (1 / 5)) /\ tf_R o = 4 / 100 /\ tf_T o = 96 / 100.
Proof.
  destruct (solver (RtoC 1 :: RtoC (3 / 2) :: nil) nil 0 1 false) as [o|e] eqn:H.
  - exists o. split; [reflexivity|]. destruct (C73_fresnel 1 (3 / 2) 0 1 false o) as (A & B & D); auto; rewrite ?sin_0, ?Rabs_R0; try lra. cbv zeta in A, B, D. rewrite sin_0, cos_0, Rabs_R1 in A, B, D.
    replace (1 - 1 * 0 / (3 / 2) * (1 * 0 / (3 / 2))) with 1 in A, B, D by field. rewrite sqrt_1 in A, B, D. rewrite A, B, D. split; [f_equal|split]; field.
  - exfalso. destruct (solver_raise _ _ _ _ _ _ H) as [[A _]|(_ & [A|A] & _)]; [cbn in A; lia|lra|lra].
Qed.
(* air, a gap, a lossy film (index 2 - 3i, like a metal) of thickness 1/10 and glass: the hypotheses of C73_energy and of the other theorems hold *)
Example C73_example_passive : passive (medium (RtoC 1 :: RtoC 1 :: (2, -3) :: RtoC (3 / 2) :: nil)) (thick (1 :: (1 / 10) :: nil)) (bottom (RtoC 1 :: RtoC 1 :: (2, -3) :: RtoC (3 / 2) :: nil)) 0 1.
Proof.
  assert (K : 0 < k0 1 * k0 1) by (unfold k0; pose proof PI_RGT_0; assert (0 < 2 * PI / 1) by lra; nra).
  assert (Q : forall j, (j <= 3)%nat -> let n := medium (RtoC 1 :: RtoC 1 :: (2, -3) :: RtoC (3 / 2) :: nil) in fst (q2 n 0 1 j) = k0 1 * k0 1 * (fst (n j) * fst (n j) - snd (n j) * snd (n j)) /\ snd (q2 n 0 1 j) = k0 1 * k0 1 * (2 * fst (n j) * snd (n j))).
  { intros j Hj n. unfold q2. rewrite sin_0. destruct (n j) as [a b]. destruct (n 0%nat) as [c c']. cbn. split; ring. }
  unfold bottom. cbn [length Nat.sub]. split; [|split; [|split; [|split]]].
  - intros j Hj. destruct j as [|[|[|[|j]]]]; [..|lia]; cbn; lra.
  - reflexivity.
  - intros j Hj E. destruct (Q j Hj) as [E1 E2]. cbv zeta in E1, E2. rewrite E in E1, E2. destruct j as [|[|[|[|j]]]]; [..|lia]; cbn [medium nth fst snd RtoC] in *; nra.
  - left. destruct (Q 3%nat (le_n _)) as [-> _]. cbn. nra.
  - intros j Hj. destruct j as [|[|[|[|j]]]]; [..|lia]; cbn; lra.
Qed.
