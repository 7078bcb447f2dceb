From Verif Require Import Base RBase EstModel EstSpec EstProofs.
Open Scope Z_scope.

Section Whole.
  Variable V : Type.
  Variable vadd : V -> V -> V.
  Variables zero1 zero2 : V.
  Variable Img : Type.
  Variable image : nat -> nat -> V -> V -> Img.
  Variable gen : nat -> Img -> nat -> res V.
  Variables (which : Z) (Npairs Nsbp stars : nat).
  Variables (Nact1 Nact2 : Z).

  (* DM k is in use for control or for probing *)
  Definition in_use (ind : list Z) (k : Z) : bool := existsb (Z.eqb k) ind || (k =? which).
  Definition nominal1_of (s : pst V) : V := if in_use (p_ind s) 1 then p_v1 s else zero1.
  Definition nominal2_of (s : pst V) : V := if in_use (p_ind s) 2 then p_v2 s else zero2.

  Lemma existsb_app1 ind k : existsb (Z.eqb k) (ind ++ [which]) = in_use ind k.
  Proof. rewrite existsb_app. cbn. now rewrite orb_false_r. Qed.

  Let PP b := pairwise_probing V vadd zero1 zero2 Img image gen which Npairs Nsbp stars b Nact1 Nact2.
  Hypothesis Hw : which = 1 \/ which = 2.
  Hypothesis Hsize : which = 1 \/ Nact1 = Nact2.

  (* the prologue *)
  Definition after_prologue (s : pst V) : pst V := mkpst (p_ind s ++ [which]) false (p_v1 s) (p_v2 s) (p_log s).
  Lemma prologue s : PP false s =
    match mfor V (seq 0 stars) (fun star => mfor V (seq 0 Nsbp)
            (subband V vadd Img image gen which Npairs Nact1 Nact2 (nominal1_of s) (nominal2_of s) star)) (after_prologue s) with
    | (s', Raise e) => (s', Raise e)
    | (s', Ok _) =>
      if (Nat.eqb stars 0 || Nat.eqb Nsbp 0)%bool then (s', Raise NameError) else
      mbind V (when_dm V 1 (set_v1 V (nominal1_of s))) (fun _ =>
      mbind V (when_dm V 2 (set_v2 V (nominal2_of s))) (fun _ => set_ind V (p_ind s) false)) s'
    end.
  Proof using Hw.
    unfold PP, pairwise_probing. unfold mbind at 1, mget at 1. unfold mbind at 1, set_ind at 1. unfold mbind at 1, mget at 1.
    unfold sees at 1 2. cbn [p_islist negb]. rewrite !andb_true_r. unfold mbind at 1.
    assert (E : (if which =? 1 then set_ind V (p_ind s ++ [1]) false else if which =? 2 then set_ind V (p_ind s ++ [2]) false else mret V tt)
                  (mkpst (p_ind s) true (p_v1 s) (p_v2 s) (p_log s)) = (after_prologue s, Ok tt))
      by (unfold after_prologue; destruct Hw as [W|W]; rewrite W; reflexivity).
    rewrite E. replace (negb ((which =? 1) || (which =? 2))) with false by (destruct Hw as [W|W]; rewrite W; reflexivity).
    unfold mbind at 1, mget at 1.
    assert (S : forall k, sees V (after_prologue s) k = in_use (p_ind s) k).
    { intros k. unfold sees, after_prologue. cbn [p_islist p_ind]. apply existsb_app1. }
    rewrite !S. cbn [after_prologue p_v1 p_v2]. fold (nominal1_of s) (nominal2_of s).
    unfold mbind at 1. destruct (mfor V (seq 0 stars) _ _) as [s' [a|e]]; [|reflexivity].
    destruct (Nat.eqb stars 0 || Nat.eqb Nsbp 0)%bool; reflexivity.
  Qed.

  Lemma Hin (s : pst V) : existsb (Z.eqb which) (p_ind s ++ [which]) = true.
  Proof. rewrite existsb_app1. unfold in_use. rewrite Z.eqb_refl. apply orb_true_r. Qed.

  (* a normal return *)
  Lemma probing_result s s' : PP false s = (s', Ok tt) ->
    p_islist s' = false /\ p_ind s' = p_ind s /\ p_v1 s' = nominal1_of s /\ p_v2 s' = nominal2_of s /\
    exists lg, blocks V vadd Img image gen which Npairs (nominal1_of s) (nominal2_of s) (list_prod (seq 0 stars) (seq 0 Nsbp)) (p_log s) lg /\
      p_log s' = p_log s ++ lg.
  Proof using Hw Hsize.
    rewrite prologue. destruct (mfor V (seq 0 stars) _ _) as [s1 [a|e]] eqn:E; [|discriminate].
    destruct (stars_inv V vadd Img image gen which Npairs Nact1 Nact2 Hw (p_ind s ++ [which]) (nominal1_of s) (nominal2_of s)
                (Hin s) Hsize (seq 0 stars) (seq 0 Nsbp) (after_prologue s) s1 a eq_refl eq_refl E) as (J1 & J2 & J3 & lg & J4 & J5).
    destruct (Nat.eqb_spec stars 0) as [|Hst]; [discriminate|]. destruct (Nat.eqb_spec Nsbp 0) as [|Hnb]; [discriminate|]. cbn [orb].
    assert (I : Inv V (p_ind s ++ [which]) (nominal1_of s) (nominal2_of s) s1).
    { apply J3; [destruct stars as [|?]; [congruence|discriminate]|destruct Nsbp as [|?]; [congruence|discriminate]]. }
    destruct (nominal1 V _ _ _ s1 I) as (s2 & E2 & I2 & V2 & L2). unfold mbind at 1. rewrite E2.
    destruct (nominal2 V which _ _ _ s2 I2 V2) as (s3 & E3 & I3 & V3 & W3 & L3). unfold mbind at 1. rewrite E3.
    unfold set_ind. intros [= <-]. cbn. split; [reflexivity|]. split; [reflexivity|]. split; [exact V3|]. split; [exact W3|].
    exists lg. split; [exact J4|]. now rewrite L3, L2, J5.
  Qed.

  (* it does return normally if no probe generation fails *)
  Lemma probing_succeeds s : (forall star I0 i, exists c, gen star I0 i = Ok c) -> (0 < stars)%nat -> (0 < Nsbp)%nat ->
    exists s', PP false s = (s', Ok tt).
  Proof using Hw Hsize.
    intros Hg Hst Hnb. rewrite prologue.
    destruct (stars_ok V vadd Img image gen which Npairs Nact1 Nact2 Hw (p_ind s ++ [which]) (nominal1_of s) (nominal2_of s)
                (Hin s) Hsize Hg (seq 0 stars) (seq 0 Nsbp) (after_prologue s) eq_refl eq_refl) as (s1 & r & E & K1 & K2).
    rewrite E.
    destruct (stars_inv V vadd Img image gen which Npairs Nact1 Nact2 Hw (p_ind s ++ [which]) (nominal1_of s) (nominal2_of s)
                (Hin s) Hsize (seq 0 stars) (seq 0 Nsbp) (after_prologue s) s1 r eq_refl eq_refl E) as (J1 & J2 & J3 & _).
    destruct (Nat.eqb_spec stars 0) as [|_]; [clear -Hst e; lia|]. destruct (Nat.eqb_spec Nsbp 0) as [|_]; [clear -Hnb e; lia|]. cbn [orb].
    assert (I : Inv V (p_ind s ++ [which]) (nominal1_of s) (nominal2_of s) s1).
    { apply J3; [destruct stars as [|?]; [clear -Hst; lia|discriminate]|destruct Nsbp as [|?]; [clear -Hnb; lia|discriminate]]. }
    destruct (nominal1 V _ _ _ s1 I) as (s2 & E2 & I2 & V2 & L2). unfold mbind at 1. rewrite E2.
    destruct (nominal2 V which _ _ _ s2 I2 V2) as (s3 & E3 & _). unfold mbind at 1. rewrite E3.
    unfold set_ind. eexists. reflexivity.
  Qed.
End Whole.

(* ---- probe phases ---- *)
Open Scope R_scope.
Lemma last_app {A} (l : list A) x d : last (l ++ [x]) d = x.
Proof. induction l as [|a l IH]; [reflexivity|]. cbn. destruct (l ++ [x]) eqn:E; [destruct l; discriminate|]. exact IH. Qed.

(* [0; N; 1; N+1; ...; m; N+m] *)
Definition phases (N : Z) (m : nat) : list Z := flat_map (fun k => [Z.of_nat k; Z.of_nat k + N]%Z) (seq 0 m).
Lemma phases_S N m : phases N (S m) = phases N m ++ [Z.of_nat m; Z.of_nat m + N]%Z.
Proof. unfold phases. rewrite seq_S, flat_map_app. cbn. reflexivity. Qed.
Lemma phase_loop_eq N n : forall m, phase_loop n N (phases N (S m)) = phases N (S m + n).
Proof.
  induction n as [|n IH]; intros m; [now rewrite Nat.add_0_r|]. cbn [phase_loop].
  replace (last (phases N (S m)) 0%Z) with (Z.of_nat m + N)%Z.
  2:{ rewrite phases_S. change [Z.of_nat m; (Z.of_nat m + N)%Z] with ([Z.of_nat m] ++ [(Z.of_nat m + N)%Z]). rewrite app_assoc. now rewrite last_app. }
  rewrite last_app, <- app_assoc. cbn [app].
  replace (Z.of_nat m + N - (N - 1))%Z with (Z.of_nat (S m)) by lia.
  rewrite <- phases_S, IH. f_equal. lia.
Qed.
Lemma phases_nth N m : forall k, (k < m)%nat -> nth (2 * k) (phases N m) 0%Z = Z.of_nat k /\ nth (2 * k + 1) (phases N m) 0%Z = (Z.of_nat k + N)%Z.
Proof.
  induction m as [|m IH]; intros k Hk; [lia|]. rewrite phases_S.
  assert (L : length (phases N m) = (2 * m)%nat).
  { clear. induction m as [|m IH]; [reflexivity|]. rewrite phases_S, app_length, IH. cbn. lia. }
  destruct (Nat.eq_dec k m) as [->|Hne].
  - rewrite !app_nth2 by lia. rewrite L. rewrite Nat.sub_diag. replace (2 * m + 1 - 2 * m)%nat with 1%nat by lia. auto.
  - rewrite !app_nth1 by lia. apply IH. lia.
Qed.
Lemma probePhase_pair N k : (k < N)%nat ->
  probePhase N (2 * k) = INR k * PI / INR N /\ probePhase N (2 * k + 1) = INR k * PI / INR N + PI.
Proof.
  intros Hk. assert (0 < INR N) by (apply lt_0_INR; lia). unfold probePhase.
  assert (E : phase_loop (N - 1) (Z.of_nat N) [0%Z; Z.of_nat N] = phases (Z.of_nat N) N).
  { change [0%Z; Z.of_nat N] with (phases (Z.of_nat N) 1). rewrite phase_loop_eq. f_equal. lia. }
  rewrite E. destruct (phases_nth (Z.of_nat N) N k Hk) as [-> ->]. rewrite plus_IZR, <- !INR_IZR_INZ. split; [reflexivity|]. field. lra.
Qed.

(* ---- probe shapes ---- *)
Lemma sinc_double a : sinc a * cos (PI * a) = sinc (2 * a).
Proof.
  unfold sinc. pose proof PI_RGT_0.
  destruct (Req_EM_T a 0) as [->|Ha]; destruct (Req_EM_T (2 * _) 0) as [E|E]; try lra.
  - rewrite Rmult_0_r, cos_0. ring.
  - replace (PI * (2 * a)) with (2 * (PI * a)) by ring. rewrite sin_2a. field. split; lra.
Qed.

(* the square probe is one formula for every phase; the special case for psi = 0 agrees with it *)
Lemma square_height_formula lambda0 I rad N ay psi X Y :
  let r := if Rlt_dec (IZR N / 2) rad then IZR N / 2 else rad in
  square_height lambda0 I rad N ay psi X Y =
  4 * PI * lambda0 * sqrt I * (if ay then sinc (r * X) * sinc (2 * r * Y) * cos (PI * (r * X) + psi)
                               else sinc (2 * r * X) * sinc (r * Y) * cos (PI * (r * Y) + psi)).
Proof.
  intros r. unfold square_height. fold r.
  replace (2 * PI * (r / 2) * X) with (PI * (r * X)) by field. replace (2 * PI * (r / 2) * Y) with (PI * (r * Y)) by field.
  destruct (Req_EM_T psi 0) as [->|Hp]; [|destruct ay; ring].
  rewrite !Rplus_0_r. replace (2 * r * X) with (2 * (r * X)) by ring. replace (2 * r * Y) with (2 * (r * Y)) by ring.
  destruct ay.
  - rewrite <- (sinc_double (r * X)). ring.
  - rewrite <- (sinc_double (r * Y)). ring.
Qed.
Lemma square_opposite lambda0 I rad N ay psi X Y :
  square_height lambda0 I rad N ay (psi + PI) X Y = - square_height lambda0 I rad N ay psi X Y.
Proof.
  rewrite !square_height_formula. destruct ay; rewrite <- Rplus_assoc, neg_cos; ring.
Qed.
Lemma rect_opposite lambda0 I xi eta w h psi X Y :
  rect_height lambda0 I xi eta w h (psi + PI) X Y = - rect_height lambda0 I xi eta w h psi X Y.
Proof. unfold rect_height. rewrite <- Rplus_assoc, neg_cos. ring. Qed.

(* ---- atan2 ---- *)
Lemma atan2_polar x y : x <> 0 \/ y <> 0 ->
  sqrt (x * x + y * y) * cos (atan2 y x) = x /\ sqrt (x * x + y * y) * sin (atan2 y x) = y.
Proof.
  intros H. unfold atan2.
  assert (G : x <> 0 -> sqrt (x * x + y * y) * cos (atan (y / x)) = Rabs x /\ sqrt (x * x + y * y) * sin (atan (y / x)) = Rabs x * (y / x)).
  { intros Hx. rewrite cos_atan, sin_atan.
    assert (E : sqrt (x * x + y * y) = Rabs x * sqrt (1 + (y / x)²)).
    { replace (x * x + y * y) with ((x * x) * (1 + (y / x)²)) by (unfold Rsqr; field; exact Hx).
      rewrite sqrt_mult; [|nra|pose proof (Rle_0_sqr (y / x)); lra]. f_equal. change (x * x) with (Rsqr x). apply sqrt_Rsqr_abs. }
    assert (0 < sqrt (1 + (y / x)²)) by (apply sqrt_lt_R0; pose proof (Rle_0_sqr (y / x)); lra).
    rewrite E. split; field; lra. }
  destruct (Rlt_dec 0 x) as [Hx|Hx].
  - destruct G as [-> ->]; [lra|]. rewrite Rabs_pos_eq by lra. split; [reflexivity|]. field. lra.
  - destruct (Rlt_dec x 0) as [Hx2|Hx2].
    + destruct G as [G1 G2]; [lra|]. rewrite Rabs_left in G1, G2 by lra.
      destruct (Rle_dec 0 y).
      * rewrite neg_cos, neg_sin. split; [lra|]. replace (sqrt (x * x + y * y) * - sin (atan (y / x))) with (- (sqrt (x * x + y * y) * sin (atan (y / x)))) by ring.
        rewrite G2. field. lra.
      * replace (atan (y / x) - PI) with (- (PI - atan (y / x))) by ring. rewrite cos_neg, sin_neg.
        replace (PI - atan (y / x)) with (- (atan (y / x)) + PI) by ring. rewrite neg_cos, neg_sin, cos_neg, sin_neg. split; [lra|].
        replace (sqrt (x * x + y * y) * - - - sin (atan (y / x))) with (- (sqrt (x * x + y * y) * sin (atan (y / x)))) by ring.
        rewrite G2. field. lra.
    + assert (x = 0) by lra. subst x. rewrite Rmult_0_l, Rplus_0_l. change (y * y) with (Rsqr y). rewrite sqrt_Rsqr_abs.
      destruct (Rlt_dec 0 y); [rewrite cos_PI2, sin_PI2, Rabs_pos_eq by lra; split; ring|].
      destruct (Rlt_dec y 0); [|exfalso; destruct H; lra].
      rewrite cos_neg, sin_neg, cos_PI2, sin_PI2, Rabs_left by lra. split; ring.
Qed.
Lemma rotate_is_rotation rot x y : rot_eps < Rabs rot ->
  rotate rot x y = (x * cos (rot * PI / 180) + y * sin (rot * PI / 180), y * cos (rot * PI / 180) - x * sin (rot * PI / 180)).
Proof.
  intros H. unfold rotate. destruct (Rlt_dec rot_eps (Rabs rot)) as [_|]; [|contradiction].
  rewrite cos_minus, sin_minus.
  assert (Z : (x = 0 /\ y = 0) \/ (x <> 0 \/ y <> 0)) by (destruct (Req_EM_T x 0); destruct (Req_EM_T y 0); auto).
  destruct Z as [[-> ->]|Hz].
  - rewrite Rmult_0_l, Rplus_0_l, sqrt_0. f_equal; ring.
  - destruct (atan2_polar x y Hz) as [A B]. set (r := sqrt (x * x + y * y)) in *.
    set (ct := cos (atan2 y x)) in *. set (st := sin (atan2 y x)) in *. f_equal.
    + transitivity ((r * ct) * cos (rot * PI / 180) + (r * st) * sin (rot * PI / 180)); [ring|]. now rewrite A, B.
    + transitivity ((r * st) * cos (rot * PI / 180) - (r * ct) * sin (rot * PI / 180)); [ring|]. now rewrite A, B.
Qed.
