(* Proofs about the differentiable DM: rendering, and its reverse as the transpose. *)
From Verif Require Import Base RBase StrBase UtilModel UtilSpec UtilProofs CBase PropModel PropSpec PropProofs OptModel OptSpec LinBase OptProofs OptProofs3 OptProofs4 OptProofs7 GradAdj2 DiffModel DiffSpec DiffProofs DiffProofs2.
Open Scope R_scope.
Definition gain (wfe : bool) : R := if wfe then 2 else 1.
Lemma make_tf_dims ifn shx shy : dims (frows ifn) (fcols ifn) (make_tf ifn shx shy).
Proof. unfold make_tf. cbv zeta. destruct (Req_EM_T shx 0); [destruct (Req_EM_T shy 0)|]; split; reflexivity. Qed.
Lemma act_fit_pos n nact sep : act_fit n nact sep -> (1 <= n)%nat /\ (1 <= nact)%nat.
Proof. intros A. destruct (in_slice_pos n nact sep 0 A) as (_ & L & _); [destruct A as (_ & A & _); lia|]. destruct A as (_ & A & _). lia. Qed.
Lemma rsum_poke ifn nact sep shx shy up a d X : act_fit (frows ifn) nact sep -> act_fit (fcols ifn) nact sep -> holds ifn nact sep shx shy up a d ->
  rsum (frows ifn) (fun p => rsum (fcols ifn) (fun q => fpx (d_poke d) p q * X p q)) = rsum nact (fun r => rsum nact (fun c => fpx a r c * X (Z.to_nat (act_pos (frows ifn) nact sep r)) (Z.to_nat (act_pos (fcols ifn) nact sep c)))).
Proof.
  intros FA FB (_ & _ & _ & _ & _ & _ & H).
  rewrite <- (rsum_slice (frows ifn) nact sep (fun p r => rsum nact (fun c => fpx a r c * X p (Z.to_nat (act_pos (fcols ifn) nact sep c)))) FA).
  apply rsum_ext. intros p _. destruct (in_slice_spec _ _ _ p FA) as [E|(r & Hr & E & _)]; rewrite E.
  - apply rsum_zero. intros q _. rewrite H, E. ring.
  - rewrite <- (rsum_slice (fcols ifn) nact sep (fun q c => fpx a r c * X p q) FB). apply rsum_ext. intros q _. rewrite H, E. destruct (in_slice_spec _ _ _ q FB) as [F|(c & Hc & F & _)]; rewrite F; ring.
Qed.
(* the un-cropped surface *)
Lemma surface_px ifn nact sep shx shy up a d (wfe : bool) : act_fit (frows ifn) nact sep -> act_fit (fcols ifn) nact sep -> holds ifn nact sep shx shy up a d ->
  exists s : field R, (do t <- apply_tf (d_poke d) (d_tf d); Ok (if wfe then rscale 2 t else t)) = Ok s /\ dims (frows ifn) (fcols ifn) s /\ forall i j, (i < frows ifn)%nat -> (j < fcols ifn)%nat -> fpx s i j =
    gain wfe * rsum nact (fun r => rsum nact (fun c => fpx a r c * kr (frows ifn) (fcols ifn) (fpx (make_tf ifn shx shy)) (Z.of_nat (roll_ix (frows ifn) (half (frows ifn)) i) - act_pos (frows ifn) nact sep r) (Z.of_nat (roll_ix (fcols ifn) (half (fcols ifn)) j) - act_pos (fcols ifn) nact sep c))).
Proof.
  intros FA FB H. destruct (act_fit_pos _ _ _ FA) as [HM HA]. destruct (act_fit_pos _ _ _ FB) as [HN _]. pose proof H as (_ & HT & _ & _ & _ & DP & _).
  destruct (apply_tf_px (d_poke d) (d_tf d) (frows ifn) (fcols ifn) HM HN DP) as (O & -> & DO & VO); [rewrite HT; apply make_tf_dims|]. cbn [rbind]. rewrite HT in VO.
  assert (V : forall i j, (i < frows ifn)%nat -> (j < fcols ifn)%nat -> fpx O i j = rsum nact (fun r => rsum nact (fun c => fpx a r c * kr (frows ifn) (fcols ifn) (fpx (make_tf ifn shx shy)) (Z.of_nat (roll_ix (frows ifn) (half (frows ifn)) i) - act_pos (frows ifn) nact sep r) (Z.of_nat (roll_ix (fcols ifn) (half (fcols ifn)) j) - act_pos (fcols ifn) nact sep c)))).
  { intros i j Hi Hj. rewrite VO by auto. rewrite (rsum_poke ifn nact sep shx shy up a d _ FA FB H). apply rsum_ext. intros r Hr. apply rsum_ext. intros c Hc.
    destruct (in_slice_pos _ _ _ r FA Hr) as (_ & _ & P1). destruct (in_slice_pos _ _ _ c FB Hc) as (_ & _ & P2). rewrite !Z2Nat.id by auto. reflexivity. }
  exists (if wfe then rscale 2 O else O). split; [destruct wfe; reflexivity|]. destruct DO as [D1 D2]. split; [destruct wfe; split; auto|]. intros i j Hi Hj. unfold gain. destruct wfe; [cbn [rscale fpx]|rewrite Rmult_1_l]; rewrite V by auto; reflexivity.
Qed.
Lemma resample_1 f : resample f 1 = f. Proof. unfold resample. destruct (Req_EM_T 1 1); [reflexivity|congruence]. Qed.
Lemma render_11 ifn nact sep shx shy a d (wfe : bool) r c : act_fit (frows ifn) nact sep -> act_fit (fcols ifn) nact sep -> holds ifn nact sep shx shy 1 a d -> (1 <= r)%nat -> (1 <= c)%nat ->
  exists s S : field R, (do t <- apply_tf (d_poke d) (d_tf d); Ok (if wfe then rscale 2 t else t)) = Ok s /\ pad_cropr s r c = Ok S /\ render d r c wfe = Ok (S, (frows ifn, fcols ifn)) /\ dims r c S.
Proof.
  intros FA FB H Hr Hc. destruct (surface_px _ _ _ _ _ _ _ d wfe FA FB H) as (s & Es & [D1 D2] & _). destruct (pad_cropr_px s r c Hr Hc) as (S & ES & DS & _). exists s, S. split; [auto|]. split; [auto|]. split; [|auto].
  destruct H as (_ & _ & HU & _). unfold render. destruct (apply_tf (d_poke d) (d_tf d)) as [O|]; cbn [rbind] in Es |- *; [|discriminate]. injection Es as Es. rewrite HU, resample_1, Es, ES. cbn [rbind]. now rewrite D1, D2.
Qed.
Lemma roll_mirror n i p : (1 <= n)%nat -> Nat.even n = true -> ((Z.of_nat (roll_ix n (half n) p) - Z.of_nat i) mod Z.of_nat n = (Z.of_nat p - Z.of_nat (roll_ix n (half n) i)) mod Z.of_nat n)%Z.
Proof.
  intros Hn He. apply Nat.even_spec in He. destruct He as [k He]. unfold roll_ix, half. rewrite !Z2Nat.id by (apply Z.mod_pos_bound; lia).
  replace (n / 2)%nat with k by (rewrite He; rewrite Nat.mul_comm, Nat.div_mul; lia).
  rewrite Zminus_mod_idemp_l, Zminus_mod_idemp_r. replace (Z.of_nat p - (Z.of_nat i - Z.of_nat k))%Z with (Z.of_nat p - Z.of_nat k - Z.of_nat i + 1 * Z.of_nat n)%Z by lia. now rewrite Z.mod_add by lia.
Qed.
Lemma neg_cong n a b : (1 <= n)%nat -> (a mod Z.of_nat n = b mod Z.of_nat n)%Z -> ((- a) mod Z.of_nat n = (- b) mod Z.of_nat n)%Z.
Proof. intros Hn E. replace (- a)%Z with (0 - a)%Z by lia. replace (- b)%Z with (0 - b)%Z by lia. now rewrite Zminus_mod, E, <- Zminus_mod. Qed.
Lemma rdot_scale r c k g s : rdot r c (rscale k g) s = k * rdot r c g s.
Proof. unfold rdot. cbn [rscale fpx]. rewrite <- rsum_scal. apply rsum_ext. intros. rewrite <- rsum_scal. apply rsum_ext. intros. ring. Qed.
Lemma rsum4_swap m n k l f : rsum m (fun i => rsum n (fun j => rsum k (fun r => rsum l (fun c => f i j r c)))) = rsum k (fun r => rsum l (fun c => rsum m (fun i => rsum n (fun j => f i j r c)))).
Proof.
  transitivity (rsum m (fun i => rsum k (fun r => rsum l (fun c => rsum n (fun j => f i j r c))))).
  { apply rsum_ext. intros i _. rewrite rsum_swap. apply rsum_ext. intros r _. apply rsum_swap. }
  rewrite rsum_swap. apply rsum_ext. intros r _. apply rsum_swap.
Qed.
Theorem adjoint_11 ifn nact sep shx shy a d (wfe : bool) r c g : act_fit (frows ifn) nact sep -> act_fit (fcols ifn) nact sep -> Nat.even (frows ifn) = true -> Nat.even (fcols ifn) = true ->
  holds ifn nact sep shx shy 1 a d -> (1 <= r)%nat -> (1 <= c)%nat -> dims r c g ->
  exists S inter b, render d r c wfe = Ok (S, inter) /\ dims r c S /\ render_backprop d (Some inter) g wfe = Ok b /\ dims nact nact b /\ rdot r c g S = rdot nact nact b a.
Proof.
  intros FA FB EA EB H Hr Hc Dg. destruct (act_fit_pos _ _ _ FA) as [HM HA]. destruct (act_fit_pos _ _ _ FB) as [HN _].
  destruct (render_11 ifn nact sep shx shy a d wfe r c FA FB H Hr Hc) as (s & S & Es & ES & ER & DS). destruct (surface_px _ _ _ _ _ _ _ d wfe FA FB H) as (s' & Es' & Ds & Vs). rewrite Es in Es'. injection Es' as <-.
  pose proof H as (HI & HT & HU & HL & _). destruct (pad_cropr_px g (frows ifn) (fcols ifn) HM HN) as (p & Ep & [P1 P2] & Vp).
  pose proof (make_tf_dims ifn shx shy) as [T1 T2].
  set (q := if wfe then rscale 2 p else p). assert (Dq : dims (frows ifn) (fcols ifn) q) by (unfold q; destruct wfe; split; auto).
  destruct (apply_tf_px q (fmap Cconj (make_tf ifn shx shy)) (frows ifn) (fcols ifn) HM HN Dq) as (O & EO & DO & VO); [split; cbn; auto|].
  exists S, (frows ifn, fcols ifn), (gather (d_lat d) O). split; [auto|]. split; [auto|]. split; [|split].
  - unfold render_backprop. rewrite Ep. cbn [rbind]. rewrite HU, HT. destruct (Req_EM_T 1 1) as [_|]; [|congruence]. cbv zeta. fold q. rewrite EO. reflexivity.
  - rewrite HL. split; reflexivity.
  - rewrite (rdot_crop r c (frows ifn) (fcols ifn) s g S p Ds Dg Hr Hc HM HN ES Ep). unfold rdot. rewrite HL. cbn [gather lt_ny lt_nx lt_y0 lt_x0 lt_sy lt_sx fpx].
    transitivity (rsum (frows ifn) (fun i => rsum (fcols ifn) (fun j => rsum nact (fun r0 => rsum nact (fun c0 => fpx a r0 c0 * (fpx q i j * kr (frows ifn) (fcols ifn) (fpx (make_tf ifn shx shy)) (Z.of_nat (roll_ix (frows ifn) (half (frows ifn)) i) - act_pos (frows ifn) nact sep r0) (Z.of_nat (roll_ix (fcols ifn) (half (fcols ifn)) j) - act_pos (fcols ifn) nact sep c0))))))).
    { apply rsum_ext. intros i Hi. apply rsum_ext. intros j Hj. rewrite Vs by auto. rewrite <- Rmult_assoc. rewrite <- rsum_scal. apply rsum_ext. intros r0 _. rewrite <- rsum_scal. apply rsum_ext. intros c0 _. unfold q, gain. destruct wfe; cbn [rscale fpx]; ring. }
    rewrite rsum4_swap. apply rsum_ext. intros r0 Hr0. apply rsum_ext. intros c0 Hc0. rewrite <- !act_pos_lin. destruct (in_slice_pos _ _ _ r0 FA Hr0) as (_ & L1 & Q1). destruct (in_slice_pos _ _ _ c0 FB Hc0) as (_ & L2 & Q2).
    rewrite VO by auto. rewrite (Rmult_comm (rsum _ _)), <- rsum_scal. apply rsum_ext. intros i Hi. rewrite <- rsum_scal. apply rsum_ext. intros j Hj. f_equal. f_equal.
    etransitivity; [|symmetry; apply kr_conj]. apply kr_cong; auto.
    + etransitivity; [|apply neg_cong; [auto|symmetry; apply (roll_mirror _ _ _ HM EA)]]. rewrite Z2Nat.id by auto. f_equal. lia.
    + etransitivity; [|apply neg_cong; [auto|symmetry; apply (roll_mirror _ _ _ HN EB)]]. rewrite Z2Nat.id by auto. f_equal. lia.
Qed.
