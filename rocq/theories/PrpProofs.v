(* Proof support: the operators behind the PROPER propagators *)
From Verif Require Import Base RBase CBase PropModel PropSpec PropProofs OptModel PrpModel PrpSpec.
Open Scope R_scope.
Definition sq (n : nat) (E : field C) : Prop := frows E = n /\ fcols E = n.
Lemma feq_sq n (a b : field C) : feq a b -> sq n a -> sq n b. Proof. intros (A & B & _) [C D]. split; congruence. Qed.
Lemma INRpos n : (1 <= n)%nat -> 0 < INR n. Proof. intros. apply lt_0_INR. lia. Qed.
Lemma scal_feq c E F : feq E F -> feq (scal c E) (scal c F).
Proof. intros (A & B & H). repeat split; auto. intros i j Hi Hj. cbn. cbn in Hi, Hj. now rewrite H. Qed.
Lemma scal_scal c d E : feq (scal c (scal d E)) (scal (Cmult c d) E).
Proof. repeat split. intros. cbn. ring. Qed.
Lemma scal_one c E : c = RtoC 1 -> feq (scal c E) E.
Proof. intros ->. repeat split. intros. cbn. ring. Qed.
(* normalised transforms *)
Definition nft (s : R) (n : nat) (E : field C) : field C := fft_scaled s (/ INR n) E.
Lemma pfft_nft n E : (1 <= n)%nat -> sq n E -> feq (pfft n E) (nft (-1) n E).
Proof.
  intros Hn [A B]. pose proof (INRpos n Hn). repeat split. intros i j _ _. unfold pfft, nft, fftn, fft_scaled, scal, fmap, size. cbn [fpx frows fcols].
  rewrite A, B. unfold size; cbn [frows fcols fpx]. set (D := dft2 _ _ _ _ _ _). unfold RtoC, Cmult; destruct D as [x y]; cbn [fst snd]. f_equal; field; lra.
Qed.
Lemma pifft_nft n E : (1 <= n)%nat -> sq n E -> feq (pifft n E) (nft 1 n E).
Proof.
  intros Hn [A B]. pose proof (INRpos n Hn). repeat split. intros i j _ _. unfold pifft, nft, ifftn, fft_scaled, scal, fmap, size. cbn [fpx frows fcols].
  rewrite A, B. unfold size; cbn [frows fcols fpx]. set (D := dft2 _ _ _ _ _ _). unfold RtoC, Cmult; destruct D as [x y]; cbn [fst snd]. f_equal; field; lra.
Qed.
Lemma nft_feq s n E F : feq E F -> feq (nft s n E) (nft s n F). Proof. apply fft_scaled_feq. Qed.
Lemma nft_sq s n E : sq n E -> sq n (nft s n E). Proof. now intros [A B]. Qed.
Lemma mul_sq n k E : sq n E -> sq n (mul_by k E). Proof. now intros [A B]. Qed.
Lemma nft_inv s n E : s = 1 \/ s = -1 -> (1 <= n)%nat -> sq n E -> feq (nft (- s) n (nft s n E)) E.
Proof. intros Hs Hn [A B]. pose proof (INRpos n Hn). unfold nft. rewrite <- (Ropp_involutive s) at 2. apply (fft_pair (- s) (/ INR n) (/ INR n) E); [destruct Hs; subst; lra|]. rewrite A, B. field. lra. Qed.
Lemma nft_energy s n E : s = 1 \/ s = -1 -> (1 <= n)%nat -> sq n E -> fenergy (nft s n E) = fenergy E.
Proof. intros Hs Hn [A B]. pose proof (INRpos n Hn). unfold nft. rewrite energy_fft by (auto; lia). unfold size. rewrite A, B. field. lra. Qed.
(* transform in the direction of d *)
Definition dirft (d : R) (n : nat) (E : field C) : field C := if Rle_dec 0 d then pfft n E else pifft n E.
Definition dsg (d : R) : R := if Rle_dec 0 d then -1 else 1.
Lemma dirft_nft d n E : (1 <= n)%nat -> sq n E -> feq (dirft d n E) (nft (dsg d) n E).
Proof. intros. unfold dirft, dsg. destruct (Rle_dec 0 d); [now apply pfft_nft|now apply pifft_nft]. Qed.
Lemma dirft_sq d n E : sq n E -> sq n (dirft d n E). Proof. intros [A B]. unfold dirft. destruct (Rle_dec 0 d); split; auto. Qed.
Lemma dsg_opp d : d <> 0 -> dsg (- d) = - dsg d.
Proof. intros. unfold dsg. destruct (Rle_dec 0 d), (Rle_dec 0 (- d)); lra. Qed.
Lemma dsg_cases d : dsg d = 1 \/ dsg d = -1. Proof. unfold dsg. destruct (Rle_dec 0 d); auto. Qed.
Lemma dirft_feq d n E F : (1 <= n)%nat -> sq n E -> feq E F -> feq (dirft d n E) (dirft d n F).
Proof.
  intros Hn S H. eapply feq_trans; [apply dirft_nft; auto|]. eapply feq_trans; [apply nft_feq, H|]. apply feq_sym, dirft_nft; auto. eapply feq_sq; eauto.
Qed.
Lemma dirft_inv d n E : d <> 0 -> (1 <= n)%nat -> sq n E -> feq (dirft (- d) n (dirft d n E)) E.
Proof.
  intros Hd Hn S. eapply feq_trans; [apply dirft_feq with (F := nft (dsg d) n E); [auto|now apply dirft_sq|now apply dirft_nft]|].
  eapply feq_trans; [apply dirft_nft; auto; now apply nft_sq|]. rewrite dsg_opp by auto. apply nft_inv; auto. apply dsg_cases.
Qed.
(* quadratic phases *)
Lemma qphase_feq n lam dx c E F : feq E F -> feq (qphase n lam dx c E) (qphase n lam dx c F).
Proof. intros H. unfold qphase. destruct (Req_EM_T c 0); auto. now apply mul_by_feq. Qed.
Lemma qphase_sq n m lam dx c E : sq m E -> sq m (qphase n lam dx c E).
Proof. intros [A B]. unfold qphase. destruct (Req_EM_T c 0); split; auto. Qed.
Lemma qphase_inv n lam dx c E : lam <> 0 -> feq (qphase n lam dx (- c) (qphase n lam dx c E)) E.
Proof.
  intros Hl. unfold qphase. destruct (Req_EM_T c 0) as [->|Hc]; [destruct (Req_EM_T (-0) 0); [apply feq_refl|lra]|]. destruct (Req_EM_T (- c) 0); [lra|].
  repeat split. intros i j _ _. cbn. rewrite <- (Cmult_1_l (fpx E i j)) at 2. rewrite Cmult_assoc. f_equal. unfold qphase_factor. rewrite <- cis_add, <- cis_0. f_equal. field. auto.
Qed.
Lemma qphase_energy n lam dx c E : fenergy (qphase n lam dx c E) = fenergy E.
Proof. unfold qphase. destruct (Req_EM_T c 0); auto. apply energy_mul. intros. unfold qphase_factor. apply abs2_cis. Qed.
Lemma scal_energy c E : abs2 c = 1 -> fenergy (scal c E) = fenergy E.
Proof. intros H. change (scal c E) with (mul_by (fun _ _ => c) E). now apply energy_mul. Qed.
Lemma off_energy po lam d E : fenergy (offset_phase po lam d E) = fenergy E.
Proof. unfold offset_phase. destruct po; auto. apply scal_energy, abs2_cis. Qed.
Lemma off_feq po lam d E F : feq E F -> feq (offset_phase po lam d E) (offset_phase po lam d F).
Proof. intros. unfold offset_phase. destruct po; auto. now apply scal_feq. Qed.
Lemma off_sq po lam d n E : sq n E -> sq n (offset_phase po lam d E). Proof. intros [A B]. unfold offset_phase. destruct po; split; auto. Qed.
Lemma off_add po lam d d' E : lam <> 0 -> feq (offset_phase po lam d' (offset_phase po lam d E)) (offset_phase po lam (d + d') E).
Proof.
  intros. unfold offset_phase. destruct po; [|apply feq_refl]. eapply feq_trans; [apply scal_scal|]. rewrite <- cis_add.
  replace (2 * PI * d' / lam + 2 * PI * d / lam) with (2 * PI * (d + d') / lam) by (field; auto). apply feq_refl.
Qed.
Lemma off_0 po lam E : feq (offset_phase po lam 0 E) E.
Proof. unfold offset_phase. destruct po; [|apply feq_refl]. apply scal_one. rewrite <- cis_0. f_equal. unfold Rdiv. ring. Qed.
Lemma off_same0 po lam d E : d = 0 -> feq (offset_phase po lam d E) E. Proof. intros ->. apply off_0. Qed.
(* an operator that commutes with constants *)
Lemma nft_scal s n c E : feq (nft s n (scal c E)) (scal c (nft s n E)).
Proof. repeat split. intros i j _ _. unfold nft, fft_scaled, scal, fmap. cbn [fpx frows fcols]. rewrite dft2_scal. ring. Qed.
Lemma dirft_scal d n c E : (1 <= n)%nat -> sq n E -> feq (dirft d n (scal c E)) (scal c (dirft d n E)).
Proof.
  intros Hn S. eapply feq_trans; [apply dirft_nft; auto|]. eapply feq_trans; [apply nft_scal|]. apply scal_feq, feq_sym, dirft_nft; auto.
Qed.
Lemma dirft_off po lam x d n E : (1 <= n)%nat -> sq n E -> feq (dirft d n (offset_phase po lam x E)) (offset_phase po lam x (dirft d n E)).
Proof. intros. unfold offset_phase. destruct po; [now apply dirft_scal|apply feq_refl]. Qed.
Lemma qphase_off po lam x n lam' dx c E : feq (qphase n lam' dx c (offset_phase po lam x E)) (offset_phase po lam x (qphase n lam' dx c E)).
Proof. unfold offset_phase, qphase. destruct po; [|apply feq_refl]. destruct (Req_EM_T c 0); [apply feq_refl|]. repeat split. intros. cbn. ring. Qed.
(* angular spectrum *)
Definition aspec (k : nat -> nat -> C) (n : nat) (E : field C) : field C := pifft n (mul_by k (pfft n E)).
Lemma aspec_sq k n E : sq n E -> sq n (aspec k n E). Proof. intros [A B]. split; auto. Qed.
Lemma aspec_nft k n E : (1 <= n)%nat -> sq n E -> feq (aspec k n E) (nft 1 n (mul_by k (nft (-1) n E))).
Proof.
  intros Hn S. unfold aspec. eapply feq_trans; [apply pifft_nft; auto; destruct S; split; auto|]. apply nft_feq, mul_by_feq, pfft_nft; auto.
Qed.
Lemma aspec_feq k n E F : (1 <= n)%nat -> sq n E -> feq E F -> feq (aspec k n E) (aspec k n F).
Proof.
  intros Hn S H. eapply feq_trans; [apply aspec_nft; auto|]. eapply feq_trans; [apply nft_feq, mul_by_feq, nft_feq, H|]. apply feq_sym, aspec_nft; auto. eapply feq_sq; eauto.
Qed.
Lemma aspec_compose k k' n E : (1 <= n)%nat -> sq n E -> feq (aspec k' n (aspec k n E)) (aspec (fun u v => Cmult (k' u v) (k u v)) n E).
Proof.
  intros Hn S. eapply feq_trans; [apply aspec_feq with (F := nft 1 n (mul_by k (nft (-1) n E))); [auto|now apply aspec_sq|now apply aspec_nft]|].
  eapply feq_trans; [apply aspec_nft; auto; apply nft_sq, mul_sq, nft_sq, S|]. eapply feq_trans; [|apply feq_sym, aspec_nft; auto].
  apply nft_feq. set (Y := mul_by k (nft (-1) n E)).
  assert (H : feq (nft (-1) n (nft 1 n Y)) Y) by (apply (nft_inv 1 n Y); auto; apply mul_sq, nft_sq, S).
  eapply feq_trans; [apply mul_by_feq, H|]. unfold Y. repeat split. intros. cbn. ring.
Qed.
Lemma mul_by_ext k k' E : (forall u v, k u v = k' u v) -> feq (mul_by k E) (mul_by k' E).
Proof. intros H. repeat split. intros. cbn. now rewrite H. Qed.
Lemma aspec_ext k k' n E : (1 <= n)%nat -> sq n E -> (forall u v, k u v = k' u v) -> feq (aspec k n E) (aspec k' n E).
Proof.
  intros Hn S H. eapply feq_trans; [apply aspec_nft; auto|]. eapply feq_trans; [|apply feq_sym, aspec_nft; auto]. apply nft_feq, mul_by_ext, H.
Qed.
Lemma aspec_one k n E : (1 <= n)%nat -> sq n E -> (forall u v, k u v = RtoC 1) -> feq (aspec k n E) E.
Proof.
  intros Hn S H. eapply feq_trans; [apply aspec_nft; auto|]. eapply feq_trans; [apply nft_feq with (F := nft (-1) n E)|].
  - repeat split. intros. cbn. rewrite H. ring.
  - replace 1 with (- (-1)) at 1 by ring. apply (nft_inv (-1) n E); auto.
Qed.
Lemma aspec_scal k n c E : (1 <= n)%nat -> sq n E -> feq (aspec k n (scal c E)) (scal c (aspec k n E)).
Proof.
  intros Hn S. eapply feq_trans; [apply aspec_nft; auto|]. eapply feq_trans; [|apply scal_feq, feq_sym, aspec_nft; auto].
  eapply feq_trans; [apply nft_feq, mul_by_feq, nft_scal|]. eapply feq_trans; [apply nft_feq with (F := scal c (mul_by k (nft (-1) n E)))|apply nft_scal].
  repeat split. intros. cbn. ring.
Qed.
Lemma aspec_energy k n E : (1 <= n)%nat -> sq n E -> (forall u v, abs2 (k u v) = 1) -> fenergy (aspec k n E) = fenergy E.
Proof.
  intros Hn S H. rewrite (energy_feq _ _ (aspec_nft k n E Hn S)). rewrite nft_energy by (auto; apply mul_sq, nft_sq, S). rewrite energy_mul by auto. apply nft_energy; auto.
Qed.
Lemma ptp_factor_add n lam dx d d' u v : Cmult (ptp_factor n lam dx d' u v) (ptp_factor n lam dx d u v) = ptp_factor n lam dx (d + d') u v.
Proof. unfold ptp_factor. rewrite <- cis_add. f_equal. ring. Qed.
Lemma ptp_factor_0 n lam dx u v : ptp_factor n lam dx 0 u v = RtoC 1.
Proof. unfold ptp_factor. rewrite <- cis_0. f_equal. ring. Qed.
Lemma ptp_factor_unit n lam dx d u v : abs2 (ptp_factor n lam dx d u v) = 1. Proof. apply abs2_cis. Qed.
