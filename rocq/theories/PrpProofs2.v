(* Proof support: every wavefront is the propagated field of its beam waist *)
From Verif Require Import Base RBase CBase PropModel PropSpec PropProofs OptModel PrpModel PrpSpec PrpProofs.
Open Scope R_scope.
Section ops.
Variables (po : bool) (n : nat) (lam : R).
Hypothesis Hn : (1 <= n)%nat.
Hypothesis Hl : 0 < lam.
Definition G (dx d : R) (E : field C) : field C := offset_phase po lam d (aspec (ptp_factor n lam dx d) n E).
Definition WT (dx d : R) (E : field C) : field C := offset_phase po lam d (dirft d n (qphase n lam dx d E)).
Definition ST (dx d : R) (E : field C) : field C := offset_phase po lam d (qphase n lam dx d (dirft d n E)).
Definition ndx (dx d : R) : R := lam * Rabs d / (INR n * dx).
Lemma G_sq dx d E : sq n E -> sq n (G dx d E). Proof. intros. apply off_sq, aspec_sq; auto. Qed.
Lemma WT_sq dx d E : sq n E -> sq n (WT dx d E). Proof. intros. apply off_sq, dirft_sq, qphase_sq; auto. Qed.
Lemma ST_sq dx d E : sq n E -> sq n (ST dx d E). Proof. intros. apply off_sq, qphase_sq, dirft_sq; auto. Qed.
Lemma G_feq dx d E F : sq n E -> feq E F -> feq (G dx d E) (G dx d F). Proof. intros. apply off_feq, aspec_feq; auto. Qed.
Lemma WT_feq dx d E F : sq n E -> feq E F -> feq (WT dx d E) (WT dx d F).
Proof. intros. apply off_feq, dirft_feq; auto; [now apply qphase_sq|now apply qphase_feq]. Qed.
Lemma ST_feq dx d E F : sq n E -> feq E F -> feq (ST dx d E) (ST dx d F).
Proof. intros. apply off_feq, qphase_feq, dirft_feq; auto. Qed.
Lemma G_add dx d d' E : sq n E -> feq (G dx d' (G dx d E)) (G dx (d + d') E).
Proof.
  intros S. unfold G. eapply feq_trans; [|apply off_add; lra]. apply off_feq.
  assert (X : feq (aspec (ptp_factor n lam dx d') n (aspec (ptp_factor n lam dx d) n E)) (aspec (ptp_factor n lam dx (d + d')) n E)).
  { eapply feq_trans; [apply aspec_compose; auto|]. apply aspec_ext; auto. intros. apply ptp_factor_add. }
  eapply feq_trans; [|apply off_feq, X]. unfold offset_phase. destruct po; [|apply feq_refl]. apply aspec_scal; auto; now apply aspec_sq.
Qed.
Lemma G_0 dx E : sq n E -> feq (G dx 0 E) E.
Proof. intros S. unfold G. eapply feq_trans; [apply off_0|]. apply aspec_one; auto. intros. apply ptp_factor_0. Qed.
Lemma ST_WT dx d E : d <> 0 -> sq n E -> feq (ST dx (- d) (WT dx d E)) E.
Proof.
  intros Hd S. unfold ST, WT. set (Q := qphase n lam dx d E).
  assert (SQ : sq n Q) by now apply qphase_sq.
  eapply feq_trans; [apply off_feq, qphase_feq, dirft_off; auto; now apply dirft_sq|].
  eapply feq_trans; [apply off_feq, qphase_off|]. eapply feq_trans; [apply off_add; lra|]. eapply feq_trans; [apply off_same0; ring|].
  eapply feq_trans; [apply qphase_feq, dirft_inv; auto|]. apply qphase_inv. lra.
Qed.
Lemma WT_ST dx d E : d <> 0 -> sq n E -> feq (WT dx (- d) (ST dx d E)) E.
Proof.
  intros Hd S. unfold ST, WT. set (Q := dirft d n E). assert (SQ : sq n Q) by now apply dirft_sq.
  eapply feq_trans; [apply off_feq, dirft_feq with (F := offset_phase po lam d (qphase n lam dx (- d) (qphase n lam dx d Q))); auto; [now apply qphase_sq, off_sq, qphase_sq|apply qphase_off]|].
  eapply feq_trans; [apply off_feq, dirft_off; auto; now apply qphase_sq, qphase_sq|]. eapply feq_trans; [apply off_add; lra|]. eapply feq_trans; [apply off_same0; ring|].
  eapply feq_trans; [apply dirft_feq with (F := Q); auto; [now apply qphase_sq, qphase_sq|apply qphase_inv; lra]|]. now apply dirft_inv.
Qed.
Lemma ndx_pos dx d : 0 < dx -> d <> 0 -> 0 < ndx dx d.
Proof. intros. pose proof (INRpos n Hn). pose proof (Rabs_pos_lt d H0). unfold ndx. apply Rdiv_lt_0_compat; apply Rmult_lt_0_compat; auto. Qed.
Lemma ndx_ndx dx d d' : 0 < dx -> d <> 0 -> Rabs d = Rabs d' -> ndx (ndx dx d) d' = dx.
Proof. intros H H0 E. pose proof (INRpos n Hn). pose proof (Rabs_pos_lt d H0). unfold ndx. rewrite <- E. field. lra. Qed.
Lemma G_energy dx d E : sq n E -> fenergy (G dx d E) = fenergy E.
Proof. intros. unfold G. rewrite off_energy. apply aspec_energy; auto. intros. apply ptp_factor_unit. Qed.
Lemma dirft_energy d E : sq n E -> fenergy (dirft d n E) = fenergy E.
Proof. intros. rewrite (energy_feq _ _ (dirft_nft d n E Hn H)). apply nft_energy; auto. apply dsg_cases. Qed.
Lemma WT_energy dx d E : sq n E -> fenergy (WT dx d E) = fenergy E.
Proof. intros. unfold WT. rewrite off_energy, dirft_energy by now apply qphase_sq. apply qphase_energy. Qed.
Lemma ST_energy dx d E : sq n E -> fenergy (ST dx d E) = fenergy E.
Proof. intros. unfold ST. rewrite off_energy, qphase_energy. now apply dirft_energy. Qed.
End ops.
(* equality of wavefronts *)
Lemma same_refl a : same a a. Proof. constructor; auto. apply feq_refl. Qed.
Lemma same_sym a b : same a b -> same b a. Proof. intros [A]. constructor; auto. now apply feq_sym. Qed.
Lemma same_trans a b c : same a b -> same b c -> same a c. Proof. intros [A] [B]. constructor; try congruence. eapply feq_trans; eauto. Qed.
Lemma moved_same w E F dx pl z z' : feq E F -> z = z' -> same (moved w E dx pl z) (moved w F dx pl z'). Proof. intros H ->. constructor; auto. Qed.
Lemma tiny0 : 0 < / 1000000000000. Proof. apply Rinv_0_lt_compat. lra. Qed.
Definition sized (w : wavefront) : Prop := (1 <= w_n w)%nat /\ sq (w_n w) (w_arr w) /\ 0 < w_lam w.
Lemma coherent_sized w : coherent w -> sized w. Proof. intros C. split; [apply C|]. split; [|apply C]. destruct C; split; auto. Qed.
Definition gmove po (w : wavefront) (d : R) : wavefront := moved w (G po (w_n w) (w_lam w) (w_dx w) d (w_arr w)) (w_dx w) true (w_z w + d).
Definition wmove po (w : wavefront) (d : R) : wavefront := moved w (WT po (w_n w) (w_lam w) (w_dx w) d (w_arr w)) (ndx (w_n w) (w_lam w) (w_dx w) d) false (w_z w + d).
Lemma gmove_same po a b d : sized a -> same a b -> same (gmove po a d) (gmove po b d).
Proof.
  intros (N & S & L) [A B1 B2 B3 B4 B5 B6 B7 B8 B9 B10]. unfold gmove. constructor; cbn; auto; [|congruence]. rewrite <- B1, <- B2, <- B10. now apply G_feq.
Qed.
Lemma wmove_same po a b d : sized a -> same a b -> same (wmove po a d) (wmove po b d).
Proof.
  intros (N & S & L) [A B1 B2 B3 B4 B5 B6 B7 B8 B9 B10]. unfold wmove. constructor; cbn; auto; [|congruence|congruence]. rewrite <- B1, <- B2, <- B10. now apply WT_feq.
Qed.
Lemma sized_same a b : sized a -> same a b -> sized b.
Proof. intros (N & S & L) [A B1 B2 B3 B4 B5 B6 B7 B8 B9 B10]. unfold sized. rewrite <- B10, <- B1. repeat split; auto; destruct S, A as (X & Y & _); congruence. Qed.
Lemma gmove_sized po a d : sized a -> sized (gmove po a d). Proof. intros (N & S & L). split; auto. split; auto. cbn. now apply G_sq. Qed.
Lemma ptp_ok po w d : sized w -> w_planar w = true -> not_tiny d -> exists w', prop_ptp po w d = Ok w' /\ same w' (gmove po w d).
Proof.
  intros (N & S & L0) P T. unfold prop_ptp. pose proof tiny0. destruct (Rlt_dec (Rabs d) (/ 1000000000000)) as [L|L].
  - destruct T as [->|T]; [|lra]. exists w. split; [reflexivity|]. constructor; auto; cbn; [|lra]. apply feq_sym, G_0; auto.
  - rewrite P. cbn [negb]. eexists. split; [reflexivity|]. apply same_refl.
Qed.
Lemma wts_ok po w d : d <> 0 -> prop_wts po w d = wmove po w d.
Proof. intros. unfold prop_wts, wmove. destruct (Req_EM_T d 0); [lra|]. reflexivity. Qed.
(* the field of the waist and its sampling *)
Definition waist_dx (w : wavefront) : R := if w_planar w then w_dx w else ndx (w_n w) (w_lam w) (w_dx w) (w_zw0 w - w_z w).
Definition waist po (w : wavefront) : field C :=
  if w_planar w then G po (w_n w) (w_lam w) (w_dx w) (w_zw0 w - w_z w) (w_arr w) else ST po (w_n w) (w_lam w) (waist_dx w) (w_zw0 w - w_z w) (w_arr w).
Lemma waist_sq po w : sized w -> sq (w_n w) (waist po w).
Proof. intros (N & S & L). unfold waist. destruct (w_planar w); [now apply G_sq|now apply ST_sq]. Qed.
(* the wavefront at z that comes from a waist *)
Definition from_waist po (w : wavefront) (W : field C) (dx : R) (ins pl : bool) (z : R) : wavefront :=
  let d := z - w_zw0 w in
  mkw (if pl then G po (w_n w) (w_lam w) dx d W else WT po (w_n w) (w_lam w) dx d W) (w_lam w) (if pl then dx else ndx (w_n w) (w_lam w) dx d) ins pl z (w_zw0 w) (w_w0 w) (w_zray w) (w_fratio w) (w_n w).
Lemma zray_pos w : coherent w -> 0 < w_zray w.
Proof. intros C. rewrite (co_zr w C). apply Rdiv_lt_0_compat; [|apply C]. apply Rmult_lt_0_compat; [apply PI_RGT_0|]. apply pow_lt, C. Qed.
Lemma outside_nz w : coherent w -> w_planar w = false -> w_zw0 w - w_z w <> 0.
Proof.
  intros C P E. destruct (w_inside w) eqn:I; [rewrite (co_pl w C I) in P; discriminate|]. assert (w_inside w = true); [|congruence].
  apply (co_in w C). rewrite E, Rabs_R0. now apply zray_pos.
Qed.
Lemma stw_ok po w : coherent w -> not_tiny (w_zw0 w - w_z w) -> forall b, exists a, prop_stw po (set_type w b) (w_zw0 w - w_z w) = Ok a /\
  same a (mkw (waist po w) (w_lam w) (waist_dx w) b true (w_zw0 w) (w_zw0 w) (w_w0 w) (w_zray w) (w_fratio w) (w_n w)).
Proof.
  intros C T b. pose proof (coherent_sized w C) as S. unfold prop_stw, waist, waist_dx. cbn [w_planar set_type w_zw0 w_z w_lam w_n w_dx w_arr]. destruct (w_planar w) eqn:P.
  - destruct (ptp_ok po (set_type w b) (w_zw0 w - w_z w)) as (a & E & Sa); [exact S|exact P|exact T|]. exists a. split; auto. eapply same_trans; [apply Sa|].
    constructor; cbn; auto; [apply feq_refl|ring].
  - pose proof (outside_nz w C P). destruct (Req_EM_T (w_zw0 w - w_z w) 0); [lra|]. eexists. split; [reflexivity|].
    constructor; cbn; auto; [apply feq_refl|ring].
Qed.
Lemma inside_true w z : inside_at w z = true <-> Rabs (w_zw0 w - z) < w_zray w.
Proof. unfold inside_at. rewrite Rmult_1_l. destruct (Rlt_dec (Rabs (w_zw0 w - z)) (w_zray w)); split; intros; auto; try discriminate; lra. Qed.
Theorem propagate_ok po w d tp : coherent w -> clear w d -> exists w', prop_propagate po w d tp = Ok w' /\
  same w' (from_waist po w (waist po w) (waist_dx w) (inside_at w (w_z w + d)) (inside_at w (w_z w + d) || tp) (w_z w + d)).
Proof.
  intros C (T1 & T2 & T3). pose proof (coherent_sized w C) as S. destruct S as (N & SQ & L). pose proof (zray_pos w C) as ZR. unfold prop_propagate.
  assert (NZ : inside_at w (w_z w + d) = false -> w_z w + d - w_zw0 w <> 0).
  { intros I E. assert (X : inside_at w (w_z w + d) = true); [|congruence]. apply inside_true. replace (w_zw0 w - (w_z w + d)) with (- 0) by lra. rewrite Ropp_0, Rabs_R0. auto. }
  set (b := inside_at w (w_z w + d)) in *.
  assert (GG : forall a, same a (mkw (waist po w) (w_lam w) (waist_dx w) b true (w_zw0 w) (w_zw0 w) (w_w0 w) (w_zray w) (w_fratio w) (w_n w)) ->
    exists w', prop_ptp po a (w_z w + d - w_zw0 w) = Ok w' /\ same w' (from_waist po w (waist po w) (waist_dx w) b true (w_z w + d))).
  { intros a Sa. assert (Sz : sized a). { apply (sized_same _ _) with (2 := same_sym _ _ Sa). split; auto. split; auto. cbn. now apply waist_sq. }
    destruct (ptp_ok po a (w_z w + d - w_zw0 w)) as (w' & E & Sw); [exact Sz|rewrite (sm_pl _ _ Sa); reflexivity|auto|].
    exists w'. split; auto. eapply same_trans; [apply Sw|]. eapply same_trans; [apply gmove_same; [exact Sz|exact Sa]|]. constructor; cbn; auto; [apply feq_refl|ring]. }
  assert (WW : forall a, b = false -> same a (mkw (waist po w) (w_lam w) (waist_dx w) b true (w_zw0 w) (w_zw0 w) (w_w0 w) (w_zray w) (w_fratio w) (w_n w)) ->
    same (prop_wts po a (w_z w + d - w_zw0 w)) (from_waist po w (waist po w) (waist_dx w) b false (w_z w + d))).
  { intros a Hb Sa. assert (Sz : sized a). { apply (sized_same _ _) with (2 := same_sym _ _ Sa). split; auto. split; auto. cbn. now apply waist_sq. }
    rewrite wts_ok by auto. eapply same_trans; [apply wmove_same; [exact Sz|exact Sa]|]. constructor; cbn; auto; [apply feq_refl|ring]. }
  destruct (w_inside w) eqn:I.
  - pose proof (co_pl w C I) as P. destruct (b || tp)%bool eqn:BT.
    + destruct (ptp_ok po (set_type w b) d) as (w' & E & Sw); [split; auto|auto|auto|]. exists w'. split; auto. eapply same_trans; [apply Sw|]. constructor; cbn; auto.
      * unfold waist, waist_dx. rewrite P. apply feq_sym. eapply feq_trans; [apply G_add; auto|]. replace (w_zw0 w - w_z w + (w_z w + d - w_zw0 w)) with d by ring. apply feq_refl.
      * unfold waist_dx. now rewrite P.
    + apply orb_false_iff in BT as [Hb _]. destruct (ptp_ok po (set_type w b) (w_zw0 w - w_z w)) as (a & E & Sa); [split; auto|auto|auto|]. rewrite E. cbn [rbind]. eexists. split; [reflexivity|].
      apply WW; auto. eapply same_trans; [apply Sa|]. unfold waist, waist_dx. rewrite P. constructor; cbn; auto; [apply feq_refl|ring].
  - destruct (stw_ok po w C T2 b) as (a & E & Sa). destruct (b || tp)%bool eqn:BT; rewrite E; cbn [rbind].
    + now apply GG.
    + apply orb_false_iff in BT as [Hb _]. eexists. split; [reflexivity|]. now apply WW.
Qed.
