(* Proof support: propagations compose *)
From Verif Require Import Base RBase CBase PropModel PropSpec PropProofs OptModel PrpModel PrpSpec PrpProofs PrpProofs2.
Open Scope R_scope.
Lemma coherent_same a b : coherent a -> same a b -> coherent b.
Proof.
  intros [N R1 C1 L D W Z I P] [A B1 B2 B3 B4 B5 B6 B7 B8 B9 B10]. destruct A as (A1 & A2 & _). constructor; rewrite <- ?B1, <- ?B2, <- ?B3, <- ?B4, <- ?B5, <- ?B6, <- ?B7, <- ?B8, <- ?B9, <- ?B10, <- ?A1, <- ?A2; auto.
Qed.
Lemma waist_dx_same a b : same a b -> waist_dx a = waist_dx b.
Proof. intros [A B1 B2 B3 B4 B5 B6 B7 B8 B9 B10]. unfold waist_dx. now rewrite B4, B2, B10, B1, B6, B5. Qed.
Lemma waist_same po a b : sized a -> same a b -> feq (waist po a) (waist po b).
Proof.
  intros (N & S & L) H. unfold waist. rewrite <- (waist_dx_same a b H). destruct H as [A B1 B2 B3 B4 B5 B6 B7 B8 B9 B10]. rewrite <- B4, <- B2, <- B10, <- B1, <- B6, <- B5.
  destruct (w_planar a); [now apply G_feq|now apply ST_feq].
Qed.
Lemma waist_dx_pos w : coherent w -> 0 < waist_dx w.
Proof. intros C. unfold waist_dx. destruct (w_planar w) eqn:P; [apply C|]. apply ndx_pos; [apply C|apply C|apply C|now apply outside_nz]. Qed.
Definition consistent (w : wavefront) (ins pl : bool) (z : R) : Prop := ins = inside_at w z /\ (ins = true -> pl = true).
Lemma cons_nz w ins pl z : coherent w -> consistent w ins pl z -> pl = false -> z - w_zw0 w <> 0.
Proof.
  intros C [H1 H2] P E. destruct ins; [rewrite H2 in P; [discriminate|auto]|]. assert (X : inside_at w z = true); [|congruence]. apply inside_true.
  replace (w_zw0 w - z) with 0 by lra. rewrite Rabs_R0. now apply zray_pos.
Qed.
Lemma from_coherent po w W dx ins pl z : coherent w -> sq (w_n w) W -> 0 < dx -> consistent w ins pl z -> coherent (from_waist po w W dx ins pl z).
Proof.
  intros C S D K. pose proof (cons_nz w ins pl z C K) as NZ. destruct K as [K1 K2].
  assert (Q : sq (w_n w) (w_arr (from_waist po w W dx ins pl z))) by (cbn; destruct pl; [now apply G_sq|now apply WT_sq]).
  destruct Q as [Q1 Q2]. destruct C as [N R1 C1 L D0 W0 Z I P]. constructor; cbn; auto.
  - destruct pl; auto. apply ndx_pos; auto.
  - rewrite K1. apply inside_true.
Qed.
Lemma waist_from po w W dx ins pl z : coherent w -> sq (w_n w) W -> 0 < dx -> consistent w ins pl z ->
  feq (waist po (from_waist po w W dx ins pl z)) W /\ waist_dx (from_waist po w W dx ins pl z) = dx.
Proof.
  intros C S D K. pose proof (cons_nz w ins pl z C K) as NZ.
  assert (E : waist_dx (from_waist po w W dx ins pl z) = dx).
  { unfold waist_dx. cbn. destruct pl; auto. apply ndx_ndx; auto; [apply C|apply C|]. rewrite <- Rabs_Ropp. f_equal. ring. }
  split; auto. unfold waist. rewrite E. cbn. destruct pl.
  - eapply feq_trans; [apply G_add; [apply C|apply C|auto]|]. replace (z - w_zw0 w + (w_zw0 w - z)) with 0 by ring. apply G_0; [apply C|auto].
  - replace (w_zw0 w - z) with (- (z - w_zw0 w)) by ring. apply ST_WT; auto; apply C.
Qed.
(* two waists with the same attributes *)
Lemma from_same po w v W V dx ins pl z : coherent w -> sq (w_n w) W -> feq W V -> w_n w = w_n v -> w_lam w = w_lam v -> w_zw0 w = w_zw0 v -> w_w0 w = w_w0 v -> w_zray w = w_zray v -> w_fratio w = w_fratio v ->
  same (from_waist po w W dx ins pl z) (from_waist po v V dx ins pl z).
Proof.
  intros C S H E1 E2 E3 E4 E5 E6. unfold from_waist. rewrite <- E1, <- E2, <- E3, <- E4, <- E5, <- E6. constructor; cbn; auto. destruct pl; [apply G_feq; auto; apply C|apply WT_feq; auto; apply C].
Qed.
Lemma cons_or w z tp : consistent w (inside_at w z) (inside_at w z || tp) z. Proof. split; auto. intros ->. reflexivity. Qed.
Lemma propagate_coherent po w d tp w' : coherent w -> clear w d -> prop_propagate po w d tp = Ok w' -> coherent w'.
Proof.
  intros C K E. destruct (propagate_ok po w d tp C K) as (v & Ev & Sv). rewrite Ev in E. injection E as <-. apply (coherent_same _ _) with (2 := same_sym _ _ Sv).
  apply from_coherent; auto; [apply waist_sq, coherent_sized, C|now apply waist_dx_pos|apply cons_or].
Qed.
Lemma propagate_compose po w d1 d2 t1 t2 : coherent w -> clear w d1 -> not_tiny d2 -> clear w (d1 + d2) ->
  exists w1 w2 w3, prop_propagate po w d1 t1 = Ok w1 /\ prop_propagate po w1 d2 t2 = Ok w2 /\ prop_propagate po w (d1 + d2) t2 = Ok w3 /\ same w2 w3.
Proof.
  intros C K1 T2 K3. destruct (propagate_ok po w d1 t1 C K1) as (w1 & E1 & S1). destruct (propagate_ok po w (d1 + d2) t2 C K3) as (w3 & E3 & S3).
  pose proof (propagate_coherent po w d1 t1 w1 C K1 E1) as C1. pose proof (coherent_sized w C) as SZ.
  pose proof (waist_sq po w SZ) as SQ. pose proof (waist_dx_pos w C) as DX.
  destruct K1 as (K11 & K12 & K13), K3 as (K31 & K32 & K33).
  assert (Ez : w_z w1 = w_z w + d1) by (rewrite (sm_z _ _ S1); reflexivity). assert (Ew : w_zw0 w1 = w_zw0 w) by (rewrite (sm_zw0 _ _ S1); reflexivity).
  assert (Er : w_zray w1 = w_zray w) by (rewrite (sm_zr _ _ S1); reflexivity).
  assert (K2 : clear w1 d2).
  { split; auto. rewrite Ez, Ew. split.
    - destruct K13 as [K|K]; [left; lra|right]. rewrite <- Rabs_Ropp. replace (- (w_zw0 w - (w_z w + d1))) with (w_z w + d1 - w_zw0 w) by ring. auto.
    - replace (w_z w + d1 + d2 - w_zw0 w) with (w_z w + (d1 + d2) - w_zw0 w) by ring. auto. }
  destruct (propagate_ok po w1 d2 t2 C1 K2) as (w2 & E2 & S2). exists w1, w2, w3. repeat (split; [assumption|]).
  eapply same_trans; [exact S2|]. apply same_sym. eapply same_trans; [exact S3|].
  set (z := w_z w + (d1 + d2)). replace (w_z w1 + d2) with z by (unfold z; rewrite Ez; ring).
  assert (IE : inside_at w1 z = inside_at w z) by (unfold inside_at; now rewrite Ew, Er). rewrite IE.
  destruct (waist_from po w (waist po w) (waist_dx w) (inside_at w (w_z w + d1)) (inside_at w (w_z w + d1) || t1) (w_z w + d1) C SQ DX (cons_or _ _ _)) as [W1 W2].
  rewrite (waist_dx_same _ _ S1), W2. apply from_same; auto; try (symmetry; rewrite ?(sm_n _ _ S1), ?(sm_lam _ _ S1), ?(sm_w0 _ _ S1), ?(sm_f _ _ S1); try reflexivity; auto).
  eapply feq_trans; [apply feq_sym, W1|]. apply feq_sym, waist_same; auto. now apply coherent_sized.
Qed.
(* the state itself *)
Lemma propagate_zero po w : coherent w -> not_tiny (w_zw0 w - w_z w) -> w_inside w = w_planar w -> exists w', prop_propagate po w 0 false = Ok w' /\ same w' w.
Proof.
  intros C T P. assert (K : clear w 0). { split; [now left|]. split; auto. destruct T as [T|T]; [left; lra|right]. rewrite <- Rabs_Ropp. replace (- (w_z w + 0 - w_zw0 w)) with (w_zw0 w - w_z w) by ring. auto. }
  destruct (propagate_ok po w 0 false C K) as (w' & E & S). exists w'. split; auto. eapply same_trans; [exact S|]. rewrite Rplus_0_r.
  assert (I : inside_at w (w_z w) = w_inside w). { apply eq_true_iff_eq. rewrite inside_true. symmetry. apply (co_in w C). }
  rewrite I, orb_false_r, P. pose proof (coherent_sized w C) as (N & SQ & L). constructor; cbn; auto.
  - unfold waist, waist_dx. destruct (w_planar w) eqn:Q.
    + eapply feq_trans; [apply G_add; auto|]. replace (w_zw0 w - w_z w + (w_z w - w_zw0 w)) with 0 by ring. now apply G_0.
    + replace (w_z w - w_zw0 w) with (- (w_zw0 w - w_z w)) by ring. apply WT_ST; auto. now apply outside_nz.
  - unfold waist_dx. destruct (w_planar w) eqn:Q; auto. apply ndx_ndx; auto; [apply C|now apply outside_nz|]. rewrite <- Rabs_Ropp. f_equal. ring.
Qed.
(* energy: no condition on distances *)
Lemma ptp_energy po w d w' : sized w -> prop_ptp po w d = Ok w' -> fenergy (w_arr w') = fenergy (w_arr w) /\ sized w'.
Proof.
  intros (N & S & L) E. unfold prop_ptp in E. destruct (Rlt_dec _ _); [injection E as <-; split; auto; split; auto|]. destruct (negb (w_planar w)); [discriminate|]. injection E as <-.
  change (fenergy (w_arr (gmove po w d)) = fenergy (w_arr w) /\ sized (gmove po w d)). split; [|apply gmove_sized; split; auto]. cbn. now apply G_energy.
Qed.
Lemma wts_energy po w d : sized w -> fenergy (w_arr (prop_wts po w d)) = fenergy (w_arr w) /\ sized (prop_wts po w d).
Proof.
  intros (N & S & L). destruct (Req_EM_T d 0) as [->|H].
  - unfold prop_wts. destruct (Req_EM_T 0 0); [|lra]. split; auto. split; auto.
  - rewrite wts_ok by auto. split; [cbn; now apply WT_energy|]. split; auto. split; auto. cbn. now apply WT_sq.
Qed.
Lemma stw_energy po w d w' : sized w -> prop_stw po w d = Ok w' -> fenergy (w_arr w') = fenergy (w_arr w) /\ sized w'.
Proof.
  intros S0 E. pose proof S0 as (N & S & L). unfold prop_stw in E. destruct (w_planar w); [now apply ptp_energy in E|]. injection E as <-. set (dz := if Req_EM_T d 0 then w_zw0 w - w_z w else d). set (dx := _ / _).
  change (fenergy (ST po (w_n w) (w_lam w) dx dz (w_arr w)) = fenergy (w_arr w) /\ sized (moved w (ST po (w_n w) (w_lam w) dx dz (w_arr w)) dx true (w_z w + dz))).
  split; [now apply ST_energy|]. split; auto. split; auto. cbn. now apply ST_sq.
Qed.
Lemma propagate_energy po w d tp w' : sized w -> prop_propagate po w d tp = Ok w' -> fenergy (w_arr w') = fenergy (w_arr w) /\ sized w'.
Proof.
  intros S E. unfold prop_propagate in E. set (b := inside_at w (w_z w + d)) in E. assert (S1 : sized (set_type w b)) by exact S. change (w_arr w) with (w_arr (set_type w b)).
  destruct (w_inside w), (b || tp)%bool.
  - now apply ptp_energy in E.
  - destruct (prop_ptp po (set_type w b) _) as [a|] eqn:A; [|discriminate]. apply ptp_energy in A as [A1 A2]; auto. injection E as <-. rewrite <- A1. now apply wts_energy.
  - destruct (prop_stw po (set_type w b) _) as [a|] eqn:A; [|discriminate]. apply stw_energy in A as [A1 A2]; auto. cbn [rbind] in E. rewrite <- A1. now apply ptp_energy in E.
  - destruct (prop_stw po (set_type w b) _) as [a|] eqn:A; [|discriminate]. apply stw_energy in A as [A1 A2]; auto. injection E as <-. rewrite <- A1. now apply wts_energy.
Qed.
