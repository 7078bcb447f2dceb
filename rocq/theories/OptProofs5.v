From Verif Require Import Base RBase StrBase UtilModel CBase PropModel PropSpec PropProofs PropProofs2 OptModel OptSpec LinBase OptProofs OptProofs2 OptProofs3 OptProofs4.
Open Scope R_scope.

(* normalisation *)
Lemma normalise_scaled n1 n2 F : 0 < n1 -> 0 < n2 -> scaled (RtoC (sqrt n1 / sqrt n2)) (normalise n1 F) (normalise n2 F).
Proof.
  intros H1 H2. unfold normalise. destruct (Req_EM_T n1 0); [lra|]. destruct (Req_EM_T n2 0); [lra|]. split; [reflexivity|]. split; [reflexivity|]. intros i j _ _. cbn.
  apply sqrt_lt_R0 in H1, H2. assert (A1 : RtoC (sqrt n1) <> RtoC 0) by (intros Q; apply RtoC_inj in Q; lra). assert (A2 : RtoC (sqrt n2) <> RtoC 0) by (intros Q; apply RtoC_inj in Q; lra).
  rewrite RtoC_div by lra. field. split; auto.
Qed.
Lemma normalise_0 n F : 0 < n -> scaled (RtoC (sqrt n)) (normalise n F) (normalise 0 F).
Proof.
  intros H. unfold normalise. destruct (Req_EM_T n 0); [lra|]. destruct (Req_EM_T 0 0); [|lra]. split; [reflexivity|]. split; [reflexivity|]. intros i j _ _. cbn.
  apply sqrt_lt_R0 in H. assert (A1 : RtoC (sqrt n) <> RtoC 0) by (intros Q; apply RtoC_inj in Q; lra). field. auto.
Qed.
Lemma full_norm o w n1 n2 sc E F1 : 0 < n1 -> 0 < n2 -> full_Fourier o w n1 sc E = Ok F1 -> exists F2, full_Fourier o w n2 sc E = Ok F2 /\ scaled (RtoC (sqrt n1 / sqrt n2)) F1 F2.
Proof.
  intros H1 H2. unfold full_Fourier. destruct (fpm_scale o w sc); cbn [rbind]; [|discriminate]. destruct (full_to_P3 o w E); cbn [rbind]; [|discriminate]. destruct (full_P3_to_P4 o w r f); cbn [rbind]; [|discriminate].
  destruct (Req_EM_T n1 0); [lra|]. destruct (Req_EM_T n2 0); [lra|]. cbn [rbind]. destruct (imul f0 (o_lyot o)); cbn [rbind]; [|discriminate]. destruct (to_Fend _ _ _ _); cbn [rbind]; [|discriminate].
  intros Q. injection Q as <-. eexists. split; [reflexivity|]. now apply normalise_scaled.
Qed.
Lemma full_norm0 o w n sc E F : 0 < n -> is_vortex o = false -> full_Fourier o w n sc E = Ok F -> exists F0, full_Fourier o w 0 sc E = Ok F0 /\ scaled (RtoC (sqrt n)) F F0.
Proof.
  intros H1 Hv. unfold full_Fourier. rewrite Hv. destruct (fpm_scale o w sc); cbn [rbind]; [|discriminate]. destruct (full_to_P3 o w E); cbn [rbind]; [|discriminate]. destruct (full_P3_to_P4 o w r f); cbn [rbind]; [|discriminate].
  destruct (Req_EM_T n 0); [lra|]. destruct (Req_EM_T 0 0); [|lra]. cbn [rbind]. destruct (imul f0 (o_lyot o)); cbn [rbind]; [|discriminate]. destruct (to_Fend _ _ _ _); cbn [rbind]; [|discriminate].
  intros Q. injection Q as <-. eexists. split; [reflexivity|]. now apply normalise_0.
Qed.
Lemma compact_norm o w n1 n2 ev sc fpm E F1 : 0 < n1 -> 0 < n2 -> compact_field o w n1 ev sc fpm E = Ok F1 -> exists F2, compact_field o w n2 ev sc fpm E = Ok F2 /\ scaled (RtoC (sqrt n1 / sqrt n2)) F1 F2.
Proof.
  intros H1 H2. rewrite !compact_field_eq. destruct (compact_trans o); cbn [rbind]; [|discriminate]. destruct (fpm_scale o w sc); cbn [rbind]; [|discriminate]. destruct (compact_EP3 o w E); cbn [rbind]; [|discriminate].
  unfold compact_from. destruct (Req_EM_T n1 0); [lra|]. destruct (Req_EM_T n2 0); [lra|]. cbn [rbind]. destruct (compact_P3_to_P4 _ _ _ _ _ _); cbn [rbind]; [|discriminate]. destruct (bop _ _ _); cbn [rbind]; [|discriminate]. destruct (to_Fend _ _ _ _); cbn [rbind]; [|discriminate].
  intros Q. injection Q as <-. eexists. split; [reflexivity|]. now apply normalise_scaled.
Qed.
Lemma compact_norm0 o w n ev sc fpm E F : 0 < n -> is_vortex o = false \/ fpm = false -> compact_field o w n ev sc fpm E = Ok F -> exists F0, compact_field o w 0 ev sc fpm E = Ok F0 /\ scaled (RtoC (sqrt n)) F F0.
Proof.
  intros H1 Hv. rewrite !compact_field_eq. destruct (compact_trans o); cbn [rbind]; [|discriminate]. destruct (fpm_scale o w sc); cbn [rbind]; [|discriminate]. destruct (compact_EP3 o w E); cbn [rbind]; [|discriminate].
  unfold compact_from. destruct (Req_EM_T n 0); [lra|]. destruct (Req_EM_T 0 0); [|lra]. replace (if is_vortex o then false else fpm) with fpm by (destruct Hv as [-> | ->]; [auto|destruct (is_vortex o); auto]).
  destruct (compact_P3_to_P4 _ _ _ _ _ _); cbn [rbind]; [|discriminate]. destruct (bop _ _ _); cbn [rbind]; [|discriminate]. destruct (to_Fend _ _ _ _); cbn [rbind]; [|discriminate].
  intros Q. injection Q as <-. eexists. split; [reflexivity|]. now apply normalise_0.
Qed.
(* a vortex is taken out of the beam in a normalisation run *)
Lemma compact_norm0_vortex o w ev sc fpm E : is_vortex o = true -> compact_field o w 0 ev sc fpm E = compact_field o w 0 ev sc false E.
Proof. intros Hv. unfold compact_field, compact_general. rewrite Hv. destruct (Req_EM_T 0 0); [|lra]. reflexivity. Qed.

(* Lyot plane to final plane: same in both models *)
Lemma lyot_end o w g nf A B : shape A (o_narr4 o) (o_narr4 o) -> feq A B -> frows (o_lyot o) = o_narr4 o /\ fcols (o_lyot o) = o_narr4 o ->
  req_field (do P <- imul A (o_lyot o); do F <- to_Fend o w g P; Ok (normalise nf F)) (do P <- bop Cmult (o_lyot o) B; do F <- to_Fend o w g P; Ok (normalise nf F)).
Proof.
  intros SA HAB SL. pose proof (shape_feq _ _ _ _ SA HAB) as SB. destruct (imul_sq A (o_lyot o) _ _ SA SL) as (P & -> & [P1 P2] & V). destruct (bop_sq Cmult (o_lyot o) B _ _ SL SB) as (Q & -> & [Q1 Q2] & W). cbn [rbind].
  assert (HPQ : feq P Q). { split; [congruence|]. split; [congruence|]. intros i j Hi Hj. rewrite V, W by congruence. destruct HAB as (_ & _ & HV). destruct SA. rewrite HV by congruence. ring. }
  apply req_bind_lin; [|apply lin_normalise]. apply lin_feq; [apply lin_to_Fend|exact HPQ].
Qed.
Lemma minus_scal1 A B : req_field (bop Cminus A B) (bop Cminus (scal (RtoC 1) A) B).
Proof.
  unfold bop, scal, fmap. cbn [frows fcols fpx]. destruct (bdim (frows A) (frows B)); [|reflexivity]. destruct (bdim (fcols A) (fcols B)); [|reflexivity]. split; [reflexivity|]. split; [reflexivity|]. cbn. intros. ring.
Qed.
Local Open Scope string_scope.
(* full and compact mask propagation agree *)
Lemma P4_equal o w t E E' n : well_formed o -> lyot_like o -> (upper (o_coro o) = "HLC" -> o_trans o = None) -> compact_trans o = Ok t -> 0 < w -> (1 <= n)%nat -> shape E n n -> feq E E' ->
  req_field (full_P3_to_P4 o w 1 E) (compact_P3_to_P4 o w 1 t true E').
Proof.
  intros W L HT Et Hw Hn S Q. pose proof (lin_feq _ _ _ (lin_full_P3_P4 o w 1) Q) as HQ. apply (req_trans _ _ _ HQ). pose proof (shape_feq _ _ _ _ S Q) as S'. clear HQ S E Q. rename E' into E, S' into S.
  destruct (wf_f3 o W) as (G1 & G2 & G3 & G4). pose proof (wf_narr4 o W) as HN. unfold full_P3_to_P4, compact_P3_to_P4, is_vortex, p2f_f3, f2p_f3. rewrite !Rmult_1_l.
  assert (Cs : upper (o_coro o) = "LC" \/ upper (o_coro o) = "APLC" \/ upper (o_coro o) = "HLC" \/ upper (o_coro o) = "FLC" \/ upper (o_coro o) = "SPLC") by (unfold lyot_like in L; cbn in L; intuition auto).
  assert (LC : forall b : bool, b = true -> compact_trans o = Ok (RtoC 1) -> req_field (do inc <- mft_p2f E (o_fl o) w (o_dx2 o) (g_dxi (o_f3 o)) (g_Nxi (o_f3 o)) (g_deta (o_f3 o)) (g_Neta (o_f3 o)) (o_cen o);
     do EF3 <- bop Cmult (fmap (fun m => Cminus (RtoC 1) m) (o_fpm o)) inc; do sub <- mft_f2p EF3 (o_fl o) w (g_dxi (o_f3 o)) (g_deta (o_f3 o)) (o_dx4 o) (o_narr4 o) (o_cen o);
     do no <- relay E (nrel o (o_n34 o)) (o_cen o); do sub' <- relay sub (nrel o (o_n34 o) - 1) (o_cen o); do no' <- pad_cropf no (o_narr4 o) (o_narr4 o); bop Cminus no' sub')
    (do inc <- mft_p2f E (o_fl o) w (o_dx2 o) (g_dxi (o_f3 o)) (g_Nxi (o_f3 o)) (g_deta (o_f3 o)) (g_Neta (o_f3 o)) (o_cen o);
     do EF3 <- bop Cmult (fmap (fun m => Cminus t m) (o_fpm o)) inc; do no <- relay E (nrel o (o_n34 o)) (o_cen o); do no' <- pad_cropf no (o_narr4 o) (o_narr4 o);
     do sub <- mft_f2p EF3 (o_fl o) w (g_dxi (o_f3 o)) (g_deta (o_f3 o)) (o_dx4 o) (o_narr4 o) (o_cen o); do sub' <- relay sub (nrel o (o_n34 o) - 1) (o_cen o); bop Cminus (scal t no') sub')).
  { intros _ _ Et1. rewrite Et in Et1. injection Et1 as ->.
    destruct (oks_p2f E (o_fl o) w (o_dx2 o) (g_dxi (o_f3 o)) (g_Nxi (o_f3 o)) (g_deta (o_f3 o)) (g_Neta (o_f3 o)) (o_cen o) n) as (inc & -> & Si); auto; try apply W. cbn [rbind].
    destruct (oks_bop Cmult (fmap (fun m => Cminus (RtoC 1) m) (o_fpm o)) inc _ _ (fpm_shape o _ W) Si) as (EF3 & -> & S3). cbn [rbind].
    destruct (oks_f2p EF3 (o_fl o) w (g_dxi (o_f3 o)) (g_deta (o_f3 o)) (o_dx4 o) (o_narr4 o) (o_cen o) (g_Neta (o_f3 o)) (g_Nxi (o_f3 o))) as (sub & -> & Ss); auto; try apply W. cbn [rbind].
    destruct (oks_relay E (nrel o (o_n34 o)) (o_cen o) n n (wf_cen o W) S) as (no & -> & Sn). cbn [rbind]. destruct (oks_relay sub (nrel o (o_n34 o) - 1) (o_cen o) _ _ (wf_cen o W) Ss) as (sub' & -> & Ss'). cbn [rbind].
    destruct (oks_pad no (o_narr4 o) (o_narr4 o) HN HN) as (no' & -> & Sno). cbn [rbind]. apply minus_scal1. }
  unfold compact_trans in *.
  destruct Cs as [Ec|[Ec|[Ec|[Ec|Ec]]]]; rewrite Ec in *; cbn [str_in existsb orb String.eqb Ascii.eqb Bool.eqb] in *.
  - apply (LC true); auto.
  - apply (LC true); auto.
  - rewrite (HT eq_refl). rewrite Et. cbn [rbind]. apply req_refl.
  - apply req_refl.
  - apply req_refl.
Qed.
Local Close Scope string_scope.
Lemma lyot_not_vortex o : lyot_like o -> is_vortex o = false.
Proof. intros L. unfold lyot_like in L. cbn in L. unfold is_vortex. destruct L as [<-|[<-|[<-|[<-|[<-|[]]]]]]; reflexivity. Qed.
Local Open Scope string_scope.
Lemma full_compact_equal o w nf E : well_formed o -> lyot_like o -> (upper (o_coro o) = "HLC" -> o_trans o = None) -> 0 < w ->
  exists F G, full_Fourier o w nf false E = Ok F /\ compact_field o w nf false false true E = Ok G /\ feq F G.
Proof.
  intros W L HT Hw. destruct (full_succeeds o w nf false E W (or_introl L) Hw) as (F & EF & _). destruct (compact_succeeds o w nf false false true E W (or_introl L) Hw) as (G & EG & _).
  exists F, G. split; [auto|]. split; [auto|]. assert (R : req_field (full_Fourier o w nf false E) (compact_field o w nf false false true E)); [|rewrite EF, EG in R; exact R].
  rewrite compact_field_eq. unfold full_Fourier. destruct (oks_trans o W) as [t Et]. rewrite Et. cbn [rbind fpm_scale]. 
  pose proof (P3_equal o w E (wf_surf o W) (wf_wfe o W)) as H3. destruct (oks_full_P3 o w E W Hw) as (P3 & E3 & S3). rewrite E3 in *. destruct (compact_EP3 o w E) as [P3'|]; [|destruct H3]. cbn [rbind req_field] in *.
  unfold compact_from. rewrite (lyot_not_vortex o L). replace (if Req_EM_T nf 0 then true else true) with true by (destruct (Req_EM_T nf 0); auto).
  pose proof (P4_equal o w t P3 P3' _ W L HT Et Hw (p3_pos o W) S3 H3) as H4. destruct (oks_full_P3_P4 o w 1 P3 _ W (or_introl L) Hw ltac:(lra) (p3_pos o W) S3) as (P4 & E4 & S4). rewrite E4 in *.
  destruct (compact_P3_to_P4 _ _ _ _ _ _) as [P4'|]; [|destruct H4]. cbn [rbind req_field] in *.
  replace (if Req_EM_T nf 0 then Ok P4 else Ok P4) with (Ok P4) by (destruct (Req_EM_T nf 0); auto). cbn [rbind].
  apply lyot_end; [auto|auto|apply W].
Qed.
Local Close Scope string_scope.
