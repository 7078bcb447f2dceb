(* The reverse pass, continued: focal-plane mask and camera. *)
From Verif Require Import Base RBase StrBase UtilModel CBase PropModel PropSpec PropProofs PropProofs2 OptModel OptSpec LinBase OptProofs OptProofs2 OptProofs3 OptProofs4 OptProofs7 GradModel GradSpec GradAdj GradAdj2 GradProofs.
Open Scope R_scope.
Local Open Scope string_scope.

Definition fwd_mid (o : optics) (w : R) (E : field C) : res (field C) := do P4 <- compact_P3_to_P4 o w 1 (RtoC 1) true E; bop Cmult (o_lyot o) P4.
Definition rev_mid (o : optics) (w : R) (G : field C) : res (field C) := do g <- rev_lyot o G; rev_P4_to_P3 o w (RtoC 1) g.

Lemma lin_rev_f3 o w K : lin (rev_f3 o w K).
Proof. unfold rev_f3, rev_p2f3, rev_f2p3. apply lin_bind; [lstep|]. apply lin_bind; [apply lin_p2f|]. apply lin_bind; [lstep|apply lin_f2p]. Qed.
Lemma oks_adj s f rf n m n' m' E : adj s f rf n m n' m' -> shape E n m -> oks (f E) n' m'.
Proof. intros H S. destruct (H E (mkf n' m' (fun _ _ => RtoC 0)) S (conj eq_refl eq_refl)) as (O & _ & EO & SO & _). exists O. auto. Qed.
Lemma oks_radj s f rf n m n' m' G : adj s f rf n m n' m' -> shape G n' m' -> oks (rf G) n m.
Proof. intros H S. destruct (H (mkf n m (fun _ _ => RtoC 0)) G (conj eq_refl eq_refl) S) as (_ & O & _ & _ & EO & SO & _). exists O. auto. Qed.
Lemma rev_lyot_zero o G O : well_formed o -> shape G (o_narr4 o) (o_narr4 o) -> rev_lyot o G = Ok O ->
  forall i j, (i < o_narr4 o)%nat -> (j < o_narr4 o)%nat -> fpx (o_lyot o) i j = RtoC 0 -> fpx O i j = RtoC 0.
Proof.
  intros W SG EO i j Hi Hj Z. destruct (rev_lyot_px o G W SG) as (O' & EO' & _ & V). rewrite EO in EO'. injection EO' as <-. rewrite V, Z, conj_RtoC by auto. ring.
Qed.
Lemma not_in_names o l : ~ In (upper (o_coro o)) l -> str_in (upper (o_coro o)) l = false.
Proof. intros H. destruct (str_in _ _) eqn:B; auto. apply str_in_iff in B. contradiction. Qed.
Ltac name_false := apply not_in_names; cbn in *; intuition congruence.
Lemma adj_mid o w : gradient_ready o -> 0 < w -> adj 1 (fwd_mid o w) (rev_mid o w) (o_pad o) (o_pad o) (o_narr4 o) (o_narr4 o).
Proof.
  intros G Hw. pose proof (gr_wf o G) as W. pose proof (wf_pad o W) as Hn. pose proof (wf_narr4 o W) as HN. set (n := o_pad o). set (N := o_narr4 o).
  destruct (gr_coro o G) as [[Hv [q Hq]]|(Hl & Hd & He & HR)].
  - (* vortex *)
    apply str_in_iff in Hv. destruct (wf_nbeam o W) as [Hb _].
    eapply adj_conv; [eapply adj_bind; [exact (adj_vortex q (o_nbeam1 o / 2) 0.3 5 n ltac:(lra) ltac:(lra) ltac:(lra))|]; eapply adj_bind; [exact (adj_relay (nrel o (o_n34 o) - 1) (o_cen o) n n (wf_cen o W))|];
      eapply adj_bind; [exact (adj_pad_crop N N n n HN HN Hn Hn)|exact (adj_lyot o W)]|ring| |].
    + intros E SE. unfold fwd_mid, compact_P3_to_P4, is_vortex, vortex_prop. rewrite Hv, Hq. cbn [get_charge rbind]. symmetry. flat.
    + intros E SE. unfold rev_mid, rev_P4_to_P3. cbv zeta. rewrite Hv, Hq. cbn [get_charge rbind]. flat.
  - assert (Nv : str_in (upper (o_coro o)) ["VORTEX"; "VC"; "AVC"] = false) by name_false.
    destruct (str_in (upper (o_coro o)) ["FLC"; "SPLC"]) eqn:B1.
    + (* field-stop coronagraphs *)
      eapply adj_conv; [eapply adj_bind; [exact (adj_f3 o w (o_fpm o) W Hw Hd He (wf_fpm o W))|exact (adj_lyot o W)]|ring| |].
      * intros E SE. unfold fwd_mid, compact_P3_to_P4, is_vortex, through_f3. rewrite Nv, B1. flat.
      * intros E SE. unfold rev_mid, rev_P4_to_P3. cbv zeta. rewrite Nv, B1. reflexivity.
    + (* Lyot coronagraphs *)
      assert (Hlc : In (upper (o_coro o)) ["LC"; "APLC"]).
      { assert (X : ~ In (upper (o_coro o)) ["FLC"; "SPLC"]) by (intros I; apply str_in_iff in I; congruence). cbn in *. intuition congruence. }
      specialize (HR Hlc). assert (B2 : str_in (upper (o_coro o)) ["LC"; "APLC"; "HLC"] = true) by (apply str_in_iff; cbn in *; intuition congruence).
      set (K := fmap (fun m => Cminus (RtoC 1) m) (o_fpm o)). assert (SK : shape K (g_Neta (o_f3 o)) (g_Nxi (o_f3 o))) by (apply fpm_shape; auto).
      assert (AF : adj 1 (fun E => do A <- (do no <- relay E (nrel o (o_n34 o)) (o_cen o); pad_cropf no N N); bop Cmult (o_lyot o) A)
                        (fun G => do g <- rev_lyot o G; do r <- relay g (nrel o (o_n34 o)) (o_cen o); pad_cropf r n n) n n N N).
      { eapply (adj_ext 1 (fun E => do A <- (do no <- relay E (nrel o (o_n34 o)) (o_cen o); pad_cropf no N N); bop Cmult (o_lyot o) A) (fun G => do g <- rev_lyot o G; do p <- pad_cropf g n n; relay p (nrel o (o_n34 o)) (o_cen o))).
        - eapply adj_conv; [eapply adj_bind; [eapply adj_bind; [exact (adj_relay (nrel o (o_n34 o)) (o_cen o) n n (wf_cen o W))|exact (adj_pad_crop N N n n HN HN Hn Hn)]|exact (adj_lyot o W)]|ring|reflexivity|reflexivity].
        - intros; apply req_refl.
        - intros E SE. destruct (rev_lyot_px o E W SE) as (g & Eg & Sg & _). rewrite Eg. cbn [rbind]. apply rot_pad_commute; auto. exact (rev_lyot_zero o E g W SE Eg). }
      assert (AG : adj 1 (fun E => do B <- through_f3 o w K E; bop Cmult (o_lyot o) B) (fun G => do g <- rev_lyot o G; rev_f3 o w K g) n n N N).
      { eapply adj_conv; [eapply adj_bind; [exact (adj_f3 o w K W Hw Hd He SK)|exact (adj_lyot o W)]|ring|reflexivity|reflexivity]. }
      apply (adj_ext _ _ _ _ _ _ _ _ _ (adj_minus 1 _ _ _ _ n n N N AF AG)).
      * intros E SE. unfold fwd_mid, compact_P3_to_P4, is_vortex. rewrite Nv, B1, B2. fold K.
        destruct (oks_relay E (nrel o (o_n34 o)) (o_cen o) n n (wf_cen o W) SE) as (no & Eno & Sno). rewrite Eno. cbn [rbind]. destruct (oks_pad no N N HN HN) as (no' & Eno' & Sno'). fold N. rewrite Eno'. cbn [rbind].
        unfold through_f3. destruct (oks_p2f3 o w 1 E n W Hw ltac:(lra) Hn SE) as (inc & Einc & Sinc). rewrite Einc. cbn [rbind]. destruct (oks_bop Cmult K inc _ _ SK Sinc) as (EF & EEF & SEF). rewrite EEF. cbn [rbind].
        rewrite ?Eno. cbn [rbind]. rewrite ?Eno'. cbn [rbind].
        destruct (oks_f2p3 o w 1 EF W Hw ltac:(lra) SEF) as (sub & Esub & Ssub). rewrite Esub. cbn [rbind]. destruct (oks_relay sub (nrel o (o_n34 o) - 1) (o_cen o) _ _ (wf_cen o W) Ssub) as (sub' & Esub' & Ssub'). rewrite Esub'. cbn [rbind].
        destruct (bop_sq Cmult (o_lyot o) no' N N (wf_lyot o W) Sno') as (A & -> & SA & VA). destruct (bop_sq Cmult (o_lyot o) sub' N N (wf_lyot o W) Ssub') as (B & -> & SB & VB). cbn [rbind].
        destruct (bop_sq Cminus A B N N SA SB) as (D & -> & [D1 D2] & VD). destruct (bop_sq Cminus (scal (RtoC 1) no') sub' N N (scal_shape _ _ _ _ Sno') Ssub') as (P & -> & SP & VP). cbn [rbind].
        destruct (bop_sq Cmult (o_lyot o) P N N (wf_lyot o W) SP) as (Q & -> & [Q1 Q2] & VQ). cbn. split; [congruence|]. split; [congruence|]. rewrite D1, D2. intros i j Hi Hj. rewrite VD, VA, VB, VQ, VP by auto. cbn. ring.
      * intros E SE. unfold rev_mid, rev_P4_to_P3. cbv zeta. rewrite Nv, B1, B2. destruct (rev_lyot_px o E W SE) as (g & Eg & Sg & _). rewrite Eg. cbn [rbind].
        destruct (oks_relay g (nrel o (o_n34 o)) (o_cen o) N N (wf_cen o W) Sg) as (r & Er & Sr). rewrite Er. cbn [rbind]. destruct (oks_pad r n n Hn Hn) as (no & Eno & Sno). fold n. rewrite Eno. cbn [rbind].
        destruct (oks_radj _ _ _ _ _ _ _ g (adj_f3 o w K W Hw Hd He SK) Sg) as (B & EB & SB). rewrite EB. cbn [rbind].
        assert (X : req_field (rev_f3 o w K (fmap Copp g)) (rscal (Copp (RtoC 1)) (rev_f3 o w K g))).
        { eapply req_trans; [|apply lin_rscal; apply lin_rev_f3]. apply lin_feq; [apply lin_rev_f3|]. split; [reflexivity|]. split; [reflexivity|]. intros. cbn. ring. }
        rewrite EB in X. unfold rev_f3 in X. cbn [rscal rbind] in X.
        assert (Y : rbind (relay (fmap Copp g) (nrel o (o_n34 o) - 1) (o_cen o)) (fun r => do f <- rev_p2f3 o w r; do f' <- bop Cmult (fmap (fun m => Cconj (Cminus (RtoC 1) m)) (o_fpm o)) f; do sub <- rev_f2p3 o w f'; bop Cplus no sub) =
          do sub <- (do r <- relay (fmap Copp g) (nrel o (o_n34 o) - 1) (o_cen o); do f <- rev_p2f3 o w r; do f' <- bop Cmult (fmap Cconj K) f; rev_f2p3 o w f'); bop Cplus no sub).
        { symmetry. unfold K, fmap. flat. }
        rewrite Y. clear Y. match type of X with req_field ?a _ => destruct a as [sub|]; [|destruct X] end. cbn [rbind]. destruct X as (X1 & X2 & X3).
        assert (Ssub : shape sub n n) by (destruct SB; split; cbn in X1, X2; unfold n; congruence).
        destruct (bop_sq Cplus no sub n n Sno Ssub) as (P & -> & [P1 P2] & VP). destruct (bop_sq Cminus no B n n Sno SB) as (Q & -> & [Q1 Q2] & VQ). cbn. split; [congruence|]. split; [congruence|]. rewrite Q1, Q2. intros i j Hi Hj.
        destruct Ssub. rewrite VP, VQ, X3 by congruence. cbn. ring.
Qed.
Lemma adj_to_Fend o w : gradient_ready o -> 0 < w ->
  adj (-1) (to_Fend o w (o_fend o)) (fun F => do g <- mft_f2p F (- o_fl o) w (g_dxi (o_fend o)) (g_deta (o_fend o)) (o_dx4 o) (o_narr4 o) (o_cen o); relay g (nrel o (o_nend o)) (o_cen o))
    (o_narr4 o) (o_narr4 o) (g_Neta (o_fend o)) (g_Nxi (o_fend o)).
Proof.
  intros G Hw. pose proof (gr_wf o G) as W. destruct (wf_fend o W) as (H1 & H2 & H3 & H4).
  eapply adj_conv; [eapply adj_bind; [exact (adj_relay (nrel o (o_nend o)) (o_cen o) (o_narr4 o) (o_narr4 o) (wf_cen o W))|
    exact (adj_p2f (o_fl o) w (o_dx4 o) (g_dxi (o_fend o)) (g_Nxi (o_fend o)) (g_Neta (o_fend o)) (o_cen o) (o_narr4 o) (wf_cen o W) Hw (wf_dx4 o W) H1 H2 H4 (wf_narr4 o W) (wf_fl o W))]|ring| |];
  intros E _; unfold to_Fend; rewrite (gr_fend o G); reflexivity.
Qed.
(* from the field leaving DM2 to the camera, and back *)
Definition fwd_all (o : optics) (w : R) (E : field C) : res (field C) :=
  do P3 <- compact_tail o w E; do P4 <- compact_P3_to_P4 o w 1 (RtoC 1) true P3; do L <- bop Cmult (o_lyot o) P4; to_Fend o w (o_fend o) L.
Definition rev_all (o : optics) (w : R) (F : field C) : res (field C) :=
  do P4 <- rev_to_P4 o w F; do P3 <- rev_P4_to_P3 o w (RtoC 1) P4; rev_P3_to_DM2 o w P3.
Lemma adj_all o w : gradient_ready o -> 0 < w -> adj (-1) (fwd_all o w) (rev_all o w) (o_pad o) (o_pad o) (g_Neta (o_fend o)) (g_Nxi (o_fend o)).
Proof.
  intros G Hw. eapply adj_conv; [eapply adj_bind; [exact (adj_tail o w G Hw)|]; eapply adj_bind; [exact (adj_mid o w G Hw)|exact (adj_to_Fend o w G Hw)]|ring| |].
  - intros E SE. unfold fwd_all, fwd_mid. flat.
  - intros E SE. unfold rev_all, rev_mid, rev_to_P4, rev_lyot. flat.
Qed.
