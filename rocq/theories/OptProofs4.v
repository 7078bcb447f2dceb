From Verif Require Import Base RBase StrBase UtilModel CBase PropModel PropSpec PropProofs PropProofs2 OptModel OptSpec LinBase OptProofs OptProofs2 OptProofs3.
Open Scope R_scope.

Definition oks (x : res (field C)) (r c : nat) : Prop := exists O, x = Ok O /\ shape O r c.
Lemma oks_bind x f r c r' c' : oks x r c -> (forall O, shape O r c -> oks (f O) r' c') -> oks (rbind x f) r' c'.
Proof. intros (O & -> & S) H. cbn. auto. Qed.
Lemma oks_ok E r c : shape E r c -> oks (Ok E) r c. Proof. intros. exists E. auto. Qed.
Lemma oks_relay E n c r k : c <> OtherCentering -> shape E r k -> oks (relay E n c) r k.
Proof. intros Hc [S1 S2]. unfold relay. destruct c; [| |congruence]; destruct (n mod 2 =? 1)%Z; eexists; (split; [reflexivity|]); split; cbn; auto. Qed.
Lemma oks_pad E n m : (1 <= n)%nat -> (1 <= m)%nat -> oks (pad_cropf E n m) n m.
Proof. intros. destruct (pad_cropf_px E n m) as (O & E' & S & _); auto. exists O. auto. Qed.
Lemma oks_ptp E fw w z n : 0 < fw -> 0 < w -> (1 <= n)%nat -> shape E n n -> oks (ptp E fw w z) n n.
Proof.
  intros H1 H2 Hn [S1 S2]. unfold ptp. destruct (Rle_dec fw 0); [lra|]. destruct (Rle_dec w 0); [lra|]. destruct (Req_EM_T z 0); [apply oks_ok; split; auto|].
  rewrite S1, S2, Nat.eqb_refl. destruct (Nat.eqb_spec n 0); [lia|]. cbn [negb]. eexists. split; [reflexivity|]. split; cbn; auto.
Qed.
Lemma oks_bop f A B n m : shape A n m -> shape B n m -> oks (bop f A B) n m.
Proof. intros HA HB. destruct (bop_sq f A B n m HA HB) as (O & E & S & _). exists O. auto. Qed.
Lemma oks_imul A B n m : shape A n m -> shape B n m -> oks (imul A B) n m.
Proof. intros HA HB. destruct (imul_sq A B n m HA HB) as (O & E & S & _). exists O. auto. Qed.
Lemma oks_stop n s : (1 <= n)%nat -> oks (stop_or_ones n s) n n.
Proof. intros. destruct s; cbn; [now apply oks_pad|apply oks_ok; split; reflexivity]. Qed.
Lemma oks_p2f E fl w dx dxi Nxi deta Neta c n : c <> OtherCentering -> 0 < w -> 0 < dx -> 0 < dxi -> (1 <= Nxi)%nat -> 0 < deta -> (1 <= Neta)%nat -> fl <> 0 -> (1 <= n)%nat -> shape E n n ->
  oks (mft_p2f E fl w dx dxi Nxi deta Neta c) Neta Nxi.
Proof. intros. destruct H8. destruct (p2f_value E fl w dx dxi Nxi deta Neta c) as (O & E' & S1 & S2 & _); auto; try congruence; try lia. exists O. split; [auto|split; auto]. Qed.
Lemma oks_f2p E fl w dxi deta dx N c r k : c <> OtherCentering -> 0 < w -> 0 < dx -> 0 < dxi -> 0 < deta -> (1 <= N)%nat -> (1 <= r)%nat -> (1 <= k)%nat -> fl <> 0 -> shape E r k ->
  oks (mft_f2p E fl w dxi deta dx N c) N N.
Proof. intros. destruct H8. destruct (f2p_value E fl w dxi deta dx N c) as (O & E' & S1 & S2 & _); auto; try lia. exists O. split; [auto|split; auto]. Qed.
Lemma scal_shape t E r c : shape E r c -> shape (scal t E) r c. Proof. auto. Qed.
Lemma fw_pos o : well_formed o -> 0 < o_dx2 o * INR (o_pad o).
Proof. intros W. apply Rmult_lt_0_compat; [apply W|]. apply lt_0_INR. destruct W. lia. Qed.

Lemma p3_pos o : well_formed o -> (1 <= p3_size o)%nat.
Proof. intros W. unfold p3_size. pose proof (wf_apod o W). destruct (o_apod o) as [[m na]|]; [tauto|apply W]. Qed.
Lemma oks_compact_tail o w E : well_formed o -> 0 < w -> shape E (o_pad o) (o_pad o) -> oks (compact_tail o w E) (p3_size o) (p3_size o).
Proof.
  intros W Hw S. unfold compact_tail. pose proof (fw_pos o W). pose proof (wf_pad o W). apply (oks_bind _ _ (o_pad o) (o_pad o)); [|intros O SO; eapply oks_bind; [apply oks_relay; [apply W|exact SO]|]].
  - destruct (Req_EM_T _ 0); [now apply oks_ok|now apply oks_ptp].
  - intros P SP. unfold p3_size. pose proof (wf_apod o W) as HA. destruct (o_apod o) as [[m na]|]; [|now apply oks_ok]. destruct HA as (H1 & H2 & H3).
    eapply oks_bind; [now apply oks_pad|]. intros Q SQ. apply oks_bop; [split; auto|auto].
Qed.
Lemma oks_compact_EP3 o w E : well_formed o -> 0 < w -> oks (compact_EP3 o w E) (p3_size o) (p3_size o).
Proof.
  intros W Hw. rewrite compact_EP3_eq. unfold compact_flat. pose proof (wf_pad o W) as Hn. pose proof (fw_pos o W) as Hf. destruct (wf_surf o W) as [F1 F2].
  eapply oks_bind; [now apply oks_pad|]. intros pup Sp. eapply oks_bind; [now apply oks_pad|]. intros E' SE. eapply oks_bind; [now apply oks_stop|]. intros st1 S1. eapply oks_bind; [now apply oks_stop|]. intros st2 S2.
  rewrite (wf_wfe o W). cbn [andb]. eapply oks_bind; [now apply oks_bop; eauto|]. intros EP1 T1. eapply oks_bind; [apply oks_relay; [apply W|exact T1]|]. intros EP2 T2.
  eapply oks_bind; [instantiate (1 := o_pad o); instantiate (1 := o_pad o); destruct (Req_EM_T _ 0); [now apply oks_ok|now apply oks_ptp]|]. intros pre T3.
  eapply oks_bind; [apply oks_imul; [exact T3|exact S1]|]. intros p' T4. eapply oks_bind; [apply oks_bop; [exact T4|apply ones_shape]|]. intros a1 T5.
  eapply oks_bind; [apply oks_bop; [exact T5|now apply phasor_shape]|]. intros p T6. unfold compact_DM2.
  eapply oks_bind; [apply (oks_ptp p _ w _ (o_pad o)); auto|]. intros p12 T7. eapply oks_bind; [apply oks_bop; [exact S2|exact T7]|]. intros e2 T8. eapply oks_bind; [apply oks_bop; [apply ones_shape|exact T8]|]. intros b1 T9.
  eapply oks_bind; [apply oks_bop; [exact T9|now apply phasor_shape]|]. intros Edm2 T10. now apply oks_compact_tail.
Qed.
Lemma oks_req x y r c : oks x r c -> req_field x y -> oks y r c.
Proof. intros (O & -> & S) H. destruct y as [P|]; cbn in H; [|destruct H]. exists P. split; [auto|]. eapply shape_feq; eauto. Qed.
Lemma oks_full_P3 o w E : well_formed o -> 0 < w -> oks (full_to_P3 o w E) (p3_size o) (p3_size o).
Proof. intros W Hw. apply (oks_req (compact_EP3 o w E)); [now apply oks_compact_EP3|]. apply req_sym, P3_equal; apply W. Qed.
Lemma oks_p2f3 o w s E n : well_formed o -> 0 < w -> 0 < s -> (1 <= n)%nat -> shape E n n -> oks (p2f_f3 o w s E) (g_Neta (o_f3 o)) (g_Nxi (o_f3 o)).
Proof. intros W Hw Hs Hn S. destruct (wf_f3 o W) as (H1 & H2 & H3 & H4). unfold p2f_f3. apply (oks_p2f E _ _ _ _ _ _ _ _ n); try apply W; auto; apply Rmult_lt_0_compat; auto. Qed.
Lemma oks_f2p3 o w s E : well_formed o -> 0 < w -> 0 < s -> shape E (g_Neta (o_f3 o)) (g_Nxi (o_f3 o)) -> oks (f2p_f3 o w s E) (o_narr4 o) (o_narr4 o).
Proof. intros W Hw Hs S. destruct (wf_f3 o W) as (H1 & H2 & H3 & H4). unfold f2p_f3. apply (oks_f2p E _ _ _ _ _ _ _ (g_Neta (o_f3 o)) (g_Nxi (o_f3 o))); try apply W; auto; apply Rmult_lt_0_compat; auto. Qed.
Lemma oks_vortex o E n : well_formed o -> (exists q, o_charge o = ChInt q) -> shape E n n -> oks (vortex_prop o E) n n.
Proof.
  intros W [q Hq] [S1 S2]. unfold vortex_prop, get_charge. rewrite Hq. cbn [rbind]. unfold mft_p2v2p. destruct (wf_nbeam o W) as [Hb _].
  destruct (Rle_dec (o_nbeam1 o / 2) 0); [lra|]. destruct (Rle_dec 0.3 0); [lra|]. destruct (Rle_dec 5 0); [lra|]. rewrite S1, S2, Nat.eqb_refl. cbn [negb]. eexists. split; [reflexivity|]. split; reflexivity.
Qed.
Lemma oks_corner o : well_formed o -> exists t, corner (o_fpm o) = Ok t.
Proof.
  intros W. unfold corner. destruct (wf_fpm o W) as [-> ->]. destruct (wf_f3 o W) as (_ & H2 & _ & H4). destruct (Nat.eqb_spec (g_Neta (o_f3 o)) 0); [lia|]. destruct (Nat.eqb_spec (g_Nxi (o_f3 o)) 0); [lia|]. cbn. eauto.
Qed.
Lemma fpm_shape o f : well_formed o -> shape (fmap f (o_fpm o)) (g_Neta (o_f3 o)) (g_Nxi (o_f3 o)).
Proof. intros W. destruct (wf_fpm o W). split; auto. Qed.
Local Open Scope string_scope.
Lemma oks_full_P3_P4 o w s E n : well_formed o -> known_full o -> 0 < w -> 0 < s -> (1 <= n)%nat -> shape E n n -> oks (full_P3_to_P4 o w s E) (o_narr4 o) (o_narr4 o).
Proof.
  intros W Kn Hw Hs Hn S. pose proof (wf_narr4 o W) as HN. destruct (wf_f3 o W) as (G1 & G2 & G3 & G4). unfold full_P3_to_P4.
  destruct (str_in (upper (o_coro o)) ["LC"; "APLC"]) eqn:B1.
  { eapply oks_bind; [apply (oks_p2f3 o w s E n); auto|]. intros inc T1. eapply oks_bind; [apply oks_bop; [now apply fpm_shape|exact T1]|]. intros EF3 T2.
    eapply oks_bind; [apply (oks_f2p EF3 _ _ _ _ _ _ _ (g_Neta (o_f3 o)) (g_Nxi (o_f3 o))); try apply W; auto; apply Rmult_lt_0_compat; auto; apply W|]. intros sub T3.
    eapply oks_bind; [apply oks_relay; [apply W|exact S]|]. intros no T4. eapply oks_bind; [apply oks_relay; [apply W|exact T3]|]. intros sub' T5. eapply oks_bind; [apply (oks_pad _ (o_narr4 o) (o_narr4 o)); auto|]. intros no' T6. now apply oks_bop. }
  destruct (str_in (upper (o_coro o)) ["HLC"]) eqn:B2.
  { assert (HT : exists t, match o_trans o with Some t => Ok t | None => corner (o_fpm o) end = Ok t) by (destruct (o_trans o); [eauto|now apply oks_corner]). destruct HT as [t ->]. cbn [rbind].
    eapply oks_bind; [apply (oks_p2f3 o w s E n); auto|]. intros inc T1. eapply oks_bind; [apply oks_bop; [now apply fpm_shape|exact T1]|]. intros EF3 T2.
    eapply oks_bind; [apply oks_relay; [apply W|exact S]|]. intros no T4. eapply oks_bind; [apply (oks_pad _ (o_narr4 o) (o_narr4 o)); auto|]. intros no' T6.
    eapply oks_bind; [apply oks_f2p3; eauto|]. intros sub T3. eapply oks_bind; [apply oks_relay; [apply W|exact T3]|]. intros sub' T5. apply oks_bop; [now apply scal_shape|auto]. }
  destruct (str_in (upper (o_coro o)) ["SPLC"; "FLC"]) eqn:B3.
  { eapply oks_bind; [apply (oks_p2f3 o w s E n); auto|]. intros inc T1. eapply oks_bind; [apply oks_bop; [apply (wf_fpm o W)|exact T1]|]. intros EF3 T2. eapply oks_bind; [apply oks_f2p3; eauto|]. intros sub T3. apply oks_relay; [apply W|auto]. }
  destruct (str_in (upper (o_coro o)) ["VORTEX"; "VC"]) eqn:B4.
  { assert (Hq : exists q, o_charge o = ChInt q).
    { destruct Kn as [L|[_ Q]]; [|auto]. apply str_in_iff in B4. exfalso. unfold lyot_like in L. cbn in L, B4. intuition congruence. }
    eapply oks_bind; [apply oks_vortex; eauto|]. intros v T1. eapply oks_bind; [apply (oks_pad _ (o_narr4 o) (o_narr4 o)); auto|]. intros v' T2. apply oks_relay; [apply W|auto]. }
  exfalso. assert (X : forall l, str_in (upper (o_coro o)) l = false -> ~ In (upper (o_coro o)) l) by (intros l Q I; apply str_in_iff in I; congruence).
  apply X in B1, B2, B3, B4. destruct Kn as [L|[L _]]; unfold lyot_like in *; cbn in *; intuition congruence.
Qed.
Local Close Scope string_scope.
Lemma oks_to_Fend o w g E : well_formed o -> 0 < w -> grid_ok g -> shape E (o_narr4 o) (o_narr4 o) -> oks (to_Fend o w g E) (g_Neta g) (g_Nxi g).
Proof.
  intros W Hw (G1 & G2 & G3 & G4) S. unfold to_Fend. eapply oks_bind; [apply oks_relay; [apply W|exact S]|]. intros r T. apply (oks_p2f r _ _ _ _ _ _ _ _ (o_narr4 o)); auto; apply W.
Qed.
Lemma normalise_shape nf E r c : shape E r c -> shape (normalise nf E) r c.
Proof. intros H. unfold normalise. destruct (Req_EM_T nf 0); auto. Qed.
Lemma scale_pos o w sc : well_formed o -> 0 < w -> exists s, fpm_scale o w sc = Ok s /\ 0 < s.
Proof.
  intros W Hw. unfold fpm_scale. pose proof (wf_lam o W). destruct sc; [|exists 1; split; [auto|lra]]. destruct (Req_EM_T (o_lambda0 o) 0); [lra|]. eexists. split; [reflexivity|]. apply Rdiv_lt_0_compat; auto.
Qed.
Lemma full_succeeds o w nf sc E : well_formed o -> known_full o -> 0 < w -> oks (full_Fourier o w nf sc E) (g_Neta (o_fend o)) (g_Nxi (o_fend o)).
Proof.
  intros W Kn Hw. unfold full_Fourier. destruct (scale_pos o w sc W Hw) as (s & -> & Hs). cbn [rbind].
  eapply oks_bind; [now apply oks_full_P3|]. intros P3 S3. eapply oks_bind; [apply (oks_full_P3_P4 o w s P3 (p3_size o)); auto; now apply p3_pos|]. intros P4 S4.
  eapply oks_bind; [instantiate (1 := o_narr4 o); instantiate (1 := o_narr4 o)|].
  { destruct (Req_EM_T nf 0); [destruct (is_vortex o)|]; try now apply oks_ok. eapply oks_bind; [apply oks_relay; [apply W|exact S3]|]. intros. apply oks_pad; apply W. }
  intros P4' S4'. eapply oks_bind; [apply oks_imul; [exact S4'|apply (wf_lyot o W)]|]. intros P5 S5. eapply oks_bind; [apply oks_to_Fend; eauto; apply W|]. intros F SF. apply oks_ok. now apply normalise_shape.
Qed.
Local Open Scope string_scope.
Lemma oks_compact_P3_P4 o w s t fpm E n : well_formed o -> (fpm = true -> known_compact o) -> 0 < w -> 0 < s -> (1 <= n)%nat -> shape E n n -> oks (compact_P3_to_P4 o w s t fpm E) (o_narr4 o) (o_narr4 o).
Proof.
  intros W Kn Hw Hs Hn S. pose proof (wf_narr4 o W) as HN. unfold compact_P3_to_P4. destruct fpm.
  - specialize (Kn eq_refl). unfold is_vortex. destruct (str_in (upper (o_coro o)) ["VORTEX"; "VC"; "AVC"]) eqn:B1.
    { assert (Hq : exists q, o_charge o = ChInt q).
      { destruct Kn as [L|[_ Q]]; [|auto]. apply str_in_iff in B1. exfalso. unfold lyot_like in L. cbn in L, B1. intuition congruence. }
      eapply oks_bind; [apply oks_vortex; eauto|]. intros v T1. eapply oks_bind; [apply oks_relay; [apply W|exact T1]|]. intros v' T2. apply oks_pad; auto. }
    destruct (str_in (upper (o_coro o)) ["FLC"; "SPLC"]) eqn:B3.
    { eapply oks_bind; [apply (oks_p2f3 o w s E n); auto|]. intros inc T1. eapply oks_bind; [apply oks_bop; [apply (wf_fpm o W)|exact T1]|]. intros EF3 T2. eapply oks_bind; [apply oks_f2p3; eauto|]. intros sub T3. apply oks_relay; [apply W|auto]. }
    destruct (str_in (upper (o_coro o)) ["LC"; "APLC"; "HLC"]) eqn:B2.
    { eapply oks_bind; [apply (oks_p2f3 o w s E n); auto|]. intros inc T1. eapply oks_bind; [apply oks_bop; [now apply fpm_shape|exact T1]|]. intros EF3 T2.
      eapply oks_bind; [apply oks_relay; [apply W|exact S]|]. intros no T4. eapply oks_bind; [apply (oks_pad _ (o_narr4 o) (o_narr4 o)); auto|]. intros no' T6.
      eapply oks_bind; [apply oks_f2p3; eauto|]. intros sub T3. eapply oks_bind; [apply oks_relay; [apply W|exact T3]|]. intros sub' T5. apply oks_bop; [now apply scal_shape|auto]. }
    exfalso. assert (X : forall l, str_in (upper (o_coro o)) l = false -> ~ In (upper (o_coro o)) l) by (intros l Q I; apply str_in_iff in I; congruence).
    apply X in B1, B2, B3. destruct Kn as [L|[L _]]; unfold lyot_like in *; cbn in *; intuition congruence.
  - eapply oks_bind; [apply oks_relay; [apply W|exact S]|]. intros P T. destruct (wf_nbeam o W) as [_ ->]. destruct (Req_EM_T (o_nbeam1 o) (o_nbeam1 o)); [|congruence]. cbn [rbind]. apply oks_pad; auto.
Qed.
Local Close Scope string_scope.
Lemma oks_trans o : well_formed o -> exists t, compact_trans o = Ok t.
Proof. intros W. unfold compact_trans. destruct (str_in _ _); [now apply oks_corner|eauto]. Qed.
Lemma compact_succeeds o w nf ev sc fpm E : well_formed o -> known_compact o -> 0 < w -> oks (compact_field o w nf ev sc fpm E) (g_Neta (if ev then o_eval o else o_fend o)) (g_Nxi (if ev then o_eval o else o_fend o)).
Proof.
  intros W Kn Hw. rewrite compact_field_eq. destruct (oks_trans o W) as [t ->]. cbn [rbind]. destruct (scale_pos o w sc W Hw) as (s & -> & Hs). cbn [rbind].
  eapply oks_bind; [now apply oks_compact_EP3|]. intros P3 S3. unfold compact_from. eapply oks_bind; [apply (oks_compact_P3_P4 o w s t _ P3 (p3_size o)); auto; now apply p3_pos|]. intros P4 S4.
  eapply oks_bind; [apply oks_bop; [apply (wf_lyot o W)|exact S4]|]. intros P5 S5. eapply oks_bind; [apply oks_to_Fend; eauto; destruct ev; apply W|]. intros F SF. apply oks_ok. now apply normalise_shape.
Qed.
