(* The gradient of one mode. *)
From Coquelicot Require Import Coquelicot.
From Verif Require Import Base RBase StrBase UtilModel CBase PropModel PropSpec PropProofs PropProofs2 OptModel OptSpec LinBase OptProofs OptProofs2 OptProofs3 OptProofs4 OptProofs7 GradModel GradSpec GradAdj GradAdj2 GradProofs GradProofs2 GradProofs3.
Open Scope R_scope.
Local Open Scope string_scope.

Lemma ready_trans o : gradient_ready o -> compact_trans o = Ok (RtoC 1).
Proof. intros G. unfold compact_trans. replace (str_in _ _) with false; auto. symmetry. destruct (gr_coro o G) as [[H _]|[H _]]; name_false. Qed.
Local Close Scope string_scope.
Definition flatp (w : R) (s : field R) (i j : nat) : C := cis (2 * 2 * PI * fpx s i j / w).
Lemma front o w E : gradient_ready o -> 0 < w -> exists A, shape A (o_pad o) (o_pad o) /\ forall s1 s2, square (o_pad o) s1 -> square (o_pad o) s2 ->
  exists post p12 pre U F P3, shape post (o_pad o) (o_pad o) /\ shape p12 (o_pad o) (o_pad o) /\ shape pre (o_pad o) (o_pad o) /\ shape U (o_pad o) (o_pad o) /\ shape F (g_Neta (o_fend o)) (g_Nxi (o_fend o)) /\
  (forall nf, 0 < nf -> compact_general (with_surfs o s1 s2) w nf false false true E = Ok (normalise nf F, mkmid P3 post pre)) /\
  ptp post (o_dx2 o * INR (o_pad o)) w (o_d12 o) = Ok p12 /\ fwd_all o w U = Ok F /\
  (forall i j, (i < o_pad o)%nat -> (j < o_pad o)%nat -> fpx post i j = Cmult (fpx A i j) (flatp w s1 i j)) /\
  (forall i j, (i < o_pad o)%nat -> (j < o_pad o)%nat -> fpx pre i j = fpx p12 i j) /\
  (forall i j, (i < o_pad o)%nat -> (j < o_pad o)%nat -> fpx U i j = Cmult (fpx p12 i j) (flatp w s2 i j)).
Proof.
  intros G Hw. pose proof (gr_wf o G) as W. pose proof (wf_pad o W) as Hn. pose proof (fw_pos o W) as Hf. destruct (gr_use o G) as [U1 U2].
  set (n := o_pad o) in *.
  destruct (oks_pad (o_pupil o) n n Hn Hn) as (pup & Epup & Spup). destruct (oks_pad E n n Hn Hn) as (E' & EE' & SE'). destruct (oks_stop n (o_stop1 o) Hn) as (st1 & Est1 & Sst1).
  destruct (oks_bop Cmult pup E' n n Spup SE') as (EP1 & EEP1 & SEP1). destruct (oks_relay EP1 (nrel o (o_n12 o)) (o_cen o) n n (wf_cen o W) SEP1) as (EP2 & EEP2 & SEP2).
  assert (X : oks (if Req_EM_T (o_d1 o) 0 then Ok EP2 else ptp EP2 (o_dx2 o * INR n) w (o_d1 o)) n n) by (destruct (Req_EM_T (o_d1 o) 0); [now apply oks_ok|apply oks_ptp; auto]). destruct X as (pre0 & Epre0 & Spre0).
  destruct (oks_imul pre0 st1 n n Spre0 Sst1) as (pre1 & Epre1 & Spre1). destruct (oks_bop Cmult pre1 (ones n) n n Spre1 (ones_shape n)) as (A & EA & SA).
  exists A. split; auto. intros s1 s2 Q1 Q2.
  assert (SP : forall s, square n s -> shape (phasor w s) n n) by (intros s [X1 X2]; split; auto).
  destruct (bop_sq Cmult A (phasor w s1) n n SA (SP s1 Q1)) as (post & Epost & Spost & Vpost). destruct (oks_ptp post _ w (o_d12 o) n Hf Hw Hn Spost) as (p12 & Ep12 & Sp12).
  destruct (bop_sq Cmult (ones n) p12 n n (ones_shape n) Sp12) as (pre & Epre & Spre & Vpre). destruct (bop_sq Cmult (ones n) pre n n (ones_shape n) Spre) as (b1 & Eb1 & Sb1 & Vb1).
  destruct (bop_sq Cmult b1 (phasor w s2) n n Sb1 (SP s2 Q2)) as (U & EU & SU & VU). destruct (oks_adj _ _ _ _ _ _ _ U (adj_all o w G Hw) SU) as (F & EF & SF).
  pose proof EF as EF'. unfold fwd_all in EF'. destruct (compact_tail o w U) as [P3|] eqn:ET; [|discriminate]. cbn [rbind] in EF'.
  exists post, p12, pre, U, F, P3. split; [auto|]. split; [auto|]. split; [auto|]. split; [auto|]. split; [auto|]. split; [|split; [exact Ep12|split; [exact EF|split; [|split]]]].
  - intros nf Hnf. unfold compact_general. change (compact_trans (with_surfs o s1 s2)) with (compact_trans o). rewrite (ready_trans o G). cbn [rbind]. unfold fpm_scale. cbn [rbind].
    unfold compact_to_P3. cbn [with_surfs o_pad o_rot o_n12 o_n23 o_n34 o_nend o_cen o_d1 o_d12 o_fl o_lambda0 o_dx2 o_use1 o_use2 o_surf1 o_surf2 o_pupil o_stop1 o_stop2 o_wfe o_apod o_coro o_f3 o_fpm o_trans o_charge o_nbeam1 o_nbeam4 o_dx4 o_narr4 o_lyot o_downsample o_fend o_eval].
    change (nrel (with_surfs o s1 s2)) with (nrel o). fold n. rewrite Epup, EE', Est1. cbn [rbind]. rewrite (gr_stop o G). cbn [stop_or_ones rbind]. rewrite (wf_wfe o W). cbn [andb]. rewrite EEP1. cbn [rbind]. rewrite EEP2. cbn [rbind]. rewrite Epre0. cbn [rbind]. rewrite Epre1. cbn [rbind]. rewrite EA. cbn [rbind].
    rewrite U1, U2. cbn [surf_or_zero]. rewrite Epost. cbn [rbind]. rewrite Ep12. cbn [rbind]. rewrite Epre. cbn [rbind]. rewrite Eb1. cbn [rbind]. rewrite EU. cbn [rbind].
    unfold compact_tail in ET. fold n in ET. match type of ET with rbind ?x _ = _ => destruct x as [e1|]; [|discriminate] end. cbn [rbind] in ET |- *.
    match type of ET with rbind ?x _ = _ => destruct x as [e2|]; [|discriminate] end. cbn [rbind] in ET |- *. rewrite ET. cbn [rbind m_EP3].
    destruct (Req_EM_T nf 0) as [Z|_]; [lra|].
    change (compact_P3_to_P4 (with_surfs o s1 s2)) with (compact_P3_to_P4 o). change (to_Fend (with_surfs o s1 s2)) with (to_Fend o).
    match type of EF' with rbind ?x _ = _ => destruct x as [e3|]; [|discriminate] end. cbn [rbind] in EF' |- *. match type of EF' with rbind ?x _ = _ => destruct x as [e4|]; [|discriminate] end. cbn [rbind] in EF' |- *. rewrite EF'. reflexivity.
  - intros i j Hi Hj. rewrite Vpost by auto. reflexivity.
  - intros i j Hi Hj. rewrite Vpre by auto. cbn. ring.
  - intros i j Hi Hj. rewrite VU, Vb1, Vpre by auto. cbn. unfold flatp. ring.
Qed.
