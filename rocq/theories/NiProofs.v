(* Derivative of the pupil field for a poke, behind any linear stage. *)
From Coquelicot Require Import Coquelicot.
From Verif Require Import Base RBase StrBase UtilModel CBase PropModel PropSpec PropProofs PropProofs2 OptModel OptSpec LinBase OptProofs OptProofs2 OptProofs3 OptProofs4 OptProofs6 OptProofs7 DiffModel DiffSpec DiffProofs2 SrcModel PokeModel PokeProofs PokeProofs2 GradModel GradSpec GradProofs GradProofs2 GradProofs3 GradProofs4 GradProofs5 PokeSpec PokeProofs3 PokeProofs4 PokeProofs5 PokeProofs6 PokeProofs7 PokeProofs8 NiModel NiSpec.
Open Scope R_scope.

Definition exact1 (o : optics) (pk : poked) (dm2 : bool) : Prop := (if dm2 then o_d1 o + o_d12 o = 0 else o_d1 o = 0 /\ o_d12 o = 0) \/ whole_array o pk.
Lemma dm1_stage o w Ein pk nd2 : poke_ready o pk -> o_use1 o = true -> 0 < w -> even_size nd2 -> (1 <= nd2 <= o_pad o)%nat ->
  (o_d1 o = 0 /\ o_d12 o = 0) \/ whole_array o pk ->
  exists fields B X P3, precomp o w Ein nd2 = Ok fields /\ box_dm1 o w (fst fields) pk (ay_ pk) (ax_ pk) = Ok B /\ boxed o pk X B /\ tail1 o X = Ok P3 /\ shape P3 (p3_size o) (p3_size o) /\
    forall fin0 r c, lin fin0 -> (forall Q, shape Q (p3_size o) (p3_size o) -> oks (fin0 Q) r c) ->
      forall i j, (i < r)%nat -> (j < c)%nat -> dC (fun x => px (do P <- compact_EP3 (poked_by o false pk x) w Ein; fin0 P) i j) (px (fin0 P3) i j).
Proof.
  intros P U1 Hw E2 H2 Hd. pose proof (pr_wf o pk P) as W. pose proof (wf_pad o W) as Hn. pose proof (fw_pos o W) as Hf. destruct (pr_even o pk P) as (En & _).
  destruct (front o w Ein nd2 W Hw En E2 H2) as (A & st2 & SA & S2 & Est2 & FR & PC).
  assert (SPF : forall s1, shape (postf o w A s1) (o_pad o) (o_pad o)) by (intros; split; reflexivity).
  destruct (oks_ptp (postf o w A (o_surf1 o)) _ w (o_d12 o) _ Hf Hw Hn (SPF _)) as (p12 & Ep12 & Sp12). destruct (PC p12 Ep12) as (Edm1 & Edm2 & EPC & FE & _).
  destruct (box1 o w pk A st2 Edm1 P Hw S2 Est2 FE Hd) as (B & b & X & EB & Eb & EX & HB). exists (Edm1, Edm2), B, X.
  destruct (oks_tail1 o X W (proj1 HB)) as (P3 & EP3 & SP3). exists P3. split; [exact EPC|]. split; [exact EB|]. split; [exact HB|]. split; [exact EP3|]. split; [exact SP3|].
  intros fin0 r c LF OKF i j Hi Hj.
  set (op := fun Q => do P <- compact_DM2 o w st2 Q; fin0 P).
  set (DP := dpost o w pk (postf o w A (o_surf1 o))) in *.
  assert (ODP : req_field (op DP) (fin0 P3)).
  { unfold op. pose proof (dm2_after o w st2 DP W S2 ltac:(split; reflexivity)) as Q. rewrite Eb in Q. cbn [rbind] in Q. rewrite (tail_eq o w _ W Hw), EX in Q. cbn [rbind] in Q. rewrite EP3 in Q.
    destruct (compact_DM2 o w st2 DP) as [P3'|]; [|destruct Q]. cbn [req_field rbind] in Q |- *. apply lin_feq; [exact LF|exact Q]. }
  rewrite <- (px_req _ _ r c i j ODP (OKF P3 SP3) Hi Hj).
  set (su := fun x => along (o_surf1 o) (poke_surface (o_pad o) pk) x).
  assert (OKD : forall Q, shape Q (o_pad o) (o_pad o) -> oks (op Q) r c).
  { intros Q SQ. unfold op. destruct (oks_ptp Q _ w (o_d12 o) _ Hf Hw Hn SQ) as (b0 & Eb0 & Sb0). pose proof (dm2_after o w st2 Q W S2 SQ) as QQ. rewrite Eb0 in QQ. cbn [rbind] in QQ.
    destruct (oks_compact_tail o w (after2 o w st2 b0 (o_surf2 o)) W Hw ltac:(split; reflexivity)) as (q & Eq & [Sq1 Sq2]). rewrite Eq in QQ. destruct (compact_DM2 o w st2 Q) as [q'|]; [|destruct QQ]. cbn [rbind]. apply OKF. destruct QQ as (Q1 & Q2 & _). split; congruence. }
  apply (dC_ext (fun x => px (op (postf o w A (su x))) i j)).
  - intros x. unfold poked_by. fold (su x).
    symmetry. eapply px_req; [|apply (OKD (postf o w A (su x)) (SPF _))|auto|auto]. unfold op.
    destruct (wf_surf o W) as [FF1 FF2]. destruct (FF1 U1) as [G1 G2].
    assert (Q : req_field (compact_EP3 (with_surfs o (su x) (o_surf2 o)) w Ein) (compact_DM2 o w st2 (postf o w A (su x)))).
    { eapply req_trans; [apply FR; [intros _; split; [exact G1|exact G2]|exact FF2]|]. apply req_sym. apply dm2_after; auto. }
    destruct (compact_EP3 (with_surfs o (su x) (o_surf2 o)) w Ein) as [q|], (compact_DM2 o w st2 (postf o w A (su x))) as [q'|]; try destruct Q as [].
    + cbn [rbind]. apply lin_feq; [exact LF|split; auto].
    + reflexivity.
  - apply (lin_derive op (fun x => postf o w A (su x)) DP (o_pad o) (o_pad o) r c); auto.
    + unfold op. apply lin_bind; [apply lin_compact_DM2|exact LF].
    + split; reflexivity.
    + apply OKD. split; reflexivity.
    + intros k l Hk Hl. cbn [postf DP dpost fpx]. unfold sz1. rewrite U1. cbn [surf_or_zero]. eapply dC_eq; [apply dC_scal; apply dC_flatp; exact Hw|]. rewrite ik_kk. ring.
Qed.
Lemma dm2_stage o w Ein pk : poke_ready o pk -> o_use2 o = true -> 0 < w ->
  o_d1 o + o_d12 o = 0 \/ whole_array o pk ->
  exists fields B X P3, precomp o w Ein (pk_nd pk) = Ok fields /\ box_dm2 o w (snd fields) pk (ay_ pk) (ax_ pk) = Ok B /\ boxed o pk X B /\ tail1 o X = Ok P3 /\ shape P3 (p3_size o) (p3_size o) /\
    forall fin0 r c, lin fin0 -> (forall Q, shape Q (p3_size o) (p3_size o) -> oks (fin0 Q) r c) ->
      forall i j, (i < r)%nat -> (j < c)%nat -> dC (fun x => px (do P <- compact_EP3 (poked_by o true pk x) w Ein; fin0 P) i j) (px (fin0 P3) i j).
Proof.
  intros P U2 Hw Hd. pose proof (pr_wf o pk P) as W. pose proof (wf_pad o W) as Hn. pose proof (fw_pos o W) as Hf. destruct (pr_even o pk P) as (En & Ed & _).
  destruct (front o w Ein (pk_nd pk) W Hw En Ed (pr_nd o pk P)) as (A & st2 & SA & S2 & Est2 & FR & PC).
  assert (SPF : forall s1, shape (postf o w A s1) (o_pad o) (o_pad o)) by (intros; split; reflexivity).
  destruct (oks_ptp (postf o w A (o_surf1 o)) _ w (o_d12 o) _ Hf Hw Hn (SPF _)) as (p12 & Ep12 & Sp12). destruct (PC p12 Ep12) as (Edm1 & Edm2 & EPC & _ & SE2 & VE2).
  destruct (box2 o w pk st2 p12 Edm2 P Hw SE2 VE2 Hd) as (B & X & EB & EX & HB). exists (Edm1, Edm2), B, X.
  destruct (oks_tail1 o X W (proj1 HB)) as (P3 & EP3 & SP3). exists P3. split; [exact EPC|]. split; [exact EB|]. split; [exact HB|]. split; [exact EP3|]. split; [exact SP3|].
  intros fin0 r c LF OKF i j Hi Hj.
  set (op := fun Q => do P <- compact_tail o w Q; fin0 P).
  set (DP := dpost o w pk (after2 o w st2 p12 (o_surf2 o))) in *.
  assert (ODP : op DP = fin0 P3). { unfold op. rewrite (tail_eq o w _ W Hw), EX. cbn [rbind]. rewrite EP3. reflexivity. }
  rewrite <- ODP.
  set (su := fun x => along (o_surf2 o) (poke_surface (o_pad o) pk) x).
  assert (OKD : forall Q, shape Q (o_pad o) (o_pad o) -> oks (op Q) r c).
  { intros Q SQ. unfold op. eapply oks_bind; [apply oks_compact_tail; auto|]. exact OKF. }
  apply (dC_ext (fun x => px (op (after2 o w st2 p12 (su x))) i j)).
  - intros x. unfold poked_by. fold (su x).
    symmetry. eapply px_req; [|apply (OKD (after2 o w st2 p12 (su x)) ltac:(split; reflexivity))|auto|auto]. unfold op.
    destruct (wf_surf o W) as [FF1 FF2]. destruct (FF2 U2) as [G1 G2].
    assert (Q : req_field (compact_EP3 (with_surfs o (o_surf1 o) (su x)) w Ein) (compact_tail o w (after2 o w st2 p12 (su x)))).
    { eapply req_trans; [apply FR; [exact FF1|intros _; split; [exact G1|exact G2]]|]. rewrite Ep12. cbn [rbind]. apply req_refl. }
    destruct (compact_EP3 (with_surfs o (o_surf1 o) (su x)) w Ein) as [q|], (compact_tail o w (after2 o w st2 p12 (su x))) as [q'|]; try destruct Q as [].
    + cbn [rbind]. apply lin_feq; [exact LF|split; auto].
    + reflexivity.
  - apply (lin_derive op (fun x => after2 o w st2 p12 (su x)) DP (o_pad o) (o_pad o) r c); auto.
    + unfold op. apply lin_bind; [apply lin_compact_tail|exact LF].
    + intros; split; reflexivity.
    + split; reflexivity.
    + apply OKD. split; reflexivity.
    + intros k l Hk Hl. cbn [after2 DP dpost fpx]. unfold sz2. rewrite U2. cbn [surf_or_zero]. eapply dC_eq; [apply dC_scal; apply dC_flatp; exact Hw|]. rewrite ik_kk. ring.
Qed.
(* both DMs *)
Definition used (o : optics) (dm2 : bool) : Prop := (if dm2 then o_use2 o else o_use1 o) = true.
Definition boxof (o : optics) w (fields : field C * field C) (dm2 : bool) pk := if dm2 then box_dm2 o w (snd fields) pk (ay_ pk) (ax_ pk) else box_dm1 o w (fst fields) pk (ay_ pk) (ax_ pk).
Lemma dm_stage o w Ein pk nd2 dm2 : poke_ready o pk -> used o dm2 -> 0 < w -> even_size nd2 -> (1 <= nd2 <= o_pad o)%nat -> (dm2 = true -> nd2 = pk_nd pk) -> exact1 o pk dm2 ->
  exists fields B X P3, precomp o w Ein nd2 = Ok fields /\ boxof o w fields dm2 pk = Ok B /\ boxed o pk X B /\ tail1 o X = Ok P3 /\ shape P3 (p3_size o) (p3_size o) /\
    forall fin0 r c, lin fin0 -> (forall Q, shape Q (p3_size o) (p3_size o) -> oks (fin0 Q) r c) ->
      forall i j, (i < r)%nat -> (j < c)%nat -> dC (fun x => px (do P <- compact_EP3 (poked_by o dm2 pk x) w Ein; fin0 P) i j) (px (fin0 P3) i j).
Proof.
  intros P U Hw E2 H2 H3 Hd. destruct dm2.
  - rewrite (H3 eq_refl). exact (dm2_stage o w Ein pk P U Hw Hd).
  - exact (dm1_stage o w Ein pk nd2 P U Hw E2 H2 Hd).
Qed.
