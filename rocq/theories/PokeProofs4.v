(* The box in pupil P2, propagated to the last focal plane, agrees with the whole array (continued). *)
From Verif Require Import Base RBase StrBase UtilModel CBase PropModel PropSpec PropProofs PropProofs2 OptModel OptSpec LinBase OptProofs OptProofs2 OptProofs3 OptProofs4 OptProofs7 DiffModel DiffProofs2 SrcModel PokeModel PokeProofs PokeProofs2 GradModel GradSpec GradProofs2 PokeSpec PokeProofs3.
Open Scope R_scope.

Lemma bop_req f A A' B B' : feq A A' -> feq B B' -> req_field (bop f A B) (bop f A' B').
Proof.
  intros (A1 & A2 & A3) (B1 & B2 & B3). unfold bop. rewrite <- A1, <- A2, <- B1, <- B2. destruct (bdim (frows A) (frows B)) eqn:X; [|reflexivity]. destruct (bdim (fcols A) (fcols B)) eqn:Y; [|reflexivity].
  split; [reflexivity|]. split; [reflexivity|]. cbn [fpx frows fcols]. intros i j Hi Hj. destruct (bdim_ix _ _ _ i X Hi), (bdim_ix _ _ _ j Y Hj). rewrite A3, B3 by auto. reflexivity.
Qed.
Lemma feq_refl {A} (a : field A) : feq a a. Proof. split; auto. Qed.
Lemma imul_bop n A M : shape A n n -> shape M n n -> req_field (imul A M) (bop Cmult M A).
Proof.
  intros SA SM. destruct (imul_sq A M n n SA SM) as (X & -> & [X1 X2] & VX). destruct (bop_sq Cmult M A n n SM SA) as (Y & -> & [Y1 Y2] & VY). split; [congruence|]. split; [congruence|].
  intros i j Hi Hj. rewrite VX, VY by congruence. ring.
Qed.
Lemma feq_scal t A B : feq A B -> feq (scal t A) (scal t B).
Proof. intros (H1 & H2 & H3). split; [exact H1|]. split; [exact H2|]. intros i j Hi Hj. cbn. rewrite H3; auto. Qed.
Lemma rep_feq n A B G H : rep n A G -> rep n B H -> (forall u v, G u v = H u v) -> feq A B.
Proof. intros [[A1 A2] VA] [[B1 B2] VB] E. split; [congruence|]. split; [congruence|]. intros i j Hi Hj. rewrite VA, VB by congruence. apply E. Qed.
Lemma od_plus o a b c u : sg (od o a) c (sg (od o (a + b)) c u) = sg (od o b) c u.
Proof.
  unfold od, nrel. destruct (o_rot o); [|reflexivity]. rewrite Zplus_mod. pose proof (Z.mod_pos_bound a 2 eq_refl). pose proof (Z.mod_pos_bound b 2 eq_refl).
  assert (a mod 2 = 0 \/ a mod 2 = 1)%Z as [-> | ->] by lia; assert (b mod 2 = 0 \/ b mod 2 = 1)%Z as [-> | ->] by lia; cbn; try reflexivity; apply (sg_sg true).
Qed.
Local Open Scope string_scope.
Lemma jac_core o nd w s t ay ax m y x ap B D0 E : well_formed o -> lyot_like o -> even_size (o_pad o) -> even_size nd -> even_size (o_narr4 o) -> (1 <= nd <= o_pad o)%nat ->
  match o_apod o with None => True | Some (m, na) => even_size na /\ (na <= o_pad o)%nat /\ (edge o = 1%Z -> forall k, (k < na)%nat -> fpx m 0%nat k = RtoC 0 /\ fpx m k 0%nat = RtoC 0) end ->
  0 < w -> 0 < s -> (edge o <= ay)%Z -> (ay + Z.of_nat m <= Z.of_nat nd)%Z -> (edge o <= ax)%Z -> (ax + Z.of_nat m <= Z.of_nat nd)%Z ->
  (forall i, (i < m)%nat -> y i = (IZR (ay - hf nd + Z.of_nat i) + dlt (o_cen o)) * o_dx2 o) -> (forall i, (i < m)%nat -> x i = (IZR (ax - hf nd + Z.of_nat i) + dlt (o_cen o)) * o_dx2 o) ->
  jac_apod o nd = Ok ap -> rep (o_pad o) E D0 ->
  (forall u v, ~ ((ay - hf nd <= u < ay - hf nd + Z.of_nat m)%Z /\ (ax - hf nd <= v < ax - hf nd + Z.of_nat m)%Z) -> D0 u v = RtoC 0) ->
  shape B m m -> (forall i j, (i < m)%nat -> (j < m)%nat -> fpx B i j = D0 (ay - hf nd + Z.of_nat i)%Z (ax - hf nd + Z.of_nat j)%Z) ->
  req_field (jac_tail o w s t nd ay ax m y x ap B) (do P3 <- tail1 o E; tail2 o w s t P3).
Proof.
  intros W Co Cn Cd C4 Hnd Ha Hw Hs Hy1 Hy2 Hx1 Hx2 Vy Vx Eap RE Z0 SB VB.
  pose proof (edge_01 o) as E01. pose proof (wf_cen o W) as Hc. pose proof (wf_narr4 o W) as Hn4. pose proof (even_hf nd Cd) as Hhd. set (bu := (ay - hf nd)%Z) in *. set (bv := (ax - hf nd)%Z) in *.
  assert (SD : supp (edge o - hf nd) (hf nd) D0) by (intros u v N; apply Z0; lia).
  destruct (jac_apod_rep o nd W Cn Cd Hnd Ha) as (ap' & Eap' & Rap). assert (ap' = ap) by congruence. subst ap'. clear Eap'.
  destruct (tail1_rep o nd W Cn Hnd Ha D0 E RE SD) as (P3 & EP3 & R3). rewrite EP3. cbn [rbind].
  pose proof (g3_supp o nd W Hnd Ha D0 E SD) as S3. pose proof (p3_pos o W) as Hp3. pose proof (p3_even o nd Cn Hnd Ha) as Hev.
  set (G := g3 o D0) in *. unfold jac_tail, tail2.
  destruct (take_rep nd ap _ ay ax m Rap) as (T & ET & ST & VT); [lia|lia|lia|lia|]. rewrite ET. cbn [rbind].
  destruct (bop_sq Cmult T B m m ST SB) as (B' & EB' & SB' & VB'). rewrite EB'. cbn [rbind].
  assert (VB2 : forall i j, (i < m)%nat -> (j < m)%nat -> fpx B' i j = G (sg (od o (o_n23 o)) (o_cen o) (bu + Z.of_nat i)%Z) (sg (od o (o_n23 o)) (o_cen o) (bv + Z.of_nat j)%Z)).
  { intros i j Hi Hj. rewrite VB', VT, VB by auto. unfold G. rewrite <- hh_g3. unfold hh. reflexivity. }
  change (oddrel o (o_n23 o)) with (od o (o_n23 o)).
  set (b := od o (o_n23 o)) in *. set (c := o_cen o) in *.
  set (inc := box_to_F3 o w s m (flip_ax b m y) (flip_ax b m x) (if b then flip2 B' else B')).
  assert (X : exists inc', p2f_f3 o w s P3 = Ok inc' /\ shape inc' (g_Neta (o_f3 o)) (g_Nxi (o_f3 o)) /\ feq inc inc').
  { destruct (wf_f3 o W) as (G1 & G2 & G3 & G4). destruct R3 as [[S31 S32] V3]. destruct (p2f_value P3 (o_fl o) w (o_dx2 o) (s * g_dxi (o_f3 o)) (g_Nxi (o_f3 o)) (s * g_deta (o_f3 o)) (g_Neta (o_f3 o)) c) as (inc' & Ei & I1 & I2 & VI).
    - auto. - auto. - apply wf_dx2; auto. - apply Rmult_lt_0_compat; auto. - auto. - apply Rmult_lt_0_compat; auto. - auto. - congruence. - lia. - apply wf_fl; auto.
    - exists inc'. split; [exact Ei|]. split; [split; auto|]. split; [symmetry; exact I1|]. split; [symmetry; exact I2|]. intros k l Hk Hl. change (k < g_Neta (o_f3 o))%nat in Hk. change (l < g_Nxi (o_f3 o))%nat in Hl.
      rewrite VI by auto. unfold inc. rewrite (box_F3_value o w s m bu bv B' y x b k l); auto; [|apply wf_dx2; auto|apply Rmult_integral_contrapositive_currified; [lra|apply wf_fl; auto]].
      f_equal. rewrite S31, S32. rewrite (fourier_rep (p3_size o) P3 G) by (exact Hev || (split; [split; auto|exact V3])).
      pose proof (sum_match b c bu bv m (- hf (p3_size o)) (p3_size o) (fun u v => Cmult (G u v) (phase c (o_dx2 o) (w * o_fl o) (coord (g_Neta (o_f3 o)) (s * g_deta (o_f3 o)) c k) (coord (g_Nxi (o_f3 o)) (s * g_dxi (o_f3 o)) c l) u v))) as SM.
      rewrite <- SM.
      + unfold wsum. apply csum2_ext. intros i j Hi Hj. rewrite VB2 by auto. reflexivity.
      + intros u v N. unfold G. change b with (od o (o_n23 o)). change c with (o_cen o). rewrite <- hh_g3. unfold hh. rewrite Z0 by auto. ring.
      + intros u v N. rewrite S3; [ring|]. pose proof (even_hf _ Hev). lia. }
  destruct X as (inc' & Einc' & Sinc' & Finc).
  assert (IV : is_vortex o = false) by (unfold is_vortex; name_false).
  assert (FIN : forall A A', req_field A A' -> oks A' (o_narr4 o) (o_narr4 o) -> req_field (do E0 <- A; do E1 <- imul E0 (o_lyot o); to_Fend o w (o_fend o) E1) (do EP4 <- A'; do E0 <- bop Cmult (o_lyot o) EP4; to_Fend o w (o_fend o) E0)).
  { intros A A' RA (Y & -> & SY). destruct A as [XA|]; [|destruct RA]. cbn [req_field] in RA. cbn [rbind]. assert (SX : shape XA (o_narr4 o) (o_narr4 o)) by (destruct RA as (R1 & R2 & _), SY; split; congruence).
    apply req_bind_lin; [|apply lin_to_Fend]. eapply req_trans; [eapply imul_bop; [exact SX|exact (wf_lyot o W)]|]. apply bop_req; [apply feq_refl|exact RA]. }
  unfold compact_P3_to_P4. rewrite IV. destruct (str_in (upper (o_coro o)) ["LC"; "APLC"; "HLC"]) eqn:N1.
  - assert (N2 : str_in (upper (o_coro o)) ["FLC"; "SPLC"] = false).
    { destruct (str_in _ ["FLC"; "SPLC"]) eqn:N2; auto. apply str_in_iff in N1, N2. cbn in N1, N2. intuition congruence. }
    rewrite N2. rewrite !Einc'. cbn [rbind]. set (nend := nrel o (o_n34 o)).
    destruct (put_rep nd ay ax m B') as (zf & Ez & Rz); [lia|lia|lia|lia|].
    assert (Rz' : rep nd zf (fun u v => G (sg b c u) (sg b c v))).
    { eapply rep_ext; [|exact Rz]. intros u v. unfold boxf. fold bu bv. destruct (_ && _)%bool eqn:BB.
      - repeat (apply andb_prop in BB; destruct BB as [BB ?]). repeat match goal with H : (_ && _)%bool = true |- _ => apply andb_prop in H; destruct H end. rewrite VB2 by lia. f_equal; f_equal; lia.
      - unfold G. change b with (od o (o_n23 o)). change c with (o_cen o). rewrite <- hh_g3. unfold hh. rewrite Z0; [ring|]. intros [Q1 Q2]. repeat (apply andb_false_iff in BB; destruct BB as [BB|BB]); lia. }
    assert (SH : supp (edge o - hf nd) (hf nd) (fun u v => G (sg b c u) (sg b c v))).
    { intros u v N. unfold G. change b with (od o (o_n23 o)). change c with (o_cen o). rewrite <- hh_g3. unfold hh. rewrite SD by auto. ring. }
    destruct (relay_supp o (o_n23 o + o_n34 o) nd zf _ Hc Rz' (proj1 Hnd) Cd SH) as (no1 & Eno1 & Rno1).
    destruct (rep_pad nd no1 _ (o_narr4 o) Rno1 (proj1 Hnd) Cd) as (no1' & Eno1' & Rno1').
    { left. eapply supp_wide; [apply (supp_sg o (o_n23 o + o_n34 o) (hf nd) _ Hc SH)|lia|lia]. } { auto. }
    destruct (relay_supp o (o_n34 o) (p3_size o) P3 G Hc R3 Hp3 Hev S3) as (no2 & Eno2 & Rno2).
    destruct (rep_pad (p3_size o) no2 _ (o_narr4 o) Rno2 Hp3 Hev) as (no2' & Eno2' & Rno2').
    { left. eapply supp_wide; [apply (supp_sg o (o_n34 o) (hf (p3_size o)) _ Hc S3)|lia|lia]. } { auto. }
    assert (FN : feq no1' no2'). { eapply rep_feq; [exact Rno1'|exact Rno2'|]. intros u v. cbn beta. unfold b, c. rewrite !od_plus. reflexivity. }
    rewrite Ez. fold c. fold nend. fold c in Eno1, Eno2. fold nend in Eno2. rewrite Eno2. cbn [rbind]. rewrite Eno2'. cbn [rbind].
    set (L := bop Cmult (fmap (fun q => Cminus t q) (o_fpm o)) inc). set (L' := bop Cmult (fmap (fun q => Cminus t q) (o_fpm o)) inc').
    assert (RL : req_field L L') by (apply bop_req; [apply feq_refl|exact Finc]).
    destruct (oks_bop Cmult (fmap (fun q => Cminus t q) (o_fpm o)) inc' _ _ (fpm_shape o _ W) Sinc') as (l' & EL' & SL'). fold L' in EL'. rewrite EL'. cbn [rbind]. rewrite EL' in RL.
    destruct L as [l|]; [|destruct RL]. cbn [rbind req_field] in RL |- *.
    pose proof (lin_feq _ l l' (lin_fpm_back o w s) RL) as RS. destruct (oks_f2p3 o w s l' W Hw Hs SL') as (sb' & Esb' & Ssb'). rewrite Esb' in RS |- *. destruct (f2p_f3 o w s l) as [sb|]; [|destruct RS]. cbn [rbind req_field] in RS |- *.
    pose proof (lin_feq _ sb sb' (lin_relay (nend - 1) c) RS) as RT. cbn beta in RT. destruct (oks_relay sb' (nend - 1) c _ _ Hc Ssb') as (sr' & Esr' & Ssr'). rewrite Esr' in RT |- *. destruct (relay sb (nend - 1) c) as [sr|]; [|destruct RT]. cbn [rbind req_field] in RT |- *.
    rewrite Eno1. cbn [rbind]. rewrite Eno1'. cbn [rbind]. apply (FIN (bop Cminus (scal t no1') sr) (bop Cminus (scal t no2') sr')).
    + apply bop_req; [now apply feq_scal|exact RT].
    + apply oks_bop; [apply scal_shape; exact (proj1 Rno2')|exact Ssr'].
  - assert (N2 : str_in (upper (o_coro o)) ["FLC"; "SPLC"] = true).
    { destruct Co as [Q|[Q|[Q|[Q|[Q|[]]]]]]; rewrite <- Q in *; cbn in N1 |- *; auto; discriminate N1. }
    rewrite N2, Einc'. cbn [rbind]. set (nend := nrel o (o_n34 o)).
    set (A := do EF3 <- bop Cmult (o_fpm o) inc; do EP4 <- f2p_f3 o w s EF3; relay EP4 (nend - 1) c). set (A' := do EF3 <- bop Cmult (o_fpm o) inc'; do EP4 <- f2p_f3 o w s EF3; relay EP4 (nend - 1) c).
    apply (FIN A A').
    + unfold A, A'. apply (req_bind_lin _ _ (fun E0 => do EP4 <- f2p_f3 o w s E0; relay EP4 (nend - 1) c)); [apply bop_req; [apply feq_refl|exact Finc]|]. apply lin_bind; [apply lin_fpm_back|apply lin_relay].
    + unfold A'. eapply oks_bind; [apply oks_bop; [exact (wf_fpm o W)|exact Sinc']|]. intros O1 S1. eapply oks_bind; [apply oks_f2p3; auto|]. intros O2 S2. apply oks_relay; auto.
Qed.
