(* The Jacobian of the peak is the on-axis value of the poke's unocculted image. *)
From Verif Require Import Base RBase StrBase UtilModel CBase PropModel PropSpec PropProofs PropProofs2 OptModel OptSpec LinBase OptProofs OptProofs2 OptProofs3 OptProofs4 OptProofs6 OptProofs7 DiffModel DiffSpec DiffProofs2 SrcModel PokeModel PokeProofs PokeProofs2 GradModel GradSpec GradProofs GradProofs2 GradProofs3 GradProofs4 GradProofs5 PokeSpec PokeProofs3 PokeProofs4 PokeProofs5 PokeProofs6 PokeProofs7 PokeProofs8 NiModel NiSpec NiProofs.
Open Scope R_scope.

Definition tailn (o : optics) (w : R) (t : C) (I00 : R) (Q : field C) : res (field C) :=
  do r <- relay Q (nrel o (o_n34 o)) (o_cen o); do p <- pad_cropf (scal t r) (o_narr4 o) (o_narr4 o); do E <- bop Cmult (o_lyot o) p; do F <- to_Fend o w (o_fend o) E; Ok (normalise I00 F).
Lemma from_false o w s t I00 Q : well_formed o -> compact_from o w I00 false false t s Q = tailn o w t I00 Q.
Proof.
  intros W. unfold compact_from, tailn. replace (if Req_EM_T I00 0 then if is_vortex o then false else false else false) with false by (destruct (Req_EM_T I00 0), (is_vortex o); reflexivity).
  unfold compact_P3_to_P4. destruct (wf_nbeam o W) as [_ E]. destruct (Req_EM_T (o_nbeam4 o) (o_nbeam1 o)); [|congruence]. destruct (relay Q (nrel o (o_n34 o)) (o_cen o)) as [r|e0]; cbn [rbind]; [|reflexivity]. destruct (pad_cropf _ _ _); reflexivity.
Qed.
Lemma lin_tailn o w t I00 : lin (tailn o w t I00).
Proof.
  unfold tailn. apply lin_bind; [lstep|]. apply (lin_pure_bind (scal t) (fun E0 => do p <- pad_cropf E0 (o_narr4 o) (o_narr4 o); do E <- bop Cmult (o_lyot o) p; do F <- to_Fend o w (o_fend o) E; Ok (normalise I00 F))); [lstep|]. do 3 (apply lin_bind; [lstep|]). lstep.
Qed.
Lemma oks_tailn o w t I00 Q : well_formed o -> 0 < w -> shape Q (p3_size o) (p3_size o) -> oks (tailn o w t I00 Q) (g_Neta (o_fend o)) (g_Nxi (o_fend o)).
Proof.
  intros W Hw SQ. unfold tailn. eapply oks_bind; [apply oks_relay; [apply wf_cen; auto|exact SQ]|]. intros O SO. pose proof (p3_pos o W). pose proof (wf_narr4 o W).
  eapply oks_bind; [apply oks_pad; auto|]. intros O2 S2. eapply oks_bind; [apply oks_bop; [exact (wf_lyot o W)|exact S2]|]. intros O3 S3. eapply oks_bind; [apply oks_to_Fend; eauto; apply wf_fend; auto|]. intros F SF. apply oks_ok. now apply normalise_shape.
Qed.
(* the cropped Lyot stop in centred coordinates *)
Definition LS (o : optics) (u v : Z) : C := boxf (- hf (o_narr4 o)) (- hf (o_narr4 o)) (o_narr4 o) (fpx (o_lyot o)) u v.
Lemma box_supp n F : Nat.even n = true -> supp (- hf n) (hf n) (boxf (- hf n) (- hf n) n F).
Proof. intros H u v N. pose proof (even_hf n H). unfold boxf. destruct (_ && _)%bool eqn:B; [|reflexivity]. exfalso. apply N. repeat (apply andb_prop in B; destruct B as [B ?]). repeat match goal with H : (_ && _)%bool = true |- _ => apply andb_prop in H; destruct H end. lia. Qed.
Lemma box_rep n F : Nat.even n = true -> shape F n n -> rep n F (boxf (- hf n) (- hf n) n (fpx F)).
Proof.
  intros H S. split; [exact S|]. intros i j Hi Hj. pose proof (even_hf n H). unfold boxf. destruct (_ && _)%bool eqn:Q; [f_equal; lia|]. exfalso. repeat (apply andb_false_iff in Q; destruct Q as [Q|Q]); lia.
Qed.
Lemma LS_supp b o st sp : well_formed o -> even_size (o_narr4 o) -> ni_ready b o st sp -> supp (edge o - hf (o_narr4 o)) (hf (o_narr4 o)) (LS o).
Proof.
  intros W E4 N u v Nu. destruct (nr_lyot _ _ _ _ N) as [_ Hz]. pose proof (even_hf _ E4) as H4. pose proof (edge_01 o). pose proof (wf_narr4 o W). unfold LS, boxf. destruct (_ && _)%bool eqn:B; [|reflexivity].
  repeat (apply andb_prop in B; destruct B as [B ?]). repeat match goal with H : (_ && _)%bool = true |- _ => apply andb_prop in H; destruct H end.
  assert (Q : edge o = 1%Z) by lia. specialize (Hz Q). assert (u = - hf (o_narr4 o) \/ v = - hf (o_narr4 o))%Z as [->| ->] by lia.
  - replace (Z.to_nat (- hf (o_narr4 o) - - hf (o_narr4 o))) with 0%nat by lia. apply Hz. lia.
  - replace (Z.to_nat (- hf (o_narr4 o) - - hf (o_narr4 o))) with 0%nat by lia. apply Hz. lia.
Qed.
(* relays with the default centring agree with the instrument's *)
Lemma relay_default {A} o (E : field A) k : o_cen o <> OtherCentering -> o_cen o = Pixel \/ o_rot o = false -> relay E (nrel o k) Pixel = relay E (nrel o k) (o_cen o).
Proof. intros Hc [->|H]; [reflexivity|]. unfold nrel. rewrite H. unfold relay. cbn. destruct (o_cen o); [reflexivity|reflexivity|congruence]. Qed.
Lemma lyot_reimaged_rep b o st sp : well_formed o -> even_size (o_pad o) -> even_size (o_narr4 o) -> ni_ready b o st sp ->
  exists l, lyot_reimaged o sp = Ok l /\ rep (o_pad o) l (fun u v => LS o (sg (od o (o_n23 o + o_n34 o)) (o_cen o) u) (sg (od o (o_n23 o + o_n34 o)) (o_cen o) v)).
Proof.
  intros W En E4 N. pose proof (LS_supp b o st sp W E4 N) as SL. unfold lyot_reimaged. destruct (wf_nbeam o W) as [_ Eb]. destruct (Req_EM_T (o_nbeam4 o) (o_nbeam1 o)); [|congruence]. cbn [rbind].
  destruct (nr_stop _ _ _ _ N) as (n & Hn & Hl & M1 & M2 & V). pose proof (even_hf _ Hn) as H1. pose proof (even_hf _ E4) as H4. pose proof (edge_01 o) as E01. pose proof (wf_narr4 o W) as P4. pose proof (hf_le _ _ Hl) as HL. pose proof (wf_pad o W). destruct (nr_lyot _ _ _ _ N) as [Hp _]. pose proof (hf_le _ _ Hp).
  assert (R : rep n (sp_mask sp) (LS o)).
  { split; [split; auto|]. intros i j Hi Hj. rewrite V by auto. cbv zeta. change (Z.of_nat n / 2)%Z with (hf n). change (Z.of_nat (o_narr4 o) / 2)%Z with (hf (o_narr4 o)). unfold LS, boxf. match goal with |- (if ?x then _ else _) = _ => destruct x eqn:Q1 end.
    - repeat match goal with H : (_ && _)%bool = true |- _ => apply andb_prop in H; destruct H end. match goal with |- _ = (if ?x then _ else _) => destruct x eqn:Q2 end.
      + f_equal; lia. + exfalso. repeat (apply andb_false_iff in Q2; destruct Q2 as [Q2|Q2]); lia.
    - match goal with |- _ = (if ?x then _ else _) => destruct x eqn:Q2 end; [|reflexivity]. exfalso. repeat match goal with H : (_ && _)%bool = true |- _ => apply andb_prop in H; destruct H end. repeat (apply andb_false_iff in Q1; destruct Q1 as [Q1|Q1]); lia. }
  destruct (rep_pad n (sp_mask sp) _ (o_pad o) R ltac:(lia) Hn) as (p & Ep & Rp); [left; eapply supp_wide; [exact SL|lia|lia]|lia|]. rewrite Ep. cbn [rbind].
  rewrite (relay_default o) by (apply (wf_cen o W) || apply (nr_cen _ _ _ _ N)).
  apply (relay_supp o (o_n23 o + o_n34 o) (o_pad o) p (LS o)); auto; [apply wf_cen; auto|]. eapply supp_wide; [exact SL|lia|lia].
Qed.
Lemma ett_rep b o st sp w nd : ni_ready b o st sp -> even_size nd -> (1 <= nd)%nat -> (1 <= o_narr4 o)%nat -> exists u0 u, ett_undo b o st w = Ok u0 /\ pad_cropf u0 nd nd = Ok u /\
  rep nd u (fun u v => boxf (- hf (frows (b_X b))) (- hf (frows (b_X b))) (frows (b_X b)) (fun _ _ => RtoC 1) u v).
Proof.
  intros N Ed Hd H4. destruct (nr_star _ _ _ _ N) as [Hx Hy]. destruct (nr_X _ _ _ _ N) as (X1 & X2 & X3). set (ne := frows (b_X b)) in *.
  assert (T : forall i j, fpx (tilt b (st_xi st) (st_eta st) w) i j = RtoC 1). { intros i j. cbn. rewrite Hx, Hy. replace (-1 * (2 * PI * (0 * fpx (b_X b) i j + 0 * fpx (b_Y b) i j)) * b_lambda0 b / w) with 0 by (unfold Rdiv; ring). apply injective_projections; cbn; [apply cos_0|apply sin_0]. }
  assert (R : exists r, relay (tilt b (st_xi st) (st_eta st) w) (nrel o (o_n12 o)) Pixel = Ok r /\ frows r = ne /\ fcols r = ne /\ forall i j, fpx r i j = RtoC 1).
  { unfold relay. destruct (_ =? 1)%Z; eexists; (split; [reflexivity|]); cbn; (split; [reflexivity|]); (split; [symmetry; exact X1|]); intros; apply T. }
  destruct R as (r & Er & R1 & R2 & V). unfold ett_undo. rewrite Er. cbn [rbind]. eexists.
  destruct (rep_pad ne (fmap (fun z => Cdiv (RtoC 1) z) r) (fun u v => boxf (- hf ne) (- hf ne) ne (fun _ _ => RtoC 1) u v) nd) as (p & Ep & Rp).
  - destruct (box_rep ne (mkf ne ne (fun _ _ => RtoC 1)) X2) as [_ B]; [split; reflexivity|]. split; [split; [exact R1|exact R2]|]. intros i j Hi Hj. cbn [fmap fpx]. rewrite V. transitivity (RtoC 1); [|exact (B i j Hi Hj)]. apply injective_projections; cbn; field.
  - lia. - exact X2. - left. apply box_supp. exact X2. - exact Hd.
  - exists p. split; [reflexivity|]. split; [exact Ep|exact Rp].
Qed.
Lemma csum_mult_c n c f : csum n (fun k => Cmult c (f k)) = Cmult c (csum n f).
Proof. induction n; cbn [csum]; [ring|]. rewrite IHn. ring. Qed.
Lemma wsum2_scal a m c (F : Z -> Z -> C) : wsum a m (fun u => wsum a m (fun v => Cmult c (F u v))) = Cmult c (wsum a m (fun u => wsum a m (F u))).
Proof. unfold wsum. rewrite <- csum_mult_c. apply csum_ext. intros i Hi. apply csum_mult_c. Qed.
Lemma peak_core b o st sp w I00 t fields dm2 pk B X P3 i j : poke_ready o pk -> ni_ready b o st sp -> 0 < w -> 0 < I00 -> boxof o w fields dm2 pk = Ok B -> boxed o pk X B -> tail1 o X = Ok P3 -> on_axis o i j ->
  exists J, peak_jac b o st sp w I00 fields dm2 pk = Ok J /\ px (tailn o w t I00 P3) i j = Cmult t J.
Proof.
  intros P N Hw HI EB (SX & (B1 & B2 & VB) & Z0') EP3 (Hi & Hj & Ci & Cj). pose proof (pr_wf o pk P) as W. destruct (box_pos o pk P) as (A1 & A2 & A3 & A4 & A5 & A6). destruct (pr_even o pk P) as (En & Ed & E4). pose proof (pr_nd o pk P) as Hnd. pose proof (even_hf _ En) as Hn. pose proof (even_hf _ Ed) as Hdd.
  pose proof (wf_cen o W) as Hc. pose proof (edge_01 o) as E01. pose proof (wf_narr4 o W) as P4. pose proof (even_hf _ E4) as H4.
  assert (HZ : Z.of_nat (o_pad o / 2 - pk_nd pk / 2) = (hf (o_pad o) - hf (pk_nd pk))%Z). { assert (pk_nd pk / 2 <= o_pad o / 2)%nat by (apply Nat.div_le_mono; lia). rewrite Nat2Z.inj_sub, !Nat2Z.inj_div by lia. reflexivity. }
  set (nd := pk_nd pk) in *. set (m := pk_nas pk) in *. set (ay := ay_ pk) in A1, A2 |- *. set (ax := ax_ pk) in A3, A4 |- *. set (c := o_cen o) in *.
  set (D0 := boxf (- hf (o_pad o)) (- hf (o_pad o)) (o_pad o) (fpx X)).
  assert (RX : rep (o_pad o) X D0) by (apply box_rep; auto).
  set (bu := (ay - hf nd)%Z). set (bv := (ax - hf nd)%Z).
  assert (Z0 : forall u v, ~ ((bu <= u < bu + Z.of_nat m)%Z /\ (bv <= v < bv + Z.of_nat m)%Z) -> D0 u v = RtoC 0).
  { intros u v NN. unfold D0, boxf. destruct (_ && _)%bool eqn:Q; [|reflexivity]. repeat (apply andb_prop in Q; destruct Q as [Q ?]). repeat match goal with H : (_ && _)%bool = true |- _ => apply andb_prop in H; destruct H end.
    apply Z0'; [lia|lia|]. unfold inbox, qy_, qx_. fold nd m ay ax. unfold bu, bv in NN. lia. }
  assert (VB2 : forall p q, (p < m)%nat -> (q < m)%nat -> fpx B p q = D0 (bu + Z.of_nat p)%Z (bv + Z.of_nat q)%Z).
  { intros p q Hp Hq. rewrite VB by auto. unfold D0, boxf. destruct (q_bound o pk P p Hp) as [Q1 _]. destruct (q_bound o pk P q Hq) as [_ Q2]. unfold qy_, qx_ in *. fold ay ax nd m in Q1, Q2 |- *. unfold bu, bv. destruct (_ && _)%bool eqn:Q; [f_equal; lia|]. exfalso. repeat (apply andb_false_iff in Q; destruct Q as [Q|Q]); lia. }
  assert (SD : supp (edge o - hf nd) (hf nd) D0) by (intros u v NN; apply Z0; unfold bu, bv; lia).
  destruct (jac_apod_rep o nd W En Ed Hnd (pr_apod o pk P)) as (ap & Eap & Rap).
  destruct (tail1_rep o nd W En Hnd (pr_apod o pk P) D0 X RX SD) as (P3' & EP3' & R3). assert (P3' = P3) by congruence. subst P3'. clear EP3'.
  pose proof (g3_supp o nd W Hnd (pr_apod o pk P) D0 X SD) as S3. pose proof (p3_pos o W) as Hp3. pose proof (p3_even o nd En Hnd (pr_apod o pk P)) as Hev. set (G := g3 o D0) in *.
  destruct (lyot_reimaged_rep b o st sp W En E4 N) as (l0 & El0 & Rl0). destruct (rep_pad (o_pad o) l0 _ nd Rl0 (wf_pad o W) En) as (ln & Eln & Rln); [right; split; [lia|exact Ed]|lia|].
  destruct (ett_rep b o st sp w nd N Ed (proj1 Hnd) P4) as (u0 & un & Eu0 & Eun & Run).
  pose proof (LS_supp b o st sp W E4 N) as SL. set (bb := od o (o_n23 o + o_n34 o)) in *.
  destruct (take_rep nd ap _ ay ax m Rap) as (ta & Eta & Sta & Vta); [lia|lia|lia|lia|]. destruct (take_rep nd un _ ay ax m Run) as (tu & Etu & Stu & Vtu); [lia|lia|lia|lia|]. destruct (take_rep nd ln _ ay ax m Rln) as (tl & Etl & Stl & Vtl); [lia|lia|lia|lia|].
  destruct (bop_sq Cmult ta B m m Sta (conj B1 B2)) as (Q1 & EQ1 & SQ1 & VQ1). destruct (bop_sq Cmult tu Q1 m m Stu SQ1) as (Q2 & EQ2 & SQ2 & VQ2). destruct (bop_sq Cmult tl Q2 m m Stl SQ2) as (Q3 & EQ3 & [SQ31 SQ32] & VQ3).
  set (K := sqrt (o_dx2 o * o_dx2 o) * sqrt (g_dxi (o_fend o) * g_deta (o_fend o)) / (w * o_fl o)).
  exists (Cdiv (Cmult (csum2 Q3) (RtoC (1 * sqrt (o_dx2 o * o_dx2 o) * sqrt (g_dxi (o_fend o) * g_deta (o_fend o)) / (w * o_fl o)))) (RtoC (sqrt I00))). split.
  { unfold peak_jac. rewrite Eu0, El0. cbn [rbind]. rewrite (wf_wfe o W). cbn [andb]. fold nd m. rewrite Eap. cbn [rbind]. rewrite Eln. cbn [rbind]. rewrite Eun. cbn [rbind].
    change (box_start (pk_lly pk) m (pk_nbox pk)) with ay. change (box_start (pk_llx pk) m (pk_nbox pk)) with ax. unfold boxof in EB. fold ay ax in EB. rewrite EB. cbn [rbind]. rewrite Eta. cbn [rbind]. rewrite EQ1. cbn [rbind]. rewrite Etu. cbn [rbind]. rewrite EQ2. cbn [rbind]. rewrite Etl. cbn [rbind]. rewrite EQ3. reflexivity. }
  replace (1 * sqrt (o_dx2 o * o_dx2 o) * sqrt (g_dxi (o_fend o) * g_deta (o_fend o)) / (w * o_fl o)) with K by (unfold K, Rdiv; ring).
  set (F := fun u v => Cmult (LS o u v) (G (sg (od o (o_n34 o)) c u) (sg (od o (o_n34 o)) c v))).
  assert (SF : supp (edge o - hf (o_narr4 o)) (hf (o_narr4 o)) F) by (intros u v NN; unfold F; rewrite SL by auto; ring).
  (* the sum over the box *)
  assert (S1 : csum2 Q3 = wsum (- hf (o_narr4 o)) (o_narr4 o) (fun u => wsum (- hf (o_narr4 o)) (o_narr4 o) (F u))).
  { rewrite <- (sum_match bb c bu bv m (- hf (o_narr4 o)) (o_narr4 o) F).
    - unfold csum2, wsum. rewrite SQ31, SQ32. apply csum2_ext. intros p q Hp Hq. rewrite VQ3, VQ2, VQ1, Vtl, Vtu, Vta, VB2 by auto. fold bu bv. set (u := (bu + Z.of_nat p)%Z). set (v := (bv + Z.of_nat q)%Z).
      unfold F. unfold c. change bb with (od o (o_n23 o + o_n34 o)). rewrite (Z.add_comm (o_n23 o) (o_n34 o)). rewrite !od_plus. rewrite (Z.add_comm (o_n34 o) (o_n23 o)). fold bb. fold c. unfold G. rewrite <- hh_g3. unfold hh. fold c.
      change (Cmult (LS o (sg bb c u) (sg bb c v)) (Cmult (boxf (- hf (frows (b_X b))) (- hf (frows (b_X b))) (frows (b_X b)) (fun _ _ => RtoC 1) u v) (Cmult (mk o (sg (od o (o_n23 o)) c u) (sg (od o (o_n23 o)) c v)) (D0 u v))) = Cmult (LS o (sg bb c u) (sg bb c v)) (Cmult (mk o (sg (od o (o_n23 o)) c u) (sg (od o (o_n23 o)) c v)) (D0 u v))).
      destruct (nr_X _ _ _ _ N) as (X1 & X2 & X3). pose proof (even_hf _ X2) as HX. pose proof (hf_le _ _ X3) as HX2.
      unfold boxf. destruct (_ && _)%bool eqn:QQ; [ring|].
      assert (LZ : LS o (sg bb c u) (sg bb c v) = RtoC 0).
      { apply (supp_sg o (o_n23 o + o_n34 o) (hf (o_narr4 o)) (LS o) Hc SL). intros [I1 I2]. repeat (apply andb_false_iff in QQ; destruct QQ as [QQ|QQ]); lia. }
      rewrite LZ. ring.
    - intros u v NN. unfold F, c. change bb with (od o (o_n23 o + o_n34 o)). rewrite (Z.add_comm (o_n23 o) (o_n34 o)). rewrite !od_plus. unfold G. rewrite <- hh_g3. unfold hh. rewrite Z0 by auto. ring.
    - intros u v NN. apply SF. lia. }
  (* the image *)
  unfold tailn. destruct (relay_supp o (o_n34 o) (p3_size o) P3 G Hc R3 Hp3 Hev S3) as (r & Er & Rr). fold c in Er. unfold c in Er. rewrite Er. cbn [rbind].
  assert (Rs : rep (p3_size o) (OptModel.scal t r) (fun u v => Cmult t (G (sg (od o (o_n34 o)) (o_cen o) u) (sg (od o (o_n34 o)) (o_cen o) v)))). { destruct Rr as [Sr Vr]. split; [exact Sr|]. intros p q Hp Hq. cbn [OptModel.scal fmap fpx]. rewrite Vr by auto. reflexivity. }
  destruct (rep_pad (p3_size o) _ _ (o_narr4 o) Rs Hp3 Hev) as (p & Ep & [Sp Vp]); [|exact P4|].
  { left. intros u v NN. rewrite (supp_sg o (o_n34 o) (hf (p3_size o)) G Hc S3 u v); [ring|]. lia. }
  rewrite Ep. cbn [rbind]. destruct (bop_sq Cmult (o_lyot o) p _ _ (wf_lyot o W) Sp) as (E5 & EE5 & SE5 & VE5). rewrite EE5. cbn [rbind].
  assert (R5 : rep (o_narr4 o) E5 (fun u v => Cmult t (F u v))).
  { split; [exact SE5|]. intros x y Hx Hy. rewrite VE5, Vp by auto. unfold F. destruct (box_rep (o_narr4 o) (o_lyot o) E4 (wf_lyot o W)) as [_ BL]. rewrite (BL x y Hx Hy). unfold LS, c. ring. }
  assert (S5 : supp (edge o - hf (o_narr4 o)) (hf (o_narr4 o)) (fun u v => Cmult t (F u v))) by (intros u v NN; rewrite SF by auto; ring).
  unfold to_Fend. destruct (relay_supp o (o_nend o) (o_narr4 o) E5 _ Hc R5 P4 E4 S5) as (E6 & EE6 & R6). rewrite EE6. cbn [rbind].
  destruct (wf_fend o W) as (G1 & G2 & G3 & G4). destruct R6 as [[S61 S62] V6].
  destruct (p2f_value E6 (o_fl o) w (o_dx4 o) (g_dxi (o_fend o)) (g_Nxi (o_fend o)) (g_deta (o_fend o)) (g_Neta (o_fend o)) (o_cen o)) as (O & EO & O1 & O2 & VO); auto; try (apply wf_dx4; auto); try (apply wf_fl; auto); try congruence; try lia.
  rewrite EO. cbn [rbind]. unfold px, normalise. destruct (Req_EM_T I00 0); [lra|]. cbn [fmap fpx]. rewrite VO by auto. fold c. rewrite Ci, Cj. rewrite S61, S62.
  rewrite (fourier_rep (o_narr4 o) E6 (fun u v => Cmult t (F (sg (od o (o_nend o)) c u) (sg (od o (o_nend o)) c v)))) by (exact E4 || (split; [split; auto|exact V6])).
  replace (sqrt (o_dx4 o * o_dx4 o * g_dxi (o_fend o) * g_deta (o_fend o)) / (w * o_fl o)) with K.
  2:{ unfold K. rewrite (nr_dx _ _ _ _ N). rewrite <- sqrt_mult; [f_equal; f_equal; ring| |]; [apply Rle_0_sqr|]. apply Rmult_le_pos; lra. }
  assert (S6 : wsum (- hf (o_narr4 o)) (o_narr4 o) (fun u => wsum (- hf (o_narr4 o)) (o_narr4 o) (fun v => Cmult (Cmult t (F (sg (od o (o_nend o)) c u) (sg (od o (o_nend o)) c v))) (phase (o_cen o) (o_dx4 o) (w * o_fl o) 0 0 u v))) = Cmult t (csum2 Q3)).
  { rewrite S1. rewrite <- (sum_match (od o (o_nend o)) c (- hf (o_narr4 o)) (- hf (o_narr4 o)) (o_narr4 o) (- hf (o_narr4 o)) (o_narr4 o) F).
    - rewrite <- (wsum2_scal _ _ t (fun u v => F (sg (od o (o_nend o)) c u) (sg (od o (o_nend o)) c v))). apply wsum_ext. intros u Hu. apply wsum_ext. intros v Hv. unfold phase. replace (- (2 * PI) * (0 * ((IZR u + dlt (o_cen o)) * o_dx4 o) + 0 * ((IZR v + dlt (o_cen o)) * o_dx4 o)) / (w * o_fl o)) with 0 by (unfold Rdiv; ring).
      replace (cis 0) with (RtoC 1) by (apply injective_projections; cbn; [symmetry; apply cos_0|symmetry; apply sin_0]). ring.
    - intros u v NN. apply (supp_sg o (o_nend o) (hf (o_narr4 o)) F Hc SF). lia.
    - intros u v NN. apply SF. lia. }
  fold c in S6. rewrite S6. unfold Cdiv. ring.
Qed.
