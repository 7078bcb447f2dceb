(* The gradient of one mode and of a sum of modes. *)
From Coquelicot Require Import Coquelicot.
From Verif Require Import Base RBase StrBase UtilModel CBase PropModel PropSpec PropProofs PropProofs2 OptModel OptSpec LinBase OptProofs OptProofs2 OptProofs3 OptProofs4 OptProofs7 GradModel GradSpec GradAdj GradAdj2 GradProofs GradProofs2 GradProofs3 GradProofs4 GradProofs5.
Open Scope R_scope.

Lemma fst_csum n f : fst (csum n f) = rsum n (fun k => fst (f k)).
Proof. induction n; cbn [csum rsum]; [reflexivity|]. cbn [fst Cplus]. now rewrite IHn. Qed.
Lemma fst_inner n m a b : fst (inner n m a b) = rsum n (fun i => rsum m (fun j => fst (Cmult (Cconj (a i j)) (b i j)))).
Proof. unfold inner. rewrite fst_csum. apply rsum_ext. intros i Hi. now rewrite fst_csum. Qed.
Lemma rsum2_ext n m f g : (forall i j, (i < n)%nat -> (j < m)%nat -> f i j = g i j) -> rsum n (fun i => rsum m (fun j => f i j)) = rsum n (fun i => rsum m (fun j => g i j)).
Proof. intros H. apply rsum_ext. intros i Hi. apply rsum_ext. auto. Qed.
Lemma rsum2_scal n m c f : rsum n (fun i => rsum m (fun j => c * f i j)) = c * rsum n (fun i => rsum m (fun j => f i j)).
Proof. rewrite <- rsum_scal. apply rsum_ext. intros i Hi. now rewrite rsum_scal. Qed.
Lemma bar_real e p k d : - fst (Cmult (Cconj e) (Cmult p (0, k * d))) = - k * snd (Cmult e (Cconj p)) * d.
Proof. unfold Cmult, Cconj; cbn. ring. Qed.
(* gradient with respect to a surface as a sum over pixels *)
Lemma surf_bar_spec w E F n : shape E n n -> shape F n n -> exists g, surf_bar w E F = Ok g /\ square n g /\
  forall d, dot2 n g d = - fst (inner n n (fpx E) (fun i j => Cmult (fpx F i j) (0, kk w * fpx d i j))).
Proof.
  intros SE SF. assert (SF' : shape (fmap Cconj F) n n) by (destruct SF; split; auto). destruct (bop_sq Cmult E (fmap Cconj F) n n SE SF') as (p & Ep & [P1 P2] & Vp).
  unfold surf_bar. rewrite Ep. cbn [rbind]. eexists. split; [reflexivity|]. split; [split; cbn; auto|]. intros d. rewrite fst_inner. unfold dot2.
  replace (- rsum n _) with (-1 * rsum n (fun i => rsum n (fun j => fst (Cmult (Cconj (fpx E i j)) (Cmult (fpx F i j) (0, kk w * fpx d i j)))))) by ring.
  rewrite <- rsum2_scal. apply rsum2_ext. intros i j Hi Hj. cbn [fpx]. rewrite Vp by auto. replace (-1 * fst (Cmult (Cconj (fpx E i j)) (Cmult (fpx F i j) (0, kk w * fpx d i j)))) with (- fst (Cmult (Cconj (fpx E i j)) (Cmult (fpx F i j) (0, kk w * fpx d i j)))) by ring.
  rewrite bar_real. unfold kk. reflexivity.
Qed.
Lemma dR_msum M (f : R -> nat -> nat -> R) l : (forall i j, (i < frows M)%nat -> (j < fcols M)%nat -> is_derive (fun t => f t i j) 0 (l i j)) -> is_derive (fun t => msum M (f t)) 0 (msum M l).
Proof.
  intros H. unfold msum. apply (dR_rsum _ (fun t i => rsum (fcols M) (fun j => if fpx M i j then f t i j else 0))). intros i Hi. apply (dR_rsum _ (fun t j => if fpx M i j then f t i j else 0)). intros j Hj.
  destruct (fpx M i j); [auto|]. apply (is_derive_const (V := R_NormedModule) 0 0).
Qed.
Lemma scatter_px M m : mode_ready M m -> exists est, scatter M (md_est m) = Ok est /\ shape est (frows M) (fcols M) /\ forall i j, fpx M i j = true -> fpx est i j = estimate M m i j.
Proof. intros (_ & _ & L). unfold scatter. rewrite L, Nat.eqb_refl. eexists. split; [reflexivity|]. split; [split; reflexivity|]. intros i j H. cbn. now rewrite H. Qed.
Lemma px_image o m F i j : compact_field o (md_wvl m) (md_I00 m) false false true (md_Ein m) = Ok F -> fpx F i j = image o m i j.
Proof. intros H. unfold image. now rewrite H. Qed.

Lemma mode_gradient o M m b1 b2 : gradient_ready o -> square (o_pad o) b1 -> square (o_pad o) b2 -> frows M = g_Neta (o_fend o) -> fcols M = g_Nxi (o_fend o) -> mode_ready M m ->
  exists en g1 g2, rev_mode o (with_surfs o b1 b2) M (RtoC 1) m = Ok (md_w m * en, (g1, g2)) /\ square (o_pad o) g1 /\ square (o_pad o) g2 /\
    en = msum M (fun i j => abs2 (Cplus (estimate M m i j) (Cminus (image (with_surfs o b1 b2) m i j) (image o m i j)))) /\
    forall d1 d2, square (o_pad o) d1 -> square (o_pad o) d2 ->
      is_derive (fun t => md_w m * msum M (fun i j => abs2 (Cplus (Cplus (estimate M m i j) (Cminus (image (with_surfs o b1 b2) m i j) (image o m i j))) (Cminus (image (moved o d1 d2 t) m i j) (image o m i j))))) 0
        (dot2 (o_pad o) g1 d1 + dot2 (o_pad o) g2 d2).
Proof.
  intros G B1 B2 M1 M2 MR. pose proof MR as (Hw & HI & HL). destruct (ready_squares o G) as [S1 S2]. set (w := md_wvl m) in *. set (n := o_pad o) in *.
  destruct (images o m G Hw HI) as (A & SA & IM & GE). fold w n in IM, GE.
  destruct (GE _ _ S1 S2) as (FA & mid & EA & SFA & Spost & Spre & Vpost & Vpre). rewrite with_self in EA.
  destruct (GE _ _ B1 B2) as (FB & midB & EB & SFB & _).
  destruct (scatter_px M m MR) as (est & Eest & Sest & Vest). rewrite M1, M2 in Sest.
  destruct (bop_sq Cminus FB FA _ _ SFB SFA) as (dE & EdE & SdE & VdE). destruct (bop_sq Cplus est dE _ _ Sest SdE) as (Edh & EEdh & SEdh & VEdh).
  assert (EFA : compact_field o w (md_I00 m) false false true (md_Ein m) = Ok FA) by (unfold compact_field; rewrite EA; reflexivity).
  assert (EFB : compact_field (with_surfs o b1 b2) w (md_I00 m) false false true (md_Ein m) = Ok FB) by (unfold compact_field; rewrite EB; reflexivity).
  set (Z := fun i j => Cplus (estimate M m i j) (Cminus (image (with_surfs o b1 b2) m i j) (image o m i j))).
  assert (VZ : forall i j, (i < g_Neta (o_fend o))%nat -> (j < g_Nxi (o_fend o))%nat -> fpx M i j = true -> fpx Edh i j = Z i j).
  { intros i j Hi Hj HM. rewrite VEdh, VdE, Vest by auto. unfold Z. now rewrite (px_image _ _ _ _ _ EFA), (px_image _ _ _ _ _ EFB). }
  (* the starting field *)
  set (c := md_w m * 2 / sqrt (md_I00 m)).
  assert (Sa : shape (fmap (Cmult (RtoC c)) Edh) (g_Neta (o_fend o)) (g_Nxi (o_fend o))) by (destruct SEdh; split; auto).
  assert (Sm : shape (fmap b2c M) (g_Neta (o_fend o)) (g_Nxi (o_fend o))) by (split; auto).
  destruct (bop_sq Cmult _ _ _ _ Sa Sm) as (Fst & EFst & SFst & VFst).
  destruct (oks_radj _ _ _ _ _ _ _ Fst (adj_all o w G Hw) SFst) as (D2 & ED2 & SD2). fold n in SD2.
  assert (SQ : shape (fmap Cconj (phasor w (o_surf2 o))) n n) by (destruct S2; split; auto).
  destruct (bop_sq Cmult _ D2 n n SQ SD2) as (E2 & EE2 & SE2 & VE2).
  destruct (surf_bar_spec w E2 (m_Edm2pre mid) n SE2 Spre) as (g2 & Eg2 & Sg2 & Dg2).
  destruct (oks_radj _ _ _ _ _ _ _ E2 (adj_p12 o w G Hw) SE2) as (E1 & EE1 & SE1). fold n in SE1, EE1.
  destruct (surf_bar_spec w E1 (m_Edm1post mid) n SE1 Spost) as (g1 & Eg1 & Sg1 & Dg1).
  exists (msum M (fun i j => abs2 (fpx Edh i j))), g1, g2. split; [|split; [auto|split; [auto|split]]].
  - unfold rev_mode. cbv zeta. fold w. rewrite Eest. cbn [rbind]. rewrite EA. cbn [rbind]. rewrite EFB. cbn [rbind fst snd]. rewrite EdE. cbn [rbind]. rewrite EEdh. cbn [rbind].
    unfold masked_energy. destruct SEdh as [X1 X2]. rewrite X1, X2, M1, M2, !Nat.eqb_refl. cbn [andb rbind]. unfold rev_start. fold c. rewrite EFst. cbn [rbind].
    unfold rev_all in ED2. destruct (rev_to_P4 o w Fst) as [p4|]; [|discriminate]. cbn [rbind] in ED2 |- *. destruct (rev_P4_to_P3 o w (RtoC 1) p4) as [p3|]; [|discriminate]. cbn [rbind] in ED2 |- *. rewrite ED2. cbn [rbind].
    unfold rev_surfaces. destruct (gr_use o G) as [_ ->]. cbn [surf_or_zero]. rewrite EE2. cbn [rbind]. rewrite Eg2. cbn [rbind]. destruct SE2 as [-> _]. rewrite EE1. cbn [rbind]. rewrite Eg1. cbn [rbind]. unfold msum. now rewrite M1, M2.
  - unfold msum. apply rsum2_ext. intros i j Hi Hj. destruct (fpx M i j) eqn:HM; [|reflexivity]. rewrite VZ by congruence. reflexivity.
  - intros d1 d2 Q1 Q2.
    set (I' := fun i j => Cmult (RtoC (/ sqrt (md_I00 m))) (px (fwd_all o w (UU' o w A (o_surf1 o) (o_surf2 o) d1 d2)) i j)).
    assert (DI : forall i j, (i < g_Neta (o_fend o))%nat -> (j < g_Nxi (o_fend o))%nat -> dC (fun t => image (moved o d1 d2 t) m i j) (I' i j)) by (intros i j Hi Hj; apply dC_image; auto).
    assert (M0 : forall i j, (i < g_Neta (o_fend o))%nat -> (j < g_Nxi (o_fend o))%nat -> image (moved o d1 d2 0) m i j = image o m i j).
    { intros i j Hi Hj. unfold moved. rewrite IM by auto using square_along. replace (image o m i j) with (image (with_surfs o (o_surf1 o) (o_surf2 o)) m i j) by (now rewrite with_self). rewrite IM by auto. f_equal.
      apply (adj_px_ext _ _ _ _ _ _ _ _ _ i j (adj_all o w G Hw)); auto; [split; reflexivity|split; reflexivity|]. intros k l Hk Hl. cbn. rewrite flatp_0. f_equal.
      apply (adj_px_ext _ _ _ _ _ _ _ _ _ k l (adj_p12 o w G Hw)); auto; [split; reflexivity|split; reflexivity|]. intros k' l' _ _. cbn. now rewrite flatp_0. }
    eapply is_derive_eq.
    + apply (is_derive_scal (fun t => msum M _) 0 (md_w m)). apply (dR_msum M (fun t i j => abs2 (Cplus (Z i j) (Cminus (image (moved o d1 d2 t) m i j) (image o m i j)))) (fun i j => 2 * fst (Cmult (Cconj (Z i j)) (I' i j)))).
      intros i j Hi Hj. rewrite M1 in Hi. rewrite M2 in Hj. eapply is_derive_eq; [apply dC_abs2; apply dC_plus; [apply dC_const|]; apply (dC_plus _ (fun _ => Copp (image o m i j))); [apply DI; auto|apply dC_const]|]. cbv beta. rewrite M0 by auto. unfold Cmult, Cconj, Cplus, Copp, RtoC; cbn. ring.
    + destruct (adj_all o w G Hw (UU' o w A (o_surf1 o) (o_surf2 o) d1 d2) Fst (conj eq_refl eq_refl) SFst) as (O & D2' & EO & SO & ED2' & _ & Q). rewrite ED2 in ED2'. injection ED2' as <-. fold n in Q.
      assert (L : md_w m * msum M (fun i j => 2 * fst (Cmult (Cconj (Z i j)) (I' i j))) = fst (inner (g_Neta (o_fend o)) (g_Nxi (o_fend o)) (fpx Fst) (fpx O))).
      { rewrite fst_inner. unfold msum. rewrite M1, M2, <- rsum2_scal. apply rsum2_ext. intros i j Hi Hj. rewrite VFst by auto. unfold I'. rewrite EO. cbn [px fmap fpx]. destruct (fpx M i j) eqn:HM; cbn [b2c].
        - rewrite VZ by auto. unfold c. unfold Cmult, Cconj, RtoC; cbn. field. apply Rgt_not_eq. now apply sqrt_lt_R0.
        - unfold Cmult, Cconj, RtoC; cbn. ring. }
      rewrite L, Q. clear L Q.
      replace (fst (Cmult (RtoC (-1)) (inner n n (fpx D2) (fpx (UU' o w A (o_surf1 o) (o_surf2 o) d1 d2))))) with (- fst (inner n n (fpx D2) (fpx (UU' o w A (o_surf1 o) (o_surf2 o) d1 d2)))) by (unfold Cmult, RtoC; cbn; ring).
      set (X1 := fun i j => px (ptp (PP' n w A (o_surf1 o) d1) (o_dx2 o * INR n) w (o_d12 o)) i j).
      set (X2 := fun i j => Cmult (fpx (m_Edm2pre mid) i j) (0, kk w * fpx d2 i j)).
      assert (Y : inner n n (fpx D2) (fpx (UU' o w A (o_surf1 o) (o_surf2 o) d1 d2)) = Cplus (inner n n (fpx E2) X1) (inner n n (fpx E2) X2)).
      { rewrite <- inner_plus_r.
        rewrite (inner_ext n n (fpx D2) (fpx D2) _ (fun i j => Cmult (Cplus (X1 i j) (X2 i j)) (flatp w (o_surf2 o) i j))).
        - rewrite inner_mul. apply inner_ext; [|auto]. intros i j Hi Hj. rewrite VE2 by auto. cbn. unfold flatp. ring.
        - auto.
        - intros i j Hi Hj. unfold X1, X2. rewrite Vpre by auto. cbn. fold n. ring. }
      destruct (adj_p12 o w G Hw (PP' n w A (o_surf1 o) d1) E2 (conj eq_refl eq_refl) SE2) as (O1 & E1' & EO1 & SO1 & EE1' & _ & Q). fold n in EO1, EE1', Q. rewrite EE1 in EE1'. injection EE1' as <-.
      assert (Y1 : inner n n (fpx E2) X1 = inner n n (fpx E1) (fun i j => Cmult (fpx (m_Edm1post mid) i j) (0, kk w * fpx d1 i j))).
      { unfold X1. rewrite EO1. cbn [px]. change (fun i j => fpx O1 i j) with (fpx O1). rewrite Q. replace (RtoC 1) with (RtoC 1) by reflexivity. rewrite Cmult_1_l. apply inner_ext; auto. intros i j Hi Hj. rewrite Vpost by auto. cbn. ring. }
      rewrite Y, Y1, Dg1, Dg2. cbn [fst Cplus]. fold X2. ring.
Qed.
