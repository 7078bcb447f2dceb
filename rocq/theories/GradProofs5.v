(* The gradient of one mode, continued. *)
From Coquelicot Require Import Coquelicot.
From Verif Require Import Base RBase StrBase UtilModel CBase PropModel PropSpec PropProofs PropProofs2 OptModel OptSpec LinBase OptProofs OptProofs2 OptProofs3 OptProofs4 OptProofs7 GradModel GradSpec GradAdj GradAdj2 GradProofs GradProofs2 GradProofs3 GradProofs4.
Open Scope R_scope.

Lemma adj_px_ext s f rf n m n' m' E E' k l : adj s f rf n m n' m' -> shape E n m -> shape E' n m -> (forall i j, (i < n)%nat -> (j < m)%nat -> fpx E i j = fpx E' i j) -> (k < n')%nat -> (l < m')%nat -> px (f E) k l = px (f E') k l.
Proof. intros H S S' V Hk Hl. destruct (adj_px _ _ _ _ _ _ _ _ _ H Hk Hl) as (RG & Q). rewrite !Q by auto. f_equal. apply inner_ext; auto. Qed.
Definition PP (n : nat) (w : R) (A : field C) (s1 : field R) : field C := mkf n n (fun i j => Cmult (fpx A i j) (flatp w s1 i j)).
Definition UU (o : optics) (w : R) (A : field C) (s1 s2 : field R) : field C := let n := o_pad o in mkf n n (fun i j => Cmult (px (ptp (PP n w A s1) (o_dx2 o * INR n) w (o_d12 o)) i j) (flatp w s2 i j)).
Definition kk (w : R) : R := 2 * 2 * PI / w.
Definition PP' (n : nat) (w : R) (A : field C) (s1 d1 : field R) : field C := mkf n n (fun i j => Cmult (fpx A i j) (Cmult (0, kk w * fpx d1 i j) (flatp w s1 i j))).
Definition UU' (o : optics) (w : R) (A : field C) (s1 s2 d1 d2 : field R) : field C := let n := o_pad o in
  mkf n n (fun i j => Cplus (Cmult (px (ptp (PP' n w A s1 d1) (o_dx2 o * INR n) w (o_d12 o)) i j) (flatp w s2 i j)) (Cmult (px (ptp (PP n w A s1) (o_dx2 o * INR n) w (o_d12 o)) i j) (Cmult (0, kk w * fpx d2 i j) (flatp w s2 i j)))).
Lemma flatp_0 w s d i j : flatp w (along s d 0) i j = flatp w s i j.
Proof. unfold flatp, along; cbn. f_equal. f_equal. ring. Qed.
Lemma dC_flatp w s d i j : 0 < w -> dC (fun t => flatp w (along s d t) i j) (Cmult (0, kk w * fpx d i j) (flatp w s i j)).
Proof.
  intros Hw. apply (dC_ext (fun t => cis (2 * 2 * PI * fpx s i j / w + t * (kk w * fpx d i j)))); [|apply dC_cis]. intros t. unfold flatp, along, kk; cbn. f_equal. field. lra.
Qed.
Lemma adj_p12 o w : gradient_ready o -> 0 < w -> adj 1 (fun E => ptp E (o_dx2 o * INR (o_pad o)) w (o_d12 o)) (fun E => ptp E (o_dx2 o * INR (o_pad o)) w (- o_d12 o)) (o_pad o) (o_pad o) (o_pad o) (o_pad o).
Proof. intros G Hw. pose proof (gr_wf o G) as W. apply adj_ptp; auto; [now apply fw_pos|apply W]. Qed.
Lemma dC_PP n w A s1 d1 i j : 0 < w -> dC (fun t => fpx (PP n w A (along s1 d1 t)) i j) (fpx (PP' n w A s1 d1) i j).
Proof. intros Hw. cbn. apply dC_scal. now apply dC_flatp. Qed.
Lemma dC_UU o w A s1 s2 d1 d2 i j : gradient_ready o -> 0 < w -> (i < o_pad o)%nat -> (j < o_pad o)%nat -> dC (fun t => fpx (UU o w A (along s1 d1 t) (along s2 d2 t)) i j) (fpx (UU' o w A s1 s2 d1 d2) i j).
Proof.
  intros G Hw Hi Hj. cbn. eapply dC_eq.
  - apply dC_mult; [|now apply dC_flatp].
    apply (adj_derive _ _ _ _ _ _ _ (fun t => PP (o_pad o) w A (along s1 d1 t)) (PP' (o_pad o) w A s1 d1) i j (adj_p12 o w G Hw)); auto; [intros; split; reflexivity|split; reflexivity|]. intros k l _ _. now apply dC_PP.
  - cbv beta. rewrite flatp_0. f_equal. f_equal.
    apply (adj_px_ext _ _ _ _ _ _ _ _ _ i j (adj_p12 o w G Hw)); auto; [split; reflexivity|split; reflexivity|]. intros k l _ _. cbn. now rewrite flatp_0.
Qed.
Lemma with_self o : with_surfs o (o_surf1 o) (o_surf2 o) = o. Proof. destruct o; reflexivity. Qed.
Lemma square_along n s d t : square n s -> square n (along s d t). Proof. intros [H1 H2]. split; auto. Qed.
Lemma ready_squares o : gradient_ready o -> square (o_pad o) (o_surf1 o) /\ square (o_pad o) (o_surf2 o).
Proof. intros G. destruct (wf_surf o (gr_wf o G)) as [H1 H2]. destruct (gr_use o G). split; [apply H1|apply H2]; auto. Qed.
(* all images of one mode in terms of one field in front of DM1 *)
Lemma images o m : gradient_ready o -> 0 < md_wvl m -> 0 < md_I00 m -> exists A, shape A (o_pad o) (o_pad o) /\ (forall s1 s2 i j, square (o_pad o) s1 -> square (o_pad o) s2 -> (i < g_Neta (o_fend o))%nat -> (j < g_Nxi (o_fend o))%nat ->
    image (with_surfs o s1 s2) m i j = Cmult (RtoC (/ sqrt (md_I00 m))) (px (fwd_all o (md_wvl m) (UU o (md_wvl m) A s1 s2)) i j)) /\
  (forall s1 s2, square (o_pad o) s1 -> square (o_pad o) s2 -> exists F mid, compact_general (with_surfs o s1 s2) (md_wvl m) (md_I00 m) false false true (md_Ein m) = Ok (F, mid) /\ shape F (g_Neta (o_fend o)) (g_Nxi (o_fend o)) /\
    shape (m_Edm1post mid) (o_pad o) (o_pad o) /\ shape (m_Edm2pre mid) (o_pad o) (o_pad o) /\
    (forall i j, (i < o_pad o)%nat -> (j < o_pad o)%nat -> fpx (m_Edm1post mid) i j = fpx (PP (o_pad o) (md_wvl m) A s1) i j) /\
    (forall i j, (i < o_pad o)%nat -> (j < o_pad o)%nat -> fpx (m_Edm2pre mid) i j = px (ptp (PP (o_pad o) (md_wvl m) A s1) (o_dx2 o * INR (o_pad o)) (md_wvl m) (o_d12 o)) i j)).
Proof.
  intros G Hw HI. set (w := md_wvl m) in *. set (nf := md_I00 m) in *. destruct (front o w (md_Ein m) G Hw) as (A & SA & H). exists A. split; auto.
  assert (HP : forall s1 post p12, shape post (o_pad o) (o_pad o) -> ptp post (o_dx2 o * INR (o_pad o)) w (o_d12 o) = Ok p12 -> (forall i j, (i < o_pad o)%nat -> (j < o_pad o)%nat -> fpx post i j = Cmult (fpx A i j) (flatp w s1 i j)) ->
    forall i j, (i < o_pad o)%nat -> (j < o_pad o)%nat -> fpx p12 i j = px (ptp (PP (o_pad o) w A s1) (o_dx2 o * INR (o_pad o)) w (o_d12 o)) i j).
  { intros s1 post p12 Sp Ep Vp i j Hi Hj. change (fpx p12 i j) with (px (Ok p12) i j). rewrite <- Ep. apply (adj_px_ext _ _ _ _ _ _ _ post _ i j (adj_p12 o w G Hw)); auto. split; reflexivity. }
  split.
  - intros s1 s2 i j Q1 Q2 Hi Hj. destruct (H s1 s2 Q1 Q2) as (post & p12 & pre & U & F & P3 & Sp & S12 & Spre & SU & SF & EC & E12 & EF & Vp & Vpre & VU).
    unfold image, compact_field. fold w nf. rewrite (EC nf HI). cbn [rbind fst]. unfold normalise. destruct (Req_EM_T nf 0) as [Z|_]; [lra|]. cbn [fpx fmap].
    rewrite (adj_px_ext _ _ _ _ _ _ _ (UU o w A s1 s2) U i j (adj_all o w G Hw)); auto.
    + rewrite EF. cbn [px]. unfold Cdiv. rewrite RtoC_inv by (apply Rgt_not_eq; apply sqrt_lt_R0; auto). ring.
    + split; reflexivity.
    + intros k l Hk Hl. rewrite VU by auto. cbn. f_equal. symmetry. now apply (HP s1 post).
  - intros s1 s2 Q1 Q2. destruct (H s1 s2 Q1 Q2) as (post & p12 & pre & U & F & P3 & Sp & S12 & Spre & SU & SF & EC & E12 & EF & Vp & Vpre & VU).
    exists (normalise nf F), (mkmid P3 post pre). split; [apply EC; auto|]. cbn [m_Edm1post m_Edm2pre]. split; [now apply normalise_shape|]. split; [auto|]. split; [auto|]. split; [intros; rewrite Vp by auto; reflexivity|].
    intros i j Hi Hj. rewrite Vpre by auto. now apply (HP s1 post).
Qed.
Lemma dC_image o m A d1 d2 i j : gradient_ready o -> 0 < md_wvl m -> square (o_pad o) d1 -> square (o_pad o) d2 -> (i < g_Neta (o_fend o))%nat -> (j < g_Nxi (o_fend o))%nat ->
  (forall s1 s2 i j, square (o_pad o) s1 -> square (o_pad o) s2 -> (i < g_Neta (o_fend o))%nat -> (j < g_Nxi (o_fend o))%nat ->
    image (with_surfs o s1 s2) m i j = Cmult (RtoC (/ sqrt (md_I00 m))) (px (fwd_all o (md_wvl m) (UU o (md_wvl m) A s1 s2)) i j)) ->
  dC (fun t => image (moved o d1 d2 t) m i j) (Cmult (RtoC (/ sqrt (md_I00 m))) (px (fwd_all o (md_wvl m) (UU' o (md_wvl m) A (o_surf1 o) (o_surf2 o) d1 d2)) i j)).
Proof.
  intros G Hw Q1 Q2 Hi Hj H. destruct (ready_squares o G) as [S1 S2].
  eapply dC_ext; [intros t; symmetry; unfold moved; apply H; auto using square_along|]. apply dC_scal.
  apply (adj_derive _ _ _ _ _ _ _ (fun t => UU o (md_wvl m) A (along (o_surf1 o) d1 t) (along (o_surf2 o) d2 t)) _ i j (adj_all o (md_wvl m) G Hw)); auto; [intros; split; reflexivity|split; reflexivity|]. intros k l Hk Hl. now apply dC_UU.
Qed.
