From Verif Require Import Base RBase StrBase UtilModel CBase PropModel PropSpec PropProofs PropProofs2 OptModel OptSpec LinBase OptProofs.
Open Scope R_scope.

Lemma req_refl {A} (x : res (field A)) : req_field x x.
Proof. destruct x; cbn; [apply feq_refl|reflexivity]. Qed.
Lemma req_sym {A} (x y : res (field A)) : req_field x y -> req_field y x.
Proof. destruct x, y; cbn; try tauto; [apply feq_sym|auto]. Qed.
Lemma req_trans {A} (x y z : res (field A)) : req_field x y -> req_field y z -> req_field x z.
Proof. destruct x, y, z; cbn; try tauto; [apply feq_trans|congruence]. Qed.
(* equality up to entries inside the array, with a known square shape *)
Definition reqn (n : nat) (x y : res (field C)) : Prop :=
  match x, y with Ok a, Ok b => shape a n n /\ feq a b | Raise e, Raise e' => e = e' | _, _ => False end.
Lemma reqn_req n x y : reqn n x y -> req_field x y.
Proof. destruct x, y; cbn; tauto. Qed.
Lemma req_bind x y f g : req_field x y -> (forall a b, feq a b -> req_field (f a) (g b)) -> req_field (rbind x f) (rbind (A := field C) (B := field C) y g).
Proof. intros H G. destruct x, y; cbn in *; try tauto; auto. Qed.
Lemma req_bind_lin x y f : req_field x y -> lin f -> req_field (rbind x f) (rbind y f).
Proof. intros H L. apply req_bind; auto. intros. now apply lin_feq. Qed.
Lemma reqn_bind n m x y f g : reqn n x y -> (forall a b, shape a n n -> feq a b -> reqn m (f a) (g b)) -> reqn m (rbind x f) (rbind y g).
Proof. intros H G. destruct x, y; cbn in *; try tauto; auto. apply G; tauto. Qed.
Lemma reqn_bind_req n x y f g : reqn n x y -> (forall a b, shape a n n -> feq a b -> req_field (f a) (g b)) -> req_field (rbind x f) (rbind (A := field C) (B := field C) y g).
Proof. intros H G. destruct x, y; cbn in *; try tauto; auto. apply G; tauto. Qed.
Lemma shape_feq a b n m : shape a n m -> feq a b -> shape b n m.
Proof. intros [H1 H2] (H3 & H4 & _). split; congruence. Qed.

(* scaling *)
Definition rscal (c : C) (x : res (field C)) : res (field C) := do a <- x; Ok (scal c a).
Lemma lin_rscal op c E : lin op -> req_field (op (scal c E)) (rscal c (op E)).
Proof.
  intros H. destruct (H (frows E) (fcols E)) as [[e He]|(r' & c' & K & HK)].
  - rewrite !He; cbn; auto; split; reflexivity.
  - destruct (HK E) as (O & EO & [O1 O2] & V); [split; reflexivity|]. destruct (HK (scal c E)) as (P & EP & [P1 P2] & W); [split; reflexivity|]. rewrite EO, EP. cbn.
    split; [cbn; congruence|]. split; [cbn; congruence|]. intros i j Hi Hj. cbn. rewrite V, W by congruence. unfold apply_kernel. cbn. rewrite <- csum_scal. apply csum_ext. intros a _. rewrite <- csum_scal. apply csum_ext. intros b _. ring.
Qed.
Lemma rscal_req c x y : req_field x y -> req_field (rscal c x) (rscal c y).
Proof. destruct x, y; cbn; try tauto. intros (H1 & H2 & H3). split; [auto|]. split; [auto|]. cbn. intros. now rewrite H3. Qed.
Lemma rscal_rscal c d x : req_field (rscal c (rscal d x)) (rscal (Cmult c d) x).
Proof. destruct x as [E|e]; cbn; auto. split; [auto|]. split; [auto|]. cbn. intros. ring. Qed.
Lemma rscal_bind c x y op : lin op -> req_field y (rscal c x) -> req_field (rbind y op) (rscal c (rbind x op)).
Proof.
  intros L H. destruct x as [E|e], y as [F|e']; cbn in *; try tauto. eapply req_trans; [apply (lin_feq op _ _ L H)|]. now apply lin_rscal.
Qed.
(* pipeline step whose own operator is scaled *)
Lemma rscal_bind2 c d x y op op' : lin op -> (forall E, req_field (op' E) (rscal d (op E))) -> req_field y (rscal c x) -> lin op' -> req_field (rbind y op') (rscal (Cmult d c) (rbind x op)).
Proof.
  intros L H1 H L'. destruct x as [E|e], y as [F|e']; cbn in *; try tauto. eapply req_trans; [apply (lin_feq op' _ _ L' H)|].
  eapply req_trans; [apply H1|]. eapply req_trans; [apply rscal_req, (lin_rscal op c E L)|]. apply rscal_rscal.
Qed.
Lemma bop_phasor_piston E w p s : req_field (bop Cmult E (phasor w (piston p s))) (rscal (cis (2 * 2 * PI * p / w)) (bop Cmult E (phasor w s))).
Proof.
  unfold bop, phasor, piston. cbn [frows fcols fmap]. destruct (bdim (frows E) (frows s)); [|reflexivity]. destruct (bdim (fcols E) (fcols s)); [|reflexivity].
  cbn. split; [reflexivity|]. split; [reflexivity|]. intros i j Hi Hj. cbn.
  replace (2 * 2 * PI * (fpx s (bix (frows s) i) (bix (fcols s) j) + p) / w) with (2 * 2 * PI * p / w + 2 * 2 * PI * fpx s (bix (frows s) i) (bix (fcols s) j) / w) by (unfold Rdiv; ring).
  rewrite cis_add. ring.
Qed.
Definition eff (use : bool) (p : R) : R := if use then p else 0.
Lemma rscal_1 x c : c = RtoC 1 -> req_field x (rscal c x).
Proof. intros ->. destruct x as [E|e]; cbn; auto. split; [auto|]. split; [auto|]. cbn. intros. ring. Qed.
Lemma bop_dm_piston E w p use n s : req_field (bop Cmult E (phasor w (surf_or_zero use n (piston p s)))) (rscal (cis (2 * 2 * PI * eff use p / w)) (bop Cmult E (phasor w (surf_or_zero use n s)))).
Proof.
  destruct use; cbn [surf_or_zero eff]; [apply bop_phasor_piston|]. apply rscal_1. replace (2 * 2 * PI * 0 / w) with 0 by (unfold Rdiv; ring). apply cis_0.
Qed.
Lemma imul_scal E M M' c : feq M' (scal c M) -> req_field (imul E M') (rscal c (imul E M)).
Proof.
  intros (H1 & H2 & H3). cbn [scal fmap frows fcols] in H1, H2. unfold imul, bop. rewrite H1, H2. destruct (bdim (frows E) (frows M)) as [r|] eqn:Br; [|reflexivity]. destruct (bdim (fcols E) (fcols M)) as [k|] eqn:Bc; [|reflexivity].
  cbn [rbind frows fcols]. destruct (Nat.eqb r (frows E) && Nat.eqb k (fcols E)); [|reflexivity]. cbn. split; [reflexivity|]. split; [reflexivity|]. intros i j Hi Hj. cbn in *.
  destruct (bdim_ix _ _ _ _ Br Hi), (bdim_ix _ _ _ _ Bc Hj). rewrite H3 by (cbn; congruence). cbn. ring.
Qed.
Ltac sync := repeat (match goal with |- req_field (rbind ?x _) (rscal _ (rbind ?x _)) => destruct x as [?|?]; cbn [rbind rscal]; [|reflexivity] end).
Definition full_tail o w E := do EP2eff <- (if Req_EM_T (o_d1 o + o_d12 o) 0 then Ok E else ptp E (o_dx2 o * INR (o_pad o)) w (-1 * (o_d12 o + o_d1 o)));
  do EP3 <- relay EP2eff (nrel o (o_n23 o)) (o_cen o); match o_apod o with None => Ok EP3 | Some (m, na) => do p <- pad_cropf EP3 na na; bop Cmult m p end.
Lemma lin_full_tail o w : lin (full_tail o w).
Proof. unfold full_tail. apply lin_bind; [destruct (Req_EM_T (o_d1 o + o_d12 o) 0); lstep|]. apply lin_bind; lstep. Qed.
Lemma full_P3_piston o w E p1 p2 : req_field (full_to_P3 (with_surfs o (piston p1 (o_surf1 o)) (piston p2 (o_surf2 o))) w E)
  (rscal (cis (2 * 2 * PI * (eff (o_use1 o) p1 + eff (o_use2 o) p2) / w)) (full_to_P3 o w E)).
Proof.
  unfold full_to_P3. cbn [with_surfs o_pad o_rot o_n12 o_n23 o_n34 o_nend o_cen o_d1 o_d12 o_fl o_lambda0 o_dx2 o_use1 o_use2 o_surf1 o_surf2 o_pupil o_stop1 o_stop2 o_wfe o_apod nrel].
  change (nrel (with_surfs o (piston p1 (o_surf1 o)) (piston p2 (o_surf2 o)))) with (nrel o).
  sync. destruct (o_wfe o); [reflexivity|]. sync. rename f1 into st2.
  match goal with |- req_field (rbind ?y1 (fun a => rbind (ptp a ?fw ?w ?z) ?k')) _ => set (K' := k') end.
  match goal with |- req_field _ (rscal _ (rbind ?y1 (fun a => rbind (ptp a ?fw ?w ?z) ?k'))) => set (K := k') end.
  assert (LK : lin K) by (unfold K; apply lin_const_bind; intros b1; apply lin_const_bind; intros b2; apply lin_bind; [lstep|apply (lin_full_tail o w)]).
  assert (LK' : lin K') by (unfold K'; apply lin_const_bind; intros b1; apply lin_const_bind; intros b2; apply lin_bind; [lstep|apply (lin_full_tail o w)]).
  replace (2 * 2 * PI * (eff (o_use1 o) p1 + eff (o_use2 o) p2) / w) with (2 * 2 * PI * eff (o_use2 o) p2 / w + 2 * 2 * PI * eff (o_use1 o) p1 / w) by (unfold Rdiv; ring).
  rewrite cis_add. eapply rscal_bind2; [apply lin_bind; [lstep|exact LK]| |apply bop_dm_piston|apply lin_bind; [lstep|exact LK']].
  intros F. destruct (ptp F _ w (o_d12 o)) as [G|e]; cbn [rbind rscal]; [|reflexivity]. unfold K, K'. sync.
  match goal with |- context [bop Cmult ?a (phasor w (surf_or_zero _ _ (piston p2 _)))] => pose proof (bop_dm_piston a w p2 (o_use2 o) (o_pad o) (o_surf2 o)) as HB end.
  destruct (bop Cmult _ (phasor w (surf_or_zero _ _ (piston p2 _)))) as [B'|], (bop Cmult _ (phasor w (surf_or_zero _ _ (o_surf2 o)))) as [B|]; cbn [rbind rscal] in *; try (now destruct HB).
  apply rscal_bind; [apply (lin_full_tail o w)|]. now apply imul_scal.
Qed.
Lemma full_piston o w nf sc E p1 p2 : req_field (full_Fourier (with_surfs o (piston p1 (o_surf1 o)) (piston p2 (o_surf2 o))) w nf sc E)
  (rscal (cis (2 * 2 * PI * (eff (o_use1 o) p1 + eff (o_use2 o) p2) / w)) (full_Fourier o w nf sc E)).
Proof.
  unfold full_Fourier. change (fpm_scale (with_surfs o (piston p1 (o_surf1 o)) (piston p2 (o_surf2 o))) w sc) with (fpm_scale o w sc). sync.
  match goal with |- req_field (rbind _ ?k) _ => set (K := k) end. change (req_field (rbind (full_to_P3 (with_surfs o (piston p1 (o_surf1 o)) (piston p2 (o_surf2 o))) w E) K)
    (rscal (cis (2 * 2 * PI * (eff (o_use1 o) p1 + eff (o_use2 o) p2) / w)) (rbind (full_to_P3 o w E) K))).
  apply rscal_bind; [|apply full_P3_piston].
  unfold K. clear K. apply (lin_full_from o w nf r).
Qed.
Lemma compact_P3_piston o w E p1 p2 : req_field (compact_EP3 (with_surfs o (piston p1 (o_surf1 o)) (piston p2 (o_surf2 o))) w E)
  (rscal (cis (2 * 2 * PI * (eff (o_use1 o) p1 + eff (o_use2 o) p2) / w)) (compact_EP3 o w E)).
Proof.
  rewrite !compact_EP3_eq. unfold compact_flat. cbn [with_surfs o_pad o_rot o_n12 o_n23 o_n34 o_nend o_cen o_d1 o_d12 o_fl o_lambda0 o_dx2 o_use1 o_use2 o_surf1 o_surf2 o_pupil o_stop1 o_stop2 o_wfe o_apod].
  change (nrel (with_surfs o (piston p1 (o_surf1 o)) (piston p2 (o_surf2 o)))) with (nrel o).
  sync. destruct (_ && _); [reflexivity|]. sync. rename f2 into st2.
  replace (2 * 2 * PI * (eff (o_use1 o) p1 + eff (o_use2 o) p2) / w) with (2 * 2 * PI * eff (o_use2 o) p2 / w + 2 * 2 * PI * eff (o_use1 o) p1 / w) by (unfold Rdiv; ring).
  rewrite cis_add. eapply rscal_bind2; [apply lin_compact_DM2| |apply bop_dm_piston|apply lin_compact_DM2].
  intros F. unfold compact_DM2. cbn [with_surfs o_pad o_d12 o_dx2 o_use2 o_surf2]. sync.
  change (compact_tail (with_surfs o (piston p1 (o_surf1 o)) (piston p2 (o_surf2 o))) w) with (compact_tail o w).
  apply rscal_bind; [apply lin_compact_tail|]. apply bop_dm_piston.
Qed.
Lemma compact_piston o w nf ev sc fpm E p1 p2 : lin (o_downsample o) -> req_field (compact_field (with_surfs o (piston p1 (o_surf1 o)) (piston p2 (o_surf2 o))) w nf ev sc fpm E)
  (rscal (cis (2 * 2 * PI * (eff (o_use1 o) p1 + eff (o_use2 o) p2) / w)) (compact_field o w nf ev sc fpm E)).
Proof.
  intros HD. rewrite !compact_field_eq. change (compact_trans (with_surfs o (piston p1 (o_surf1 o)) (piston p2 (o_surf2 o)))) with (compact_trans o).
  change (fpm_scale (with_surfs o (piston p1 (o_surf1 o)) (piston p2 (o_surf2 o))) w sc) with (fpm_scale o w sc). sync.
  apply rscal_bind; [now apply (lin_compact_from o)|apply compact_P3_piston].
Qed.
