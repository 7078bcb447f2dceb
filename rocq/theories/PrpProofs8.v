(* Proof support: invariant and energy of prescriptions *)
From Coquelicot Require Import Coquelicot.
From Verif Require Import Base RBase CBase PropModel PropSpec PropProofs OptModel PrpModel PrpSpec PrpProofs PrpProofs2 PrpProofs3 PrpProofs4 PrpProofs5.
Open Scope R_scope.
Lemma begin_coherent diam lam n frac w : 0 < diam -> 0 < lam -> (1 <= n)%nat -> 0 < frac -> prop_begin diam lam n frac = Ok w -> coherent w.
Proof.
  intros D L N F E. pose proof (INRpos n N). unfold prop_begin in E. destruct (Req_EM_T lam 0); [discriminate|]. destruct (Req_EM_T (INR n * frac) 0); [discriminate|]. injection E as <-.
  assert (0 < PI * (diam / 2) ^ 2 / lam) by (apply Rdiv_lt_0_compat; auto; apply Rmult_lt_0_compat; [apply PI_RGT_0|apply pow_lt; lra]).
  constructor; cbn [w_n w_arr frows fcols w_lam w_dx w_w0 w_zray w_zw0 w_z w_inside w_planar]; auto; try lra.
  - apply Rdiv_lt_0_compat; auto. now apply Rmult_lt_0_compat.
  - replace (0 - 0) with 0 by ring. rewrite Rabs_R0. tauto.
Qed.
Lemma lens_unsafe w f : f <> 0 -> ~ lens_safe w f -> prop_lens w f = Raise ZeroDivisionError.
Proof.
  intros Hf Ns. unfold prop_lens. destruct (Req_EM_T f 0); auto. unfold lens_phase, lens_safe in *. destruct (w_inside w); [exfalso; apply Ns; discriminate|]. destruct (w_planar w); [|exfalso; apply Ns; discriminate].
  destruct (lens_inside w f); [|exfalso; apply Ns; auto]. cbn [orb]. destruct (Req_EM_T 0 0); [reflexivity|lra].
Qed.
Lemma safe_dec w f : {lens_safe w f} + {~ lens_safe w f}.
Proof. unfold lens_safe. destruct (w_inside w); [left; discriminate|]. destruct (w_planar w); [|left; discriminate]. destruct (lens_inside w f); [right|left]; auto. intros H. specialize (H eq_refl eq_refl). discriminate. Qed.
Lemma lens_ok_safe w f w' : prop_lens w f = Ok w' -> f <> 0 /\ lens_safe w f.
Proof.
  intros E. assert (Hf : f <> 0). { intros ->. unfold prop_lens in E. destruct (Req_EM_T 0 0); [discriminate|lra]. }
  split; auto. destruct (safe_dec w f); auto. rewrite lens_unsafe in E by auto. discriminate.
Qed.
Lemma set_arr_coherent w E : coherent w -> sq (w_n w) E -> coherent (set_arr w E).
Proof. intros [N R1 C1 L D W Z I P] [A B]. constructor; auto. Qed.
Lemma imul_shape A B P : imul A B = Ok P -> frows P = frows A /\ fcols P = fcols A.
Proof.
  unfold imul. destruct (bop Cmult A B) as [Q|]; [|discriminate]. cbn [rbind]. destruct (Nat.eqb (frows Q) (frows A) && Nat.eqb (fcols Q) (fcols A)) eqn:E; [|discriminate]. intros H. injection H as <-.
  apply andb_true_iff in E as [E1 E2]. apply Nat.eqb_eq in E1, E2. auto.
Qed.
Lemma built_coherent po w : built po w -> coherent w.
Proof.
  induction 1 as [diam lam n frac w D L N F E|w d tp w' _ IH K E|w f w' _ IH E|w p w' _ IH E|w v w' _ IH E].
  - exact (begin_coherent diam lam n frac w D L N F E).
  - exact (propagate_coherent po w d tp w' IH K E).
  - apply lens_ok_safe in E as S. destruct S as [Hf Sf]. exact (lens_coherent w f w' IH Hf Sf E).
  - unfold prop_add_phase in E. cbv zeta in E. destruct (imul _ _) as [P|] eqn:M; [|discriminate]. injection E as <-. apply imul_shape in M as [A B]. apply set_arr_coherent; auto. destruct IH; split; congruence.
  - unfold prop_multiply in E. destruct (imul _ _) as [P|] eqn:M; [|discriminate]. injection E as <-. apply imul_shape in M as [A B]. apply set_arr_coherent; auto. destruct IH; split; congruence.
Qed.
(* energy of A *= B *)
Lemma imul_px A B P i j : imul A B = Ok P -> (i < frows A)%nat -> (j < fcols A)%nat -> exists p q, (p < frows B)%nat /\ (q < fcols B)%nat /\ fpx P i j = Cmult (fpx A i j) (fpx B p q).
Proof.
  intros E Hi Hj. pose proof (imul_shape _ _ _ E) as [X Y]. unfold imul in E. destruct (bop Cmult A B) as [Q|] eqn:M; [|discriminate]. cbn [rbind] in E. destruct (Nat.eqb _ _ && Nat.eqb _ _); [|discriminate]. injection E as ->.
  unfold bop in M. destruct (bdim (frows A) (frows B)) as [r|] eqn:R1; [|discriminate]. destruct (bdim (fcols A) (fcols B)) as [c|] eqn:C1; [|discriminate]. injection M as <-. cbn [frows fcols fpx] in *. subst r c.
  exists (bix (frows B) i), (bix (fcols B) j). rewrite (bix_in (frows A) i), (bix_in (fcols A) j) by auto.
  assert (KEY : forall a b k, bdim a b = Some a -> (k < a)%nat -> (bix b k < b)%nat).
  { intros a b k H Hk. unfold bdim in H. unfold bix. destruct (Nat.eqb_spec a b); [subst; destruct (Nat.eqb_spec b 1); lia|]. destruct (Nat.eqb_spec a 1).
    - injection H as H. subst. destruct (Nat.eqb_spec 1 1); lia.
    - destruct (Nat.eqb_spec b 1); [subst; lia|discriminate]. }
  split; [eapply KEY; eauto|]. split; [eapply KEY; eauto|]. reflexivity.
Qed.
Lemma rsum_le' n f g : (forall k, (k < n)%nat -> f k <= g k) -> rsum n f <= rsum n g.
Proof. induction n as [|n IH]; intros H; cbn; [lra|]. apply Rplus_le_compat; auto. Qed.
Lemma imul_energy_le A B P : imul A B = Ok P -> (forall p q, (p < frows B)%nat -> (q < fcols B)%nat -> abs2 (fpx B p q) <= 1) -> fenergy P <= fenergy A.
Proof.
  intros E H. pose proof (imul_shape _ _ _ E) as [X Y]. unfold fenergy, energy. rewrite X, Y. apply rsum_le'. intros i Hi. apply rsum_le'. intros j Hj.
  destruct (imul_px _ _ _ i j E Hi Hj) as (p & q & Hp & Hq & ->). rewrite abs2_mult. specialize (H p q Hp Hq). assert (0 <= abs2 (fpx A i j)) by (unfold abs2; nra). nra.
Qed.
Lemma imul_energy_eq A B P : imul A B = Ok P -> (forall p q, (p < frows B)%nat -> (q < fcols B)%nat -> abs2 (fpx B p q) = 1) -> fenergy P = fenergy A.
Proof.
  intros E H. pose proof (imul_shape _ _ _ E) as [X Y]. unfold fenergy, energy. rewrite X, Y. apply rsum_ext. intros i Hi. apply rsum_ext. intros j Hj.
  destruct (imul_px _ _ _ i j E Hi Hj) as (p & q & Hp & Hq & ->). rewrite abs2_mult, H by auto. ring.
Qed.
Lemma sized_arr w E : sized w -> sq (w_n w) E -> sized (set_arr w E). Proof. intros (N & S & L) H. split; auto. Qed.
Lemma add_phase_energy w p w' : sized w -> prop_add_phase w p = Ok w' -> fenergy (w_arr w') = fenergy (w_arr w) /\ sized w'.
Proof.
  intros S E. unfold prop_add_phase in E. cbv zeta in E. destruct (imul _ _) as [P|] eqn:M; [|discriminate]. injection E as <-. pose proof (imul_shape _ _ _ M) as [X Y]. split.
  - apply (imul_energy_eq _ _ _ M). intros. cbn. apply abs2_cis.
  - apply sized_arr; auto. destruct S as (_ & [A B] & _). split; congruence.
Qed.
Lemma lens_energy w f w' : sized w -> prop_lens w f = Ok w' -> fenergy (w_arr w') = fenergy (w_arr w) /\ sized w'.
Proof.
  intros S E. unfold prop_lens in E. destruct (Req_EM_T f 0); [discriminate|]. destruct (lens_phase w f); [|discriminate]. cbn [rbind] in E. cbv zeta in E. apply add_phase_energy in E; auto.
Qed.
Lemma roll_shift_px {A} (v : field A) p q : (p < frows v)%nat -> (q < fcols v)%nat -> exists i j, (i < frows v)%nat /\ (j < fcols v)%nat /\ fpx (shift_center v) p q = fpx v i j.
Proof. intros. exists (roll_ix (frows v) (half (frows v)) p), (roll_ix (fcols v) (half (fcols v)) q). split; [apply roll_lt; lia|]. split; [apply roll_lt; lia|]. reflexivity. Qed.
Lemma call_energy po w c w' : sized w -> do_call po w c = Ok w' -> sized w' /\ (lossless c -> fenergy (w_arr w') = fenergy (w_arr w)) /\ (passive c -> fenergy (w_arr w') <= fenergy (w_arr w)).
Proof.
  intros S. destruct c as [f|d tp|p|v]; cbn [do_call lossless passive]; intros E.
  - destruct (lens_energy _ _ _ S E) as [A B]. rewrite A. split; [exact B|split; intros; lra].
  - destruct (propagate_energy _ _ _ _ _ S E) as [A B]. rewrite A. split; [exact B|split; intros; lra].
  - destruct (add_phase_energy _ _ _ S E) as [A B]. rewrite A. split; [exact B|split; intros; lra].
  - unfold prop_multiply in E. destruct (imul _ _) as [P|] eqn:M; [|discriminate]. injection E as <-. pose proof (imul_shape _ _ _ M) as [X Y]. cbn [w_arr set_arr]. split; [apply sized_arr; auto; destruct S as (_ & [A B] & _); split; congruence|]. split; intros H.
    + apply (imul_energy_eq _ _ _ M). intros p q Hp Hq. destruct (roll_shift_px v p q Hp Hq) as (i & j & Hi & Hj & ->). now apply H.
    + apply (imul_energy_le _ _ _ M). intros p q Hp Hq. destruct (roll_shift_px v p q Hp Hq) as (i & j & Hi & Hj & ->). now apply H.
Qed.
Lemma run_energy po l : forall w w', sized w -> run po w l = Ok w' -> sized w' /\ (Forall lossless l -> fenergy (w_arr w') = fenergy (w_arr w)) /\ (Forall passive l -> fenergy (w_arr w') <= fenergy (w_arr w)).
Proof.
  induction l as [|c l IH]; intros w w' S E; cbn [run] in E.
  - injection E as <-. split; auto. split; intros; lra.
  - destruct (do_call po w c) as [v|] eqn:V; [|discriminate]. cbn [rbind] in E. destruct (call_energy _ _ _ _ S V) as (S1 & A & B). destruct (IH _ _ S1 E) as (S2 & A' & B'). split; auto. split; intros H; inversion H; subst.
    + rewrite A', A; auto.
    + apply Rle_trans with (1 := B' H3). auto.
Qed.
Lemma end_total w : sized w -> exists I, prop_end w false = Ok (I, w_dx w) /\ total I = fenergy (w_arr w).
Proof.
  intros (N & S & L). eexists. split; [reflexivity|]. unfold total, fenergy, energy, shift_center, roll2. cbn [frows fcols fpx].
  rewrite (rsum_roll (frows (w_arr w)) (half (frows (w_arr w))) (fun i => rsum (fcols (w_arr w)) (fun j => abs2 (fpx (w_arr w) i (roll_ix (fcols (w_arr w)) (half (fcols (w_arr w))) j))))).
  apply rsum_ext. intros i _. apply (rsum_roll (fcols (w_arr w)) (half (fcols (w_arr w))) (fun j => abs2 (fpx (w_arr w) i j))).
Qed.
Lemma entrance_energy w : sized w -> 0 < fenergy (w_arr w) -> sized (prop_define_entrance w) /\ fenergy (w_arr (prop_define_entrance w)) = 1.
Proof.
  intros S P. split; [apply sized_arr; auto; destruct S as (_ & [A B] & _); split; auto|]. unfold prop_define_entrance. cbn [w_arr set_arr]. change (total_intensity (w_arr w)) with (fenergy (w_arr w)). set (e := fenergy (w_arr w)) in *.
  unfold fenergy, energy, scal, fmap. cbn [frows fcols fpx]. rewrite (rsum_ext _ _ (fun i => / e * rsum (fcols (w_arr w)) (fun j => abs2 (fpx (w_arr w) i j)))).
  - rewrite rsum_scal. change (/ e * e = 1). field. lra.
  - intros i _. rewrite <- rsum_scal. apply rsum_ext. intros j _. rewrite abs2_mult, abs2_RtoC. f_equal. rewrite <- Rinv_mult, sqrt_sqrt by lra. reflexivity.
Qed.
