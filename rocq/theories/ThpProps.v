(* C91: throughput and off-axis image.  C92: image noise *)
From Verif Require Import StrBase Base RBase CtrlModel CBase PropModel PropSpec PropProofs LinBase OptModel OptSpec OptProofs OptProofs2 OptProps SrcModel SrcSpec SrcProofs SrcProps ThpModel ThpProofs.
Open Scope R_scope.
(* the compact model gives r x c fields E k si for star k and sub-band si of the scene *)
Definition gives (cmp : modvar -> bool -> res (field C)) (s : scene) (x y : R) (ev : bool) (E : nat -> nat -> field C) (r c : nat) : Prop :=
  (1 <= sc_stars s)%nat /\ (1 <= sc_nsbp s)%nat /\
  forall k si, (k < sc_stars s)%nat -> (si < sc_nsbp s)%nat -> cmp (off_var x y k si) ev = Ok (E k si) /\ frows (E k si) = r /\ fcols (E k si) = c.
(* weighted intensity at a pixel *)
Definition total_intensity (s : scene) (E : nat -> nat -> field C) (i j : nat) : R := rsum (sc_stars s) (fun k => rsum (sc_nsbp s) (fun si => sc_w s si * abs2 (fpx (E k si) i j))).
Theorem C91_image cmp s x y ev E r c : gives cmp s x y ev E r c -> exists A, offaxis_image cmp s x y ev = Ok (Some A) /\ frows A = r /\ fcols A = c /\ forall i j, fpx A i j = total_intensity s E i j.
Proof.
  intros (H1 & H2 & H3). destruct (off_ok cmp s x y ev E r c H1 H2 H3) as (A & A1 & A2 & A3 & A4). exists A. repeat split; auto. intros i j. rewrite A4. unfold total_intensity.
  apply rsum_ext. intros k _. apply rsum_ext. intros si _. ring.
Qed.
(* moving the source is moving every star *)
Definition moved (x y : R) (st : star) : star := mkstar (st_xi st + x) (st_eta st + y) (st_w st).
Lemma np_get_map {A B} (f : A -> B) l i : np_get (map f l) i = do a <- np_get l i; Ok (f a).
Proof. unfold np_get. rewrite map_length. destruct (np_ix _ _); [|reflexivity]. rewrite nth_error_map. now destruct (nth_error l _). Qed.
Lemma intensity_feq w A B : feq A B -> frows A = frows B /\ fcols A = fcols B /\ forall i j, (i < frows A)%nat -> (j < fcols A)%nat -> fpx (intensity w A) i j = fpx (intensity w B) i j.
Proof. intros (F1 & F2 & F3). repeat split; auto. intros i j Hi Hj. unfold intensity. cbn [fpx]. now rewrite F3. Qed.
Lemma off_zero b x y k si : forall cd ev, compact_wrapper b cd (off_var x y k si) true ev true = compact_wrapper b cd (with_source (off_var x y k si) "offaxis" (Some x) (Some y)) true ev true.
Proof. reflexivity. Qed.
Definition same_image (a b : res (option (field R))) : Prop :=
  match a, b with Ok (Some A), Ok (Some B) => feq A B | Ok None, Ok None => True | Raise e, Raise e' => e = e' | _, _ => False end.
Lemma off_loop_same cmp cmp' w x y x' y' ev : forall l, (forall k si, In (k, si) l -> req_field (cmp (off_var x y k si) ev) (cmp' (off_var x' y' k si) ev)) ->
  forall acc acc', same_image (Ok acc) (Ok acc') -> same_image (off_loop cmp w x y ev l acc) (off_loop cmp' w x' y' ev l acc').
Proof.
  induction l as [|[k si] l IH]; intros H acc acc' S; [exact S|]. cbn [off_loop]. pose proof (H k si (or_introl eq_refl)) as Q. unfold req_field in Q.
  destruct (cmp _ ev) as [F|e], (cmp' _ ev) as [F'|e']; cbn [rbind]; try contradiction; [|exact Q].
  destruct Q as (Q1 & Q2 & Q3). unfold iadd. destruct acc as [B|], acc' as [B'|]; try contradiction.
  - destruct S as (S1 & S2 & S3). unfold intensity at 1 2 4 5. cbn [frows fcols]. rewrite <- Q1, <- Q2, <- S1, <- S2. destruct (Nat.eqb_spec (frows F) (frows B)) as [e1|]; cbn [andb rbind]; [|reflexivity]. destruct (Nat.eqb_spec (fcols F) (fcols B)) as [e2|]; cbn [andb rbind]; [|reflexivity].
    apply IH; [intros; apply H; now right|]. split; [reflexivity|]. split; [reflexivity|]. cbn [frows fcols fpx intensity]. intros i j Hi Hj. rewrite S3, Q3 by lia. reflexivity.
  - cbn [rbind]. apply IH; [intros; apply H; now right|]. split; [exact Q1|]. split; [exact Q2|]. cbn [frows fcols fpx intensity]. intros i j Hi Hj. now rewrite Q3 by lia.
Qed.
Theorem C91_offset_moves_stars b cd s x y x0 y0 ev r c : lin (o_downsample (b_o b)) -> compact_fields cd r c -> coords_fit b r c ->
  same_image (offaxis_image (compact_model b cd) s (x + x0) (y + y0) ev) (offaxis_image (compact_model (with_stars b (map (moved x y) (b_stars b))) cd) s x0 y0 ev).
Proof.
  intros L HE X. unfold offaxis_image. apply off_loop_same; [|exact Logic.I]. intros k si _. unfold compact_model.
  destruct (np_get (b_stars b) (Z.of_nat k)) as [st|e] eqn:G.
  - apply req_sym. eapply req_trans; [|apply (req_sym _ _ (rscal_1 _ (RtoC 1) eq_refl))].
    apply (compact_rel b (map (moved x y) (b_stars b)) cd (off_var (x + x0) (y + y0) k si) (off_var x0 y0 k si) true ev true r c (Z.of_nat k) st (moved x y st) (x + x0) (y + y0) x0 y0 1); auto; try reflexivity; try (cbn; ring).
    + repeat split.
    + exists "offaxis"%string. split; [reflexivity|]. left. repeat split.
    + rewrite np_get_map, G. reflexivity.
    + exists "offaxis"%string. split; [reflexivity|]. left. repeat split.
  - unfold compact_wrapper. cbn [off_var mv_sbp mv_wps mv_wvl mv_star mv_which mv_x mv_y mv_zern attr rbind with_stars b_stars]. rewrite np_get_map, G. cbn [rbind].
    destruct (np_get (if ev then _ else _) _); cbn [rbind req_field]; [|reflexivity]. destruct (np_get (cd_lam cd) _); cbn [rbind req_field]; reflexivity.
Qed.
(* more stars in the scene than the compact model has: no image *)
Theorem C91_missing_star b cd s x y ev A : (length (b_stars b) < sc_stars s)%nat -> (1 <= sc_nsbp s)%nat -> offaxis_image (compact_model b cd) s x y ev <> Ok A.
Proof.
  intros H1 H2. unfold offaxis_image. apply (off_loop_fails _ _ _ _ _ _ (length (b_stars b)) 0%nat).
  - apply in_prod_iff. split; apply in_seq; lia.
  - intros F. unfold compact_model, compact_wrapper. cbn [off_var mv_sbp mv_wps mv_wvl mv_star mv_which mv_x mv_y mv_zern attr rbind].
    destruct (np_get (if ev then _ else _) _); cbn [rbind]; [|discriminate]. destruct (np_get (cd_lam cd) _); cbn [rbind]; [|discriminate].
    unfold np_get, np_ix. destruct (Z.leb_spec 0 (Z.of_nat (length (b_stars b)))); [|lia]. destruct (Z.ltb_spec (Z.of_nat (length (b_stars b))) (Z.of_nat (length (b_stars b)))); [lia|]. cbn [andb].
    destruct (Z.leb_spec (- Z.of_nat (length (b_stars b))) (Z.of_nat (length (b_stars b)))); cbn [andb]; [|discriminate]. destruct (Z.ltb_spec (Z.of_nat (length (b_stars b))) 0); [lia|]. discriminate.
Qed.
(* ---- the two metrics ---- *)
Definition metric_is (t : thcfg) (l : list string) : Prop := In (lower (t_metric t)) l.
Lemma eqb_no a b : a <> b -> String.eqb a b = false. Proof. intros. now apply String.eqb_neq. Qed.
Lemma shape_ok (A B : field R) : frows A = frows B -> fcols A = fcols B -> same_shape A B = true.
Proof. intros H1 H2. unfold same_shape. now rewrite H1, H2, !Nat.eqb_refl. Qed.
(* half-maximum isophote: the energy of the pixels at least half as bright as the brightest one *)
Theorem C91_hmi cmp s t E r c : gives cmp s (t_x t) (t_y t) true E r c -> (1 <= r)%nat -> (1 <= c)%nat -> frows (t_rho t) = r -> fcols (t_rho t) = c -> metric_is t ["hmi"%string] ->
  exists A M, calc_thput cmp s t = Ok (rsum r (fun i => rsum c (fun j => if Rle_dec (M / 2) (total_intensity s E i j) then total_intensity s E i j else 0)) / t_pupil t * mean (t_I00 t), A) /\
    (forall i j, fpx A i j = total_intensity s E i j) /\ (exists i j, (i < r)%nat /\ (j < c)%nat /\ total_intensity s E i j = M) /\ forall i j, (i < r)%nat -> (j < c)%nat -> total_intensity s E i j <= M.
Proof.
  intros G Hr Hc R1 R2 [Em|[]]. destruct (C91_image _ _ _ _ _ _ _ _ G) as (A & A1 & A2 & A3 & A4). destruct (np_max_exists A) as (M & Hm); try lia. pose proof (proj1 (np_max_spec A M) Hm) as ((i0 & j0 & I1 & I2 & I3) & I4).
  exists A, M. unfold calc_thput. rewrite A1. cbn [rbind]. rewrite <- Em. cbn [String.eqb Ascii.eqb Bool.eqb]. rewrite Hm. cbn [rbind]. rewrite shape_ok by congruence. split; [|split; [exact A4|split]].
  - f_equal. f_equal. f_equal. f_equal. unfold masked_sum. rewrite A2, A3. apply rsum_ext. intros i Hi. apply rsum_ext. intros j Hj. rewrite A4. unfold leb.
    destruct (Rle_dec (1 / 2 * M) (total_intensity s E i j)), (Rle_dec (M / 2) (total_intensity s E i j)); try reflexivity; lra.
  - exists i0, j0. rewrite <- A4. repeat split; auto; lia.
  - intros i j Hi Hj. rewrite <- A4. apply I4; lia.
Qed.
(* encircled energy: the pixels within the radius of the optical axis, wherever the source is *)
Theorem C91_ee cmp s t E r c : gives cmp s (t_x t) (t_y t) true E r c -> frows (t_rho t) = r -> fcols (t_rho t) = c -> metric_is t ["ee"%string; "e.e."%string] ->
  exists A, calc_thput cmp s t = Ok (rsum r (fun i => rsum c (fun j => if Rle_dec (fpx (t_rho t) i j) (t_radius t) then total_intensity s E i j else 0)) / t_pupil t * mean (t_I00 t), A) /\
    forall i j, fpx A i j = total_intensity s E i j.
Proof.
  intros G R1 R2 Em. unfold metric_is in Em. destruct (C91_image _ _ _ _ _ _ _ _ G) as (A & A1 & A2 & A3 & A4). exists A. split; [|exact A4]. unfold calc_thput. rewrite A1. cbn [rbind].
  assert (E1 : String.eqb (lower (t_metric t)) "hmi" = false) by (apply eqb_no; intros Q; rewrite Q in Em; destruct Em as [Em|[Em|[]]]; discriminate).
  assert (E2 : (String.eqb (lower (t_metric t)) "ee" || String.eqb (lower (t_metric t)) "e.e.")%bool = true) by (destruct Em as [<-|[<-|[]]]; reflexivity).
  rewrite E1, E2, shape_ok by congruence. f_equal. f_equal. f_equal. f_equal. unfold masked_sum. rewrite A2, A3. apply rsum_ext. intros i Hi. apply rsum_ext. intros j Hj. rewrite A4. unfold leb. now destruct (Rle_dec (fpx (t_rho t) i j) (t_radius t)).
Qed.
Definition with_radius (t : thcfg) (q : R) : thcfg := mkth (t_metric t) q (t_x t) (t_y t) (t_rho t) (t_pupil t) (t_I00 t).
Definition physical (s : scene) (t : thcfg) : Prop := (forall si, (si < sc_nsbp s)%nat -> 0 <= sc_w s si) /\ 0 < t_pupil t /\ 0 <= mean (t_I00 t).
Lemma intensity_pos s E i j : (forall si, (si < sc_nsbp s)%nat -> 0 <= sc_w s si) -> 0 <= total_intensity s E i j.
Proof. intros W. apply rsum_nonneg. intros k _. apply rsum_nonneg. intros si Hs. apply Rmult_le_pos; [auto|apply abs2_pos]. Qed.
(* it never falls as the radius grows, and is all the light in the image once the radius reaches the corner *)
Theorem C91_ee_grows cmp s t E r c q q' : gives cmp s (t_x t) (t_y t) true E r c -> frows (t_rho t) = r -> fcols (t_rho t) = c -> metric_is t ["ee"%string; "e.e."%string] -> physical s t -> q <= q' ->
  exists v v' A A', calc_thput cmp s (with_radius t q) = Ok (v, A) /\ calc_thput cmp s (with_radius t q') = Ok (v', A') /\ 0 <= v <= v' /\ v' <= rsum r (fun i => rsum c (fun j => total_intensity s E i j)) / t_pupil t * mean (t_I00 t) /\
    ((forall i j, (i < r)%nat -> (j < c)%nat -> fpx (t_rho t) i j <= q') -> v' = rsum r (fun i => rsum c (fun j => total_intensity s E i j)) / t_pupil t * mean (t_I00 t)).
Proof.
  intros G R1 R2 Em (W & P & Q) L.
  destruct (C91_ee cmp s (with_radius t q) E r c G R1 R2 Em) as (A & A1 & _). destruct (C91_ee cmp s (with_radius t q') E r c G R1 R2 Em) as (A' & A1' & _).
  do 4 eexists. split; [exact A1|]. split; [exact A1'|]. cbn [with_radius t_rho t_radius t_pupil t_I00].
  pose proof (fun i j => intensity_pos s E i j W) as IP. pose proof (Rinv_0_lt_compat _ P) as P'. repeat split.
  - apply Rmult_le_pos; auto. apply Rmult_le_pos; [|lra]. apply rsum_nonneg. intros i _. apply rsum_nonneg. intros j _. destruct (Rle_dec _ _); [apply IP|lra].
  - apply Rmult_le_compat_r; auto. apply Rmult_le_compat_r; [lra|]. apply rsum_le. intros i _. apply rsum_le. intros j _. specialize (IP i j). destruct (Rle_dec _ q), (Rle_dec _ q'); lra.
  - apply Rmult_le_compat_r; auto. apply Rmult_le_compat_r; [lra|]. apply rsum_le. intros i _. apply rsum_le. intros j _. specialize (IP i j). destruct (Rle_dec _ q'); lra.
  - intros B. f_equal. f_equal. apply rsum_ext. intros i Hi. apply rsum_ext. intros j Hj. destruct (Rle_dec _ q'); [reflexivity|]. exfalso. auto.
Qed.
(* the half-maximum value lies between the brightest pixel and all the light *)
Theorem C91_hmi_bounds cmp s t E r c : gives cmp s (t_x t) (t_y t) true E r c -> (1 <= r)%nat -> (1 <= c)%nat -> frows (t_rho t) = r -> fcols (t_rho t) = c -> metric_is t ["hmi"%string] -> physical s t ->
  exists v A, calc_thput cmp s t = Ok (v, A) /\ v <= rsum r (fun i => rsum c (fun j => total_intensity s E i j)) / t_pupil t * mean (t_I00 t) /\
    forall i j, (i < r)%nat -> (j < c)%nat -> total_intensity s E i j / t_pupil t * mean (t_I00 t) <= v.
Proof.
  intros G Hr Hc R1 R2 Em (W & P & Q). destruct (C91_hmi cmp s t E r c G Hr Hc R1 R2 Em) as (A & M & A1 & _ & (i0 & j0 & I1 & I2 & I3) & I4). do 2 eexists. split; [exact A1|].
  pose proof (fun i j => intensity_pos s E i j W) as IP. pose proof (Rinv_0_lt_compat _ P) as P'. split.
  - apply Rmult_le_compat_r; auto. apply Rmult_le_compat_r; [lra|]. apply rsum_le. intros i _. apply rsum_le. intros j _. specialize (IP i j). destruct (Rle_dec _ _); lra.
  - intros i j Hi Hj. apply Rmult_le_compat_r; auto. apply Rmult_le_compat_r; [lra|]. apply (Rle_trans _ M); [auto|]. subst M.
    set (f := fun i j => if Rle_dec (total_intensity s E i0 j0 / 2) (total_intensity s E i j) then total_intensity s E i j else 0).
    assert (F : forall i j, 0 <= f i j) by (intros i' j'; unfold f; destruct (Rle_dec _ _); [apply IP|lra]).
    apply (Rle_trans _ (f i0 j0)); [unfold f; destruct (Rle_dec _ _) as [|N]; [lra|exfalso; apply N; pose proof (IP i0 j0); lra]|].
    apply (Rle_trans _ (rsum c (fun j => f i0 j))); [apply (rsum_ge1 c (fun j => f i0 j)); auto|]. apply (rsum_ge1 r (fun i => rsum c (fun j => f i j))); auto. intros. apply rsum_nonneg; auto.
Qed.
(* names: any case of hmi, ee, e.e.; everything else fails after the image has been computed *)
Theorem C91_metric_names cmp s t : ~ metric_is t ["hmi"; "ee"; "e.e."]%string -> forall v, calc_thput cmp s t <> Ok v.
Proof.
  intros N v. unfold calc_thput. destruct (offaxis_image cmp s _ _ _); cbn [rbind]; [|discriminate]. rewrite !eqb_no; [discriminate| | |]; intros Q; apply N; unfold metric_is; rewrite Q; cbn; auto.
Qed.
(* ---- normalisation ---- *)
Definition with_norm (cd : compactdata) (L : list R) : compactdata := mkcd (cd_I00 cd) L (cd_lam cd) (cd_E cd) (cd_cube cd) (cd_lut cd).
Lemma np_get_in {A} (l : list A) k : (k < length l)%nat -> forall d, np_get l (Z.of_nat k) = Ok (nth k l d).
Proof.
  intros H d. unfold np_get, np_ix. destruct (Z.leb_spec 0 (Z.of_nat k)); [|lia]. destruct (Z.ltb_spec (Z.of_nat k) (Z.of_nat (length l))); [|lia]. cbn [andb]. rewrite Nat2Z.id, (nth_error_nth' l d) by auto. reflexivity.
Qed.
(* the intensity of the normalised field is the unnormalised one over I00: G does not depend on the list of factors *)
Lemma normalised b cd x y k si : exists X : res (field C), forall L, (si < length L)%nat -> 0 < nth si L 0 ->
  compact_model b (with_norm cd L) (off_var x y k si) true = do G <- X; Ok (normalise (nth si L 0) G).
Proof.
  unfold compact_model, compact_wrapper. cbn [off_var mv_sbp mv_wps mv_wvl mv_star mv_which mv_x mv_y mv_zern attr rbind with_norm cd_I00 cd_I00eval cd_lam cd_E cd_cube cd_lut].
  destruct (np_get (cd_lam cd) (Z.of_nat si)) as [wvl|e]. 2: { exists (Raise e). intros L HL HP. now rewrite (np_get_in L si HL 0). }
  destruct (np_get (b_stars b) (Z.of_nat k)) as [st|e] eqn:Gs. 2: { exists (Raise e). intros L HL HP. rewrite (np_get_in L si HL 0). reflexivity. }
  destruct (np_get (cd_E cd) (Z.of_nat si)) as [E0|e]. 2: { exists (Raise e). intros L HL HP. rewrite (np_get_in L si HL 0). reflexivity. }
  assert (Sf : forall nf, 0 < nf -> source_field b (off_var x y k si) wvl nf E0 = source_field b (off_var x y k si) wvl 1 E0).
  { intros nf Hn. unfold source_field. destruct (Req_EM_T nf 0); [lra|]. destruct (Req_EM_T 1 0); [lra|]. reflexivity. }
  destruct (source_field b (off_var x y k si) wvl 1 E0) as [E1|e]. 2: { exists (Raise e). intros L HL HP. rewrite (np_get_in L si HL 0). cbn [rbind]. now rewrite (Sf _ HP). }
  destruct (zern_compact b 1 wvl E1) as [E2|e] eqn:Ez. 2: { exists (Raise e). intros L HL HP. rewrite (np_get_in L si HL 0). cbn [rbind]. rewrite (Sf _ HP). cbn [rbind]. now rewrite Ez. }
  assert (Hl : forall L, hlc_compact b (with_norm cd L) (Z.of_nat si) = hlc_compact b cd (Z.of_nat si)) by reflexivity.
  destruct (hlc_compact b cd (Z.of_nat si)) as [o|e]. 2: { exists (Raise e). intros L HL HP. rewrite (np_get_in L si HL 0). cbn [rbind]. rewrite (Sf _ HP). cbn [rbind]. rewrite Ez. cbn [rbind]. now rewrite Hl. }
  assert (K : forall sc, exists X, forall nf, 0 < nf -> compact_field o wvl nf true sc true E2 = do G <- X; Ok (normalise nf G)).
  { intros sc. exists (do t <- compact_trans o; do s <- fpm_scale o wvl sc; do mid <- compact_to_P3 o wvl E2; do EP4 <- compact_P3_to_P4 o wvl s t true (m_EP3 mid); do EP4' <- bop Cmult (o_lyot o) EP4; to_Fend o wvl (o_eval o) EP4').
    intros nf Hn. unfold compact_field, compact_general. destruct (Req_EM_T nf 0); [lra|].
    repeat (match goal with |- rbind (rbind ?x _) _ = _ => destruct x; cbn [rbind]; [|reflexivity] end). reflexivity. }
  destruct (b_layout b).
  - destruct (K false) as (X & HX). exists X. intros L HL HP. rewrite (np_get_in L si HL 0). cbn [rbind]. rewrite (Sf _ HP). cbn [rbind]. rewrite Ez. cbn [rbind]. rewrite Hl. cbn [rbind]. now apply HX.
  - destruct (K (String.eqb (upper (o_coro (b_o b))) "HLC")) as (X & HX). exists X. intros L HL HP. rewrite (np_get_in L si HL 0). cbn [rbind]. rewrite (Sf _ HP). cbn [rbind]. rewrite Ez. cbn [rbind]. rewrite Hl. cbn [rbind]. now apply HX.
  - destruct (K (String.eqb (upper (o_coro (b_o b))) "HLC")) as (X & HX). exists X. intros L HL HP. rewrite (np_get_in L si HL 0). cbn [rbind]. rewrite (Sf _ HP). cbn [rbind]. rewrite Ez. cbn [rbind]. rewrite Hl. cbn [rbind]. now apply HX.
  - exists (Raise NameError). intros L HL HP. rewrite (np_get_in L si HL 0). cbn [rbind]. rewrite (Sf _ HP). cbn [rbind]. rewrite Ez. cbn [rbind]. now rewrite Hl.
Qed.
(* the image with the factors L, in terms of unnormalised fields G that do not depend on L *)
Lemma abs2_normalise n G i j : 0 < n -> abs2 (fpx (normalise n G) i j) = abs2 (fpx G i j) / n.
Proof.
  intros H. unfold normalise. destruct (Req_EM_T n 0); [lra|]. cbn [fmap fpx]. destruct (fpx G i j) as [u v]. unfold abs2, Cdiv, Cinv, Cmult, RtoC. cbn [fst snd].
  pose proof (sqrt_sqrt n (Rlt_le _ _ H)) as S. assert (sqrt n <> 0) by (intros Q; rewrite Q in S; lra).
  assert (W : sqrt n * (sqrt n * 1) + 0 * (0 * 1) = n) by lra. cbn [pow]. rewrite W. replace ((u * (sqrt n / n) - v * (- 0 / n)) * (u * (sqrt n / n) - v * (- 0 / n)) + (u * (- 0 / n) + v * (sqrt n / n)) * (u * (- 0 / n) + v * (sqrt n / n))) with ((u * u + v * v) * (sqrt n * sqrt n) / (n * n)) by (field; lra).
  rewrite S. field. lra.
Qed.
Definition factors (s : scene) (L : list R) : Prop := length L = sc_nsbp s /\ forall si, (si < sc_nsbp s)%nat -> 0 < nth si L 0.
(* the sum for the metric is taken over a fixed set of pixels *)
Theorem C91_bands b cd s t L E r c : gives (compact_model b (with_norm cd L)) s (t_x t) (t_y t) true E r c -> factors s L -> frows (t_rho t) = r -> fcols (t_rho t) = c -> metric_is t ["ee"%string; "e.e."%string] ->
  exists G : nat -> nat -> field C, forall L', factors s L' ->
    exists A, calc_thput (compact_model b (with_norm cd L')) s (mkth (t_metric t) (t_radius t) (t_x t) (t_y t) (t_rho t) (t_pupil t) L') =
      Ok (rsum r (fun i => rsum c (fun j => if Rle_dec (fpx (t_rho t) i j) (t_radius t) then rsum (sc_stars s) (fun k => rsum (sc_nsbp s) (fun si => sc_w s si * (mean L' / nth si L' 0) * abs2 (fpx (G k si) i j))) else 0)) / t_pupil t, A).
Proof.
  intros (H1 & H2 & H3) (F1 & F2) R1 R2 Em.
  assert (EG : forall k si, exists G, (k < sc_stars s)%nat -> (si < sc_nsbp s)%nat -> frows G = r /\ fcols G = c /\ forall L', (si < length L')%nat -> 0 < nth si L' 0 -> compact_model b (with_norm cd L') (off_var (t_x t) (t_y t) k si) true = Ok (normalise (nth si L' 0) G)).
  { intros k si. destruct (lt_dec k (sc_stars s)) as [Hk|N]; [|exists (ones 0); intros; lia]. destruct (lt_dec si (sc_nsbp s)) as [Hs|N]; [|exists (ones 0); intros; lia].
    destruct (normalised b cd (t_x t) (t_y t) k si) as (X & HX). destruct (H3 k si Hk Hs) as (Q1 & Q2 & Q3). rewrite (HX L) in Q1 by (rewrite ?F1; auto). destruct X as [G|e]; cbn [rbind] in Q1; [|discriminate]. injection Q1 as Q1.
    exists G. intros _ _. rewrite <- Q1 in Q2, Q3. unfold normalise in Q2, Q3. split; [now destruct (Req_EM_T _ 0)|]. split; [now destruct (Req_EM_T _ 0)|]. intros L' Q4 Q5. now rewrite (HX L' Q4 Q5). }
  assert (EG2 : forall k, exists g : nat -> field C, forall si, (k < sc_stars s)%nat -> (si < sc_nsbp s)%nat -> frows (g si) = r /\ fcols (g si) = c /\ forall L', (si < length L')%nat -> 0 < nth si L' 0 -> compact_model b (with_norm cd L') (off_var (t_x t) (t_y t) k si) true = Ok (normalise (nth si L' 0) (g si))).
  { intros k. assert (Fin : forall n, exists g : nat -> field C, forall si, (si < n)%nat -> (k < sc_stars s)%nat -> (si < sc_nsbp s)%nat -> frows (g si) = r /\ fcols (g si) = c /\ forall L', (si < length L')%nat -> 0 < nth si L' 0 -> compact_model b (with_norm cd L') (off_var (t_x t) (t_y t) k si) true = Ok (normalise (nth si L' 0) (g si))).
    { induction n as [|n (g & Hg)]; [exists (fun _ => ones 0); intros; lia|]. destruct (EG k n) as (G & HG). exists (fun si => if Nat.eqb si n then G else g si). intros si Hsi. destruct (Nat.eqb_spec si n); [subst; auto|]. apply Hg. lia. }
    destruct (Fin (sc_nsbp s)) as (g & Hg). exists g. intros si A1 A2. apply Hg; auto. }
  assert (EG3 : exists G : nat -> nat -> field C, forall k si, (k < sc_stars s)%nat -> (si < sc_nsbp s)%nat -> frows (G k si) = r /\ fcols (G k si) = c /\ forall L', (si < length L')%nat -> 0 < nth si L' 0 -> compact_model b (with_norm cd L') (off_var (t_x t) (t_y t) k si) true = Ok (normalise (nth si L' 0) (G k si))).
  { assert (Fin : forall n, exists G : nat -> nat -> field C, forall k si, (k < n)%nat -> (k < sc_stars s)%nat -> (si < sc_nsbp s)%nat -> frows (G k si) = r /\ fcols (G k si) = c /\ forall L', (si < length L')%nat -> 0 < nth si L' 0 -> compact_model b (with_norm cd L') (off_var (t_x t) (t_y t) k si) true = Ok (normalise (nth si L' 0) (G k si))).
    { induction n as [|n (g & Hg)]; [exists (fun _ _ => ones 0); intros; lia|]. destruct (EG2 n) as (G & HG). exists (fun k => if Nat.eqb k n then G else g k). intros k si Hk. destruct (Nat.eqb_spec k n); [subst; auto|]. apply Hg. lia. }
    destruct (Fin (sc_stars s)) as (g & Hg). exists g. intros k si A1 A2. apply Hg; auto. }
  clear EG EG2. destruct EG3 as (G & HG). exists G. intros L' (F1' & F2').
  assert (Gv : gives (compact_model b (with_norm cd L')) s (t_x t) (t_y t) true (fun k si => normalise (nth si L' 0) (G k si)) r c).
  { split; [auto|]. split; [auto|]. intros k si Hk Hs. destruct (HG k si Hk Hs) as (A1 & A2 & A3). split; [apply A3; rewrite ?F1'; auto|]. unfold normalise. now destruct (Req_EM_T _ 0). }
  destruct (C91_ee _ s (mkth (t_metric t) (t_radius t) (t_x t) (t_y t) (t_rho t) (t_pupil t) L') _ r c Gv R1 R2 Em) as (A & A1 & A2). exists A. rewrite A1. cbn [t_rho t_radius t_pupil t_I00]. f_equal. f_equal.
  unfold Rdiv. rewrite Rmult_assoc, (Rmult_comm (/ t_pupil t)), <- Rmult_assoc. f_equal. rewrite Rmult_comm, <- rsum_scal. apply rsum_ext. intros i Hi. rewrite <- rsum_scal. apply rsum_ext. intros j Hj.
  destruct (Rle_dec _ _); [|ring]. unfold total_intensity. rewrite <- rsum_scal. apply rsum_ext. intros k Hk. rewrite <- rsum_scal. apply rsum_ext. intros si Hs. rewrite abs2_normalise by auto. specialize (F2' si Hs). field. lra.
Qed.
(* with equal factors (always so for one sub-band) the result is the light inside the disc over the light in the pupil; otherwise sub-bands are
   weighted by mean(I00)/I00 *)
Theorem C91_equal_factors s L v : factors s L -> (1 <= sc_nsbp s)%nat -> (forall si, (si < sc_nsbp s)%nat -> nth si L 0 = v) -> forall si, (si < sc_nsbp s)%nat -> mean L / nth si L 0 = 1.
Proof.
  intros (F1 & F2) H1 H2 si Hs. assert (V : 0 < v) by (rewrite <- (H2 0%nat) by lia; apply F2; lia).
  assert (EL : L = repeat v (length L)).
  { apply (nth_ext _ _ 0 0); [now rewrite repeat_length|]. intros n Hn. assert (Nr : forall m k, (k < m)%nat -> nth k (repeat v m) 0 = v) by (induction m as [|m IH]; intros [|k] Hk; cbn; try lia; [reflexivity|apply IH; lia]). rewrite Nr by auto. apply H2. lia. }
  assert (Sm : forall n, rsuml (repeat v n) = INR n * v). { induction n as [|n IH]; [cbn; ring|]. rewrite S_INR. cbn [repeat]. change (rsuml (v :: repeat v n)) with (v + rsuml (repeat v n)). rewrite IH. ring. }
  rewrite (H2 si Hs). unfold mean. rewrite EL at 1. rewrite Sm. assert (0 < INR (length L)) by (apply lt_0_INR; lia). field. lra.
Qed.
(* ---- examples ---- *)
(* all the light of a source six beamwidths off the axis, in two sub-bands with factors 1 and 3 *)
Definition ex_cmp : modvar -> bool -> res (field C) := fun _ _ => Ok (mkf 1 2 (fun i j => if Nat.eqb j 1 then RtoC 1 else RtoC 0)).
Definition ex_scene : scene := mkscene 1 2 (fun _ => / 2).
Definition ex_th (m : string) : thcfg := mkth m 1 6 0 (mkf 1 2 (fun i j => 6 * INR j)) 4 [1; 3].
Lemma ex_gives : gives ex_cmp ex_scene 6 0 true (fun _ _ => mkf 1 2 (fun i j => if Nat.eqb j 1 then RtoC 1 else RtoC 0)) 1 2.
Proof. split; [cbn; lia|]. split; [cbn; lia|]. intros k si _ _. repeat split. Qed.
Lemma ex_total i j : total_intensity ex_scene (fun _ _ => mkf 1 2 (fun i j => if Nat.eqb j 1 then RtoC 1 else RtoC 0)) i j = if Nat.eqb j 1 then 1 else 0.
Proof. unfold total_intensity, ex_scene. cbn [sc_stars sc_nsbp sc_w rsum fpx]. destruct j as [|[|j]]; cbn [Nat.eqb]; unfold abs2, RtoC; cbn [fst snd]; lra. Qed.
Example C91_example_hmi : exists A, calc_thput ex_cmp ex_scene (ex_th "HMI") = Ok (1 / 4 * 2, A).
Proof.
  destruct (C91_hmi ex_cmp ex_scene (ex_th "HMI") _ 1 2 ex_gives) as (A & M & A1 & A2 & (i & j & Hi & Hj & B1) & B2); try reflexivity; try lia; try (left; reflexivity). exists A. rewrite A1. f_equal. f_equal.
  assert (EM : M = 1). { apply Rle_antisym; [rewrite <- B1, ex_total; destruct (Nat.eqb j 1); lra|]. pose proof (ex_total 0 1) as T. cbn [Nat.eqb] in T. rewrite <- T. apply B2; lia. } rewrite EM.
  cbn [rsum]. rewrite !ex_total. cbn [Nat.eqb]. destruct (Rle_dec (1 / 2) 0); [lra|]. destruct (Rle_dec (1 / 2) 1); [|lra]. unfold mean. cbn [ex_th t_pupil t_I00 length]. replace (rsuml [1; 3]) with 4 by (cbn; lra). replace (INR 2) with 2 by (cbn; lra). lra.
Qed.
(* the encircled energy of the same image is zero: the disc is around the axis, not around the source *)
Example C91_example_ee : exists A, calc_thput ex_cmp ex_scene (ex_th "EE") = Ok (0, A).
Proof.
  destruct (C91_ee ex_cmp ex_scene (ex_th "EE") _ 1 2 ex_gives) as (A & A1 & A2); try reflexivity; [left; reflexivity|]. exists A. rewrite A1. f_equal. f_equal. cbn [rsum]. rewrite !ex_total. cbn [Nat.eqb ex_th t_rho t_radius t_pupil fpx INR].
  destruct (Rle_dec (6 * 0) 1); [|lra]. destruct (Rle_dec (6 * 1) 1); [lra|]. lra.
Qed.
Example C91_example_physical : physical ex_scene (ex_th "EE") /\ factors ex_scene [1; 3] /\ mean [1; 3] / nth 1 [1; 3] 0 <> 1.
Proof. split; [|split]; unfold physical, factors, mean; cbn; [repeat split; intros; lra|split; [reflexivity|]; intros [|[|si]] H; try lia; cbn; lra|lra]. Qed.
(* an instrument: two stars, one sub-band *)
Example C91_example_compact : exists E r c, gives (compact_model (ex_b "LC") ex_cd) (mkscene 2 1 (fun _ => 1)) 3 4 true E r c /\ factors (mkscene 2 1 (fun _ => 1)) [2] /\ with_norm ex_cd [2] = ex_cd.
Proof.
  assert (H : forall k, (k < 2)%nat -> exists F, compact_model (ex_b "LC") ex_cd (off_var 3 4 k 0) true = Ok F /\ frows F = g_Neta (o_eval (ex_o "LC" 1 2 0)) /\ fcols F = g_Nxi (o_eval (ex_o "LC" 1 2 0))).
  { intros k Hk. assert (exists E2, compact_model (ex_b "LC") ex_cd (off_var 3 4 k 0) true = compact_field (ex_o "LC" 1 2 0) (3/2) 2 true false true E2) as (E2 & ->).
    { destruct k as [|[|k]]; [| |lia]; unfold compact_model, compact_wrapper, source_field, zern_compact, hlc_compact; cbn; destruct (Req_EM_T 2 0) as [Q|_]; [lra| |lra|]; cbn; eexists; reflexivity. }
    apply (C59_compact_succeeds (ex_o "LC" 1 2 0) (3/2) 2 true false true E2); [apply ex_wf|left; left; reflexivity|lra]. }
  destruct (H 0%nat) as (F0 & A0); [lia|]. destruct (H 1%nat) as (F1 & A1); [lia|]. exists (fun k _ => if Nat.eqb k 0 then F0 else F1), (g_Neta (o_eval (ex_o "LC" 1 2 0))), (g_Nxi (o_eval (ex_o "LC" 1 2 0))). split; [|split; [|reflexivity]].
  - split; [cbn; lia|]. split; [cbn; lia|]. cbn [sc_stars sc_nsbp]. intros k si Hk Hs. replace si with 0%nat by lia. destruct k as [|[|k]]; [exact A0|exact A1|lia].
  - split; [reflexivity|]. intros [|si] Hs; cbn in *; [lra|lia].
Qed.
(* the power that normalises the throughput is that of the field behind the aperture: what the aperture blocks does not count, and a
   uniform field behind a binary aperture counts its open pixels *)
Theorem C91_pupil_power : forall M E E', (forall i j, fpx M i j <> 0 -> fpx E i j = fpx E' i j) -> sum_pupil M E = sum_pupil M E'.
Proof.
  intros M E E' H. unfold sum_pupil. apply rsum_ext. intros i _. apply rsum_ext. intros j _. destruct (Req_dec (fpx M i j) 0) as [Z0|N]; [|now rewrite H].
  rewrite Z0. unfold abs2, Cmult, RtoC. cbn [fst snd]. ring.
Qed.
Theorem C91_pupil_count : forall n m (open : nat -> nat -> bool), sum_pupil (mkf n m (fun i j => if open i j then 1 else 0)) (mkf n m (fun _ _ => RtoC 1)) = rsum n (fun i => rsum m (fun j => if open i j then 1 else 0)).
Proof.
  intros n m op. unfold sum_pupil. cbn [frows fcols fpx]. apply rsum_ext. intros i _. apply rsum_ext. intros j _. destruct (op i j); unfold abs2, Cmult, RtoC; cbn [fst snd]; ring.
Qed.
