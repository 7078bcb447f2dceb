(* Properties of the source wrappers of the optical models (falco/model/models.py full and compact). *)
From Verif Require Import Base RBase StrBase UtilModel CBase PropModel PropSpec OptModel OptSpec LinBase OptProofs OptProofs2 SrcModel SrcSpec SrcProofs OptProps.
Open Scope R_scope.

(* C43: the slice of the mask cube that the full model takes.  The cube holds one mask per distinct wavelength. *)
Theorem C43_offset Ns Nw s w : (1 < Ns)%Z -> (1 < Nw)%Z -> ilam_full Ns Nw s w = Ok (wavelength_number Nw s w + (Ns + 1 - 2 * Nw))%Z.
Proof. apply ilam_many. Qed.
(* two requests share a slice exactly when they share a wavelength *)
Theorem C43_same_slice_iff_same_wavelength l0 bw Ns Nw s w s' w' : (1 < Ns)%Z -> (1 < Nw)%Z -> 0 < l0 * bw ->
  (ilam_full Ns Nw s w = ilam_full Ns Nw s' w' <-> sample_wavelength l0 bw Ns Nw s w = sample_wavelength l0 bw Ns Nw s' w').
Proof.
  intros HN HW Hl. rewrite !ilam_many by auto.
  assert (P : 0 < IZR Ns) by (apply (IZR_lt 0); lia). assert (Q : 0 < IZR (Nw - 1)) by (apply (IZR_lt 0); lia).
  assert (V : forall s w, sample_wavelength l0 bw Ns Nw s w = l0 * (1 - bw / 2) + l0 * bw / IZR Ns / IZR (Nw - 1) * IZR (wavelength_number Nw s w)).
  { intros a b. unfold sample_wavelength, wavelength_number. rewrite plus_IZR, mult_IZR. field. lra. }
  rewrite !V. split.
  - intros [= H]. assert (E : wavelength_number Nw s w = wavelength_number Nw s' w') by lia. now rewrite E.
  - intros H. assert (K : 0 < l0 * bw / IZR Ns / IZR (Nw - 1)) by (apply Rmult_lt_0_compat; [apply Rmult_lt_0_compat; [auto|now apply Rinv_0_lt_compat]|now apply Rinv_0_lt_compat]).
    assert (E : IZR (wavelength_number Nw s w) = IZR (wavelength_number Nw s' w')) by (apply Rmult_eq_reg_l with (l0 * bw / IZR Ns / IZR (Nw - 1)); lra).
    apply eq_IZR in E. now rewrite E.
Qed.
(* the right slice is taken for every pair when Nsbp = 2 Nwpsbp - 1 *)
Theorem C43_right_grid {A} (cube : list A) Ns Nw s w : (1 < Ns)%Z -> (1 < Nw)%Z -> Ns = (2 * Nw - 1)%Z -> pair_ok Ns Nw s w -> Z.of_nat (length cube) = distinct_wavelengths Ns Nw ->
  exists m, (do il <- ilam_full Ns Nw s w; np_get cube il) = Ok m /\ nth_error cube (Z.to_nat (wavelength_number Nw s w)) = Some m.
Proof.
  intros H1 H2 E (Hs & Hw) HL. unfold distinct_wavelengths in HL. assert (R : (0 <= wavelength_number Nw s w < Z.of_nat (length cube))%Z) by (unfold wavelength_number; rewrite HL; nia).
  destruct (nth_error cube (Z.to_nat (wavelength_number Nw s w))) as [m|] eqn:N; [|apply nth_error_None in N; lia]. exists m. split; [|reflexivity].
  rewrite ilam_many by auto. cbn [rbind]. replace (wavelength_number Nw s w + (Ns + 1 - 2 * Nw))%Z with (wavelength_number Nw s w) by lia. apply np_get_in; [exact N|lia].
Qed.
(* more subbands: the last pair is refused; fewer: the first pair silently gets another wavelength's mask *)
Theorem C43_too_many_subbands {A} (cube : list A) Ns Nw : (1 < Nw)%Z -> (2 * Nw - 1 < Ns)%Z -> Z.of_nat (length cube) = distinct_wavelengths Ns Nw ->
  (do il <- ilam_full Ns Nw (Ns - 1) (Nw - 1); np_get cube il) = Raise IndexError.
Proof.
  intros H2 H HL. rewrite ilam_many by lia. cbn [rbind]. apply np_get_out. rewrite HL. unfold distinct_wavelengths, wavelength_number. nia.
Qed.
Theorem C43_too_few_subbands {A} (cube : list A) Ns Nw : (1 < Ns)%Z -> (1 < Nw)%Z -> (Ns < 2 * Nw - 1)%Z -> Z.of_nat (length cube) = distinct_wavelengths Ns Nw ->
  wavelength_number Nw 0 0 = 0%Z /\ exists m k, (do il <- ilam_full Ns Nw 0 0; np_get cube il) = Ok m /\ (0 < k)%Z /\ nth_error cube (Z.to_nat k) = Some m.
Proof.
  intros H1 H2 H HL. unfold distinct_wavelengths in HL. split; [reflexivity|]. set (k := ((Ns - 2) * Nw + 2)%Z). assert (Pk : (0 < k < Z.of_nat (length cube))%Z) by (unfold k; rewrite HL; nia).
  destruct (nth_error cube (Z.to_nat k)) as [m|] eqn:N; [|apply nth_error_None in N; lia]. exists m, k. split; [|split; [lia|exact N]].
  rewrite ilam_many by auto. cbn [rbind]. unfold wavelength_number. rewrite np_get_neg by nia.
  replace (0 * (Nw - 1) + 0 + (Ns + 1 - 2 * Nw) + Z.of_nat (length cube))%Z with k by (unfold k; rewrite HL; ring). apply np_get_in; [exact N|lia].
Qed.
Theorem C43_single Ns Nw s w : (Ns = 1 -> 1 < Nw -> pair_ok Ns Nw s w -> ilam_full Ns Nw s w = Ok (wavelength_number Nw s w))%Z /\ (Nw = 1 -> ilam_full Ns Nw s w = Ok s)%Z.
Proof.
  split.
  - intros -> H (Hs & Hw). unfold ilam_full, wavelength_number. rewrite (proj2 (Z.ltb_lt _ _) H). replace s with 0%Z by lia. reflexivity.
  - intros ->. unfold ilam_full. replace (1 <? 1)%Z with false by reflexivity. rewrite !andb_false_r. reflexivity.
Qed.
(* so a hybrid Lyot full model with too many subbands never returns a field for the last pair *)
Theorem C43_full_model_refused b fd mv n cube : upper (o_coro (b_o b)) = "HLC"%string -> b_layout b <> LUnknown -> fd_cube fd = Some cube -> Z.of_nat (length cube) = distinct_wavelengths (fd_Nsbp fd) (fd_Nwp fd) ->
  (1 < fd_Nwp fd)%Z -> (2 * fd_Nwp fd - 1 < fd_Nsbp fd)%Z -> mv_sbp mv = Some (fd_Nsbp fd - 1)%Z -> mv_wps mv = Some (fd_Nwp fd - 1)%Z -> forall F, full_wrapper b fd mv n <> Ok F.
Proof.
  intros HC HL HQ HD H1 H2 Hs Hw F. pose proof (C43_too_many_subbands cube _ _ H1 H2 HD) as T. unfold full_wrapper. rewrite Hs, Hw. cbn [attr rbind].
  set (X1 := if n then _ else _). destruct X1 as [nf|]; [cbn [rbind]|discriminate]. set (X2 := match mv_wvl mv with Some _ => _ | None => _ end). destruct X2 as [wvl|]; [cbn [rbind]|discriminate].
  destruct (attr (mv_star mv)); [cbn [rbind]|discriminate]. destruct (np_get (b_stars b) z); [cbn [rbind]|discriminate]. destruct (np_get2 (fd_E fd) _ _); [cbn [rbind]|discriminate].
  destruct (source_field b mv wvl nf _); [cbn [rbind]|discriminate]. destruct (attr (mv_zern mv)); [cbn [rbind]|discriminate]. destruct (zern_full b _ wvl _); [cbn [rbind]|discriminate].
  unfold hlc_full. rewrite HC. cbn [String.eqb Ascii.eqb Bool.eqb]. replace (String.eqb "HLC" "HLC") with true by reflexivity. rewrite HQ.
  destruct (ilam_full _ _ _ _) as [il|]; [cbn [rbind] in *|discriminate]. destruct (b_layout b); [| | |congruence]; cbn [rbind] in T |- *; rewrite T; discriminate.
Qed.
Example C43_example : Z.of_nat (length [10;20;30;40]) = distinct_wavelengths 3 2 /\ (do il <- ilam_full 3 2 2 1; np_get [10;20;30;40] il) = Ok 40 /\
  Z.of_nat (length [10;20;30;40;50]) = distinct_wavelengths 2 3 /\ (do il <- ilam_full 2 3 0 0; np_get [10;20;30;40;50] il) = Ok 30 /\
  Z.of_nat (length [10;20;30;40;50;60]) = distinct_wavelengths 5 2 /\ (do il <- ilam_full 5 2 4 1; np_get [10;20;30;40;50;60] il) = Raise IndexError.
Proof. repeat split. Qed.

(* C66: an off-axis source at (x, y) of a star at (xi, eta) is a star at (xi + x, eta + y) *)
Local Open Scope string_scope.
Theorem C66_full_offaxis_is_star b l' fd mv n r c k st src x y src' x' y' : fourier_layout b -> full_fields fd r c -> coords_fit b r c ->
  mv_star mv = Some k -> np_get (b_stars b) k = Ok st -> np_get l' k = Ok (mkstar (st_xi st + x) (st_eta st + y) (st_w st)) -> lower src = "offaxis" -> lower src' <> "offaxis" ->
  req_field (full_wrapper (with_stars b l') fd (with_source mv src' x' y') n) (full_wrapper b fd (with_source mv src (Some x) (Some y)) n).
Proof.
  intros L HE X K G1 G2 S1 S2. eapply req_trans; [|apply (req_sym _ _ (rscal_1 _ (RtoC 1) eq_refl))].
  eapply (full_rel b l' fd (with_source mv src (Some x) (Some y)) (with_source mv src' x' y') n r c k st _ x y 0 0 1); eauto; try (cbn; ring).
  - repeat split.
  - exists src. split; [reflexivity|]. left. rewrite S1. split; [reflexivity|]. split; reflexivity.
  - exists src'. split; [reflexivity|]. right. split; [now apply String.eqb_neq|]. split; reflexivity.
Qed.
Theorem C66_compact_offaxis_is_star b l' cd mv n ev fpm r c k st src x y src' x' y' : lin (o_downsample (b_o b)) -> compact_fields cd r c -> coords_fit b r c ->
  mv_star mv = Some k -> np_get (b_stars b) k = Ok st -> np_get l' k = Ok (mkstar (st_xi st + x) (st_eta st + y) (st_w st)) -> lower src = "offaxis" -> lower src' <> "offaxis" ->
  req_field (compact_wrapper (with_stars b l') cd (with_source mv src' x' y') n ev fpm) (compact_wrapper b cd (with_source mv src (Some x) (Some y)) n ev fpm).
Proof.
  intros L HE X K G1 G2 S1 S2. eapply req_trans; [|apply (req_sym _ _ (rscal_1 _ (RtoC 1) eq_refl))].
  eapply (compact_rel b l' cd (with_source mv src (Some x) (Some y)) (with_source mv src' x' y') n ev fpm r c k st _ x y 0 0 1); eauto; try (cbn; ring).
  - repeat split.
  - exists src. split; [reflexivity|]. left. rewrite S1. split; [reflexivity|]. split; reflexivity.
  - exists src'. split; [reflexivity|]. right. split; [now apply String.eqb_neq|]. split; reflexivity.
Qed.
(* the field grows as the square root of the weight of the star: a star with a times the weight is sqrt a times as bright in field *)
Theorem C66_full_weight b l' fd mv n r c k st x y a F : fourier_layout b -> full_fields fd r c -> coords_fit b r c -> mv_star mv = Some k -> np_get (b_stars b) k = Ok st -> 0 <= a -> 0 <= st_w st ->
  np_get l' k = Ok (mkstar (st_xi st) (st_eta st) (a * st_w st)) -> want_off mv x y -> full_wrapper b fd mv n = Ok F ->
  exists F', full_wrapper (with_stars b l') fd mv n = Ok F' /\ scaled (RtoC (sqrt a)) F F'.
Proof.
  intros L HE X K G1 Ha Hw G2 W EF. apply (req_scaled (RtoC (sqrt a)) (full_wrapper b fd mv n)); [|exact EF].
  eapply (full_rel b l' fd mv mv n r c k st _ x y x y); eauto; [repeat split|]. cbn. now apply sqrt_mult_alt.
Qed.
Theorem C66_compact_weight b l' cd mv n ev fpm r c k st x y a F : lin (o_downsample (b_o b)) -> compact_fields cd r c -> coords_fit b r c -> mv_star mv = Some k -> np_get (b_stars b) k = Ok st -> 0 <= a -> 0 <= st_w st ->
  np_get l' k = Ok (mkstar (st_xi st) (st_eta st) (a * st_w st)) -> want_off mv x y -> compact_wrapper b cd mv n ev fpm = Ok F ->
  exists F', compact_wrapper (with_stars b l') cd mv n ev fpm = Ok F' /\ scaled (RtoC (sqrt a)) F F'.
Proof.
  intros L HE X K G1 Ha Hw G2 W EF. apply (req_scaled (RtoC (sqrt a)) (compact_wrapper b cd mv n ev fpm)); [|exact EF].
  eapply (compact_rel b l' cd mv mv n ev fpm r c k st _ x y x y); eauto; [repeat split|]. cbn. now apply sqrt_mult_alt.
Qed.
(* asking for an unnormalised image also moves the source by the normalisation offset: it is sqrt(I00) times the normalised image of a star
   moved there, not of the star asked for *)
Theorem C66_full_unnormalised_is_shifted b l' fd mv r c k st s w n x y F : fourier_layout b -> ~ In (upper (o_coro (b_o b))) ["VORTEX"; "VC"; "AVC"] -> full_fields fd r c -> coords_fit b r c ->
  mv_star mv = Some k -> np_get (b_stars b) k = Ok st -> np_get l' k = Ok (mkstar (st_xi st + b_normx b) (st_eta st + b_normy b) (st_w st)) -> want_off mv x y ->
  mv_sbp mv = Some s -> mv_wps mv = Some w -> np_get2 (fd_I00 fd) s w = Ok n -> 0 < n ->
  full_wrapper (with_stars b l') fd mv true = Ok F -> exists F0, full_wrapper b fd mv false = Ok F0 /\ scaled (RtoC (sqrt n)) F F0.
Proof. intros L NV. apply full_unnorm; auto. unfold is_vortex. destruct (str_in _ _) eqn:B; auto. apply str_in_iff in B. contradiction. Qed.
(* a stored normalisation of zero is the same as asking for none *)
Theorem C66_full_zero_norm b fd mv s w : mv_sbp mv = Some s -> mv_wps mv = Some w -> np_get2 (fd_I00 fd) s w = Ok 0 -> full_wrapper b fd mv true = full_wrapper b fd mv false.
Proof. intros Hs Hw H0. unfold full_wrapper. rewrite Hs, Hw, H0. reflexivity. Qed.
(* the full and the compact wrapper agree for a star; for any other Zernike mode the compact field is i times the full field *)
Theorem C66_wrappers_agree b fd cd mv s w n wvl E r c k st x y z : b_layout b = LFourier -> well_formed (b_o b) -> lyot_like (b_o b) -> upper (o_coro (b_o b)) <> "HLC" -> 0 < wvl ->
  same_data b fd cd mv s w n wvl E -> shape E r c -> coords_fit b r c -> mv_star mv = Some k -> np_get (b_stars b) k = Ok st -> want_off mv x y -> mv_zern mv = Some z ->
  (z <> 1%Z -> exists m q, b_zern b z = Ok m /\ shape m r c /\ b_zcoef b z = Ok q) ->
  exists F G, full_wrapper b fd mv true = Ok F /\ compact_wrapper b cd mv true false true = Ok G /\ scaled (if (z =? 1)%Z then RtoC 1 else Ci) F G.
Proof. apply wrappers_agree. Qed.
(* requests without a Zernike index: the compact model takes mode 1, the full model fails *)
Theorem C66_zern_default b fd cd mv n ev fpm : mv_zern mv = None -> compact_wrapper b cd mv n ev fpm = compact_wrapper b cd (with_zern mv 1) n ev fpm /\ forall F, full_wrapper b fd mv n <> Ok F.
Proof.
  intros Hz. split; [unfold compact_wrapper; rewrite Hz; reflexivity|]. intros F. unfold full_wrapper. rewrite Hz.
  set (X1 := if n then _ else _). destruct X1 as [nf|]; [cbn [rbind]|discriminate]. set (X2 := match mv_wvl mv with Some _ => _ | None => _ end). destruct X2 as [wvl|]; [cbn [rbind]|discriminate].
  destruct (attr (mv_star mv)); [cbn [rbind]|discriminate]. destruct (np_get (b_stars b) z); [cbn [rbind]|discriminate]. destruct (attr (mv_wps mv)); [cbn [rbind]|discriminate]. destruct (attr (mv_sbp mv)); [cbn [rbind]|discriminate].
  destruct (np_get2 (fd_E fd) _ _); [cbn [rbind]|discriminate]. destruct (source_field b mv wvl nf _); [cbn [rbind attr]|]; discriminate.
Qed.
(* a layout name nobody knows never gives a field *)
Theorem C66_unknown_layout b fd cd mv n ev fpm F : b_layout b = LUnknown -> full_wrapper b fd mv n <> Ok F /\ compact_wrapper b cd mv n ev fpm <> Ok F.
Proof.
  intros HL. split.
  - unfold full_wrapper. set (X1 := if n then _ else _). destruct X1 as [nf|]; [cbn [rbind]|discriminate]. set (X2 := match mv_wvl mv with Some _ => _ | None => _ end). destruct X2 as [wvl|]; [cbn [rbind]|discriminate].
    destruct (attr (mv_star mv)); [cbn [rbind]|discriminate]. destruct (np_get (b_stars b) z); [cbn [rbind]|discriminate]. destruct (attr (mv_wps mv)); [cbn [rbind]|discriminate]. destruct (attr (mv_sbp mv)); [cbn [rbind]|discriminate].
    destruct (np_get2 (fd_E fd) _ _); [cbn [rbind]|discriminate]. destruct (source_field b mv wvl nf _); [cbn [rbind]|discriminate]. destruct (attr (mv_zern mv)); [cbn [rbind]|discriminate]. destruct (zern_full b _ wvl _); [cbn [rbind]|discriminate].
    destruct (hlc_full b fd _ _); [cbn [rbind]|discriminate]. unfold run_full. rewrite HL. discriminate.
  - unfold compact_wrapper. set (X1 := if n then _ else _). destruct X1 as [nf|]; [cbn [rbind]|discriminate]. set (X2 := match mv_wvl mv with Some _ => _ | None => _ end). destruct X2 as [wvl|]; [cbn [rbind]|discriminate].
    destruct (attr (mv_star mv)); [cbn [rbind]|discriminate]. destruct (np_get (b_stars b) z); [cbn [rbind]|discriminate]. destruct (attr (mv_sbp mv)); [cbn [rbind]|discriminate].
    destruct (np_get (cd_E cd) _); [cbn [rbind]|discriminate]. destruct (source_field b mv wvl nf _); [cbn [rbind]|discriminate]. destruct (zern_compact b _ wvl _); [cbn [rbind]|discriminate].
    destruct (hlc_compact b cd _); [cbn [rbind]|discriminate]. rewrite HL. discriminate.
Qed.
(* Whether the focal-plane mask scales with wavelength is decided by the layout alone: 'fpm_scale' runs the general model with the scaling on, 'fourier' with it off; at the
   wavelength asked for, with the instrument of the bench except (HLC) its mask. *)
Theorem C66_layout_decides_scaling b fd mv n F : fourier_layout b -> full_wrapper b fd mv n = Ok F ->
  exists o wvl nf E, full_Fourier o wvl nf (match b_layout b with LFpmScale => true | _ => false end) E = Ok F /\ (o = b_o b \/ upper (o_coro (b_o b)) = "HLC"%string /\ exists m, o = with_fpm (b_o b) m) /\
    (mv_wvl mv = Some wvl \/ mv_wvl mv = None /\ exists s w, mv_sbp mv = Some s /\ mv_wps mv = Some w /\ np_get2 (fd_lam fd) s w = Ok wvl).
Proof.
  intros HL. unfold full_wrapper. set (X1 := if n then _ else _). destruct X1 as [nf|]; [cbn [rbind]|discriminate]. set (X2 := match mv_wvl mv with Some _ => _ | None => _ end). destruct X2 as [wvl|] eqn:EX2; [cbn [rbind]|discriminate].
  destruct (attr (mv_star mv)); [cbn [rbind]|discriminate]. destruct (np_get (b_stars b) z); [cbn [rbind]|discriminate]. destruct (attr (mv_wps mv)) eqn:Ew; [cbn [rbind]|discriminate]. destruct (attr (mv_sbp mv)) eqn:Es; [cbn [rbind]|discriminate].
  destruct (np_get2 (fd_E fd) _ _); [cbn [rbind]|discriminate]. destruct (source_field b mv wvl nf _); [cbn [rbind]|discriminate]. destruct (attr (mv_zern mv)); [cbn [rbind]|discriminate]. destruct (zern_full b _ wvl _) as [E2|]; [cbn [rbind]|discriminate].
  destruct (hlc_full b fd _ _) as [o|] eqn:EH; [cbn [rbind]|discriminate]. intros ER. exists o, wvl, nf, E2. split; [|split].
  - unfold run_full in ER. destruct HL as [HL|HL]; rewrite HL in ER |- *; exact ER.
  - unfold hlc_full in EH. destruct (String.eqb_spec (upper (o_coro (b_o b))) "HLC") as [EQ|]; [|left; congruence]. destruct (ilam_full _ _ _ _); cbn [rbind] in EH; [|discriminate].
    destruct HL as [HL|HL]; rewrite HL in EH; destruct (fd_cube fd) as [cu|]; try discriminate; [destruct (np_get cu _) as [m|]|destruct (fd_lut fd _ _) as [m|]|destruct (np_get cu _) as [m|]]; cbn [rbind] in EH; try discriminate; right; (split; [auto|]); exists m; congruence.
  - unfold X2 in EX2. destruct (mv_wvl mv) as [l|]; [left; congruence|right]. split; [auto|]. destruct (mv_sbp mv) as [s'|]; [|discriminate]. destruct (mv_wps mv) as [w'|]; [|discriminate]. cbn [attr] in Ew. injection Ew as <-. cbn [attr rbind] in EX2. eauto 6.
Qed.
(* The compact model decides differently: it scales the mask only for the HLC, under the layouts 'fpm_scale' and 'proper'. *)
Theorem C66_compact_layout_scaling b cd mv n ev fpm F : b_layout b <> LUnknown -> compact_wrapper b cd mv n ev fpm = Ok F ->
  exists o wvl nf E, compact_field o wvl nf ev (match b_layout b with LFourier => false | _ => String.eqb (upper (o_coro (b_o b))) "HLC" end) fpm E = Ok F /\
    (o = b_o b \/ upper (o_coro (b_o b)) = "HLC"%string /\ exists m, o = with_fpm (b_o b) m) /\
    (mv_wvl mv = Some wvl \/ mv_wvl mv = None /\ exists s, mv_sbp mv = Some s /\ np_get (cd_lam cd) s = Ok wvl).
Proof.
  intros HL. unfold compact_wrapper. set (X1 := if n then _ else _). destruct X1 as [nf|]; [cbn [rbind]|discriminate]. set (X2 := match mv_wvl mv with Some _ => _ | None => _ end). destruct X2 as [wvl|] eqn:EX2; [cbn [rbind]|discriminate].
  destruct (attr (mv_star mv)); [cbn [rbind]|discriminate]. destruct (np_get (b_stars b) z); [cbn [rbind]|discriminate]. destruct (attr (mv_sbp mv)) eqn:Es; [cbn [rbind]|discriminate].
  destruct (np_get (cd_E cd) _); [cbn [rbind]|discriminate]. destruct (source_field b mv wvl nf _); [cbn [rbind]|discriminate]. destruct (zern_compact b _ wvl _) as [E2|]; [cbn [rbind]|discriminate].
  destruct (hlc_compact b cd _) as [o|] eqn:EH; [cbn [rbind]|discriminate]. intros ER. exists o, wvl, nf, E2. split; [|split].
  - destruct (b_layout b); try exact ER. discriminate.
  - unfold hlc_compact in EH. destruct (String.eqb_spec (upper (o_coro (b_o b))) "HLC") as [EQ|]; [|left; congruence].
    destruct (b_layout b); destruct (cd_cube cd) as [cu|]; try discriminate; [destruct (np_get cu _) as [m|]|destruct (cd_lut cd _) as [m|]|destruct (np_get cu _) as [m|]|destruct (np_get cu _) as [m|]]; cbn [rbind] in EH; try discriminate; right; (split; [auto|]); exists m; congruence.
  - unfold X2 in EX2. destruct (mv_wvl mv) as [l|]; [left; congruence|right]. split; [auto|]. destruct (mv_sbp mv) as [s'|]; [|discriminate]. cbn [attr] in Es. injection Es as <-. cbn [attr rbind] in EX2. eauto 6.
Qed.
(* an instrument on which the hypotheses hold *)
Definition ex_b (z : string) : bench := mkb (ex_o "LC" 1 2 0) LFourier (mkf 2 2 (fun i j => INR j / 2)) (mkf 2 2 (fun i j => INR i / 2)) [mkstar 1 (-2) 4; mkstar 5 6 1] (1/2) 7 0
  (fun _ => Ok (mkf 2 2 (fun i j => RtoC (INR (i + j))))) (fun _ => Ok (1/3)) (fun _ _ => Raise ValueError).
Definition ex_fd : fulldata := mkfd [[1; 2]] [[1; 3/2]] [[ones 2; mkf 2 2 (fun i j => RtoC (INR i))]] None (fun _ _ => Raise AttributeError) 1 2.
Definition ex_cd : compactdata := mkcd [2] [2] [3/2] [mkf 2 2 (fun i j => RtoC (INR i))] None (fun _ => Raise AttributeError).
Definition ex_mv (z : Z) : modvar := mkmv (Some 0%Z) (Some 1%Z) None (Some 0%Z) (Some "OffAxis") (Some 3) (Some 4) (Some z).
Example C66_example : exists F G, full_wrapper (ex_b "LC") ex_fd (ex_mv 4) true = Ok F /\ compact_wrapper (ex_b "LC") ex_cd (ex_mv 4) true false true = Ok G /\ scaled Ci F G.
Proof.
  apply (C66_wrappers_agree (ex_b "LC") ex_fd ex_cd (ex_mv 4) 0 1 2 (3/2) (mkf 2 2 (fun i j => RtoC (INR i))) 2 2 0 (mkstar 1 (-2) 4) 3 4 4); try reflexivity.
  - apply ex_wf.
  - left; reflexivity.
  - discriminate.
  - lra.
  - constructor; reflexivity.
  - split; reflexivity.
  - repeat split.
  - exists "OffAxis". split; [reflexivity|]. left. repeat split.
  - intros _. eexists _, _. split; [reflexivity|]. split; [split; reflexivity|reflexivity].
Qed.
Example C66_example_offaxis : req_field (full_wrapper (with_stars (ex_b "LC") [mkstar (1 + 3) (-2 + 4) 4]) ex_fd (with_source (ex_mv 1) "star" None None) true) (full_wrapper (ex_b "LC") ex_fd (with_source (ex_mv 1) "offaxis" (Some 3) (Some 4)) true) /\ full_fields ex_fd 2 2.
Proof.
  assert (H : full_fields ex_fd 2 2).
  { intros s w E. unfold np_get2. cbn [fd_E ex_fd]. unfold np_get at 1, np_ix. cbn. destruct (Z.leb_spec 0 s), (Z.ltb_spec s 1), (Z.leb_spec (-1) s), (Z.ltb_spec s 0); cbn; try discriminate; try lia.
    all: [> replace (Z.to_nat s) with 0%nat by lia | replace (Z.to_nat (s + 1)) with 0%nat by lia ]; cbn.
    all: unfold np_get, np_ix; cbn; destruct (Z.leb_spec 0 w), (Z.ltb_spec w 2), (Z.leb_spec (-2) w), (Z.ltb_spec w 0); cbn; try discriminate; try lia.
    all: assert (D : w = 0%Z \/ w = 1%Z \/ w = (-1)%Z \/ w = (-2)%Z) by lia; destruct D as [ -> | [ -> | [ -> | -> ] ] ]; try lia; cbn; intros [= <-]; split; reflexivity. }
  split; [|exact H]. apply (C66_full_offaxis_is_star (ex_b "LC") _ ex_fd (ex_mv 1) true 2 2 0 (mkstar 1 (-2) 4) "offaxis" 3 4 "star"); try reflexivity; auto; [left; reflexivity|repeat split|discriminate].
Qed.
