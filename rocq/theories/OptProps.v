(* Properties of the two optical models (falco/model/models.py full_Fourier and compact_general). *)
From Verif Require Import Base RBase StrBase CBase PropModel PropSpec OptModel OptSpec LinBase OptProofs OptProofs2 OptProofs3 OptProofs4 OptProofs5 OptProofs6 OptProofs7 OptProofs8.
Open Scope R_scope.
Local Open Scope string_scope.

(* a two-pixel instrument with curved DMs a finite distance apart, to show that hypotheses can be met *)
Definition ex_g : grid2 := mkg 1 2 1 2.
Definition ex_surf : field R := mkf 2 2 (fun i j => INR i / 4 - INR j / 8).
Definition ex_o (coro : string) (d1 d12 : R) (mask : C) : optics :=
  mko 2 true 1 1 1 1 Pixel d1 d12 1 (1/2) (1/2) true true ex_surf (mkf 2 2 (fun i j => INR (i * j))) (mkf 3 3 (fun i j => RtoC (INR (i + j)))) None (Some (ones 1)) false
    None coro ex_g (mkf 2 2 (fun _ _ => mask)) None (ChInt 6) 2 2 (1/2) 3 (mkf 3 3 (fun i j => RtoC (INR i))) (fun E => Ok E) ex_g ex_g.
Lemma ex_wf coro d1 d12 m : well_formed (ex_o coro d1 d12 m).
Proof. constructor; cbn; try lra; try lia; try discriminate; try (repeat split; cbn; lra || lia); try (split; intros; split; reflexivity); auto; split; reflexivity. Qed.

(* C59: linear in the input field; success or failure depends on the shape of the input only *)
Theorem C59_full_linear o wvl nf sc a b E F PE PF : frows F = frows E -> fcols F = fcols E ->
  full_Fourier o wvl nf sc E = Ok PE -> full_Fourier o wvl nf sc F = Ok PF ->
  exists PC, full_Fourier o wvl nf sc (fcomb a b E F) = Ok PC /\ feq PC (fcomb a b PE PF).
Proof. apply lin_comb, lin_full. Qed.
Theorem C59_compact_linear o wvl nf ev sc fpm a b E F PE PF : lin (o_downsample o) -> frows F = frows E -> fcols F = fcols E ->
  compact_field o wvl nf ev sc fpm E = Ok PE -> compact_field o wvl nf ev sc fpm F = Ok PF ->
  exists PC, compact_field o wvl nf ev sc fpm (fcomb a b E F) = Ok PC /\ feq PC (fcomb a b PE PF).
Proof. intros HD. apply lin_comb. now apply lin_compact. Qed.
Lemma lin_failure op E F e : lin op -> frows F = frows E -> fcols F = fcols E -> op E = Raise e -> op F = Raise e.
Proof.
  intros L H1 H2 EE. destruct (L (frows E) (fcols E)) as [[e' He]|(r & c & K & HK)].
  - rewrite He in EE by (split; reflexivity). rewrite He by (split; auto). exact EE.
  - destruct (HK E (conj eq_refl eq_refl)) as (O & EO & _). congruence.
Qed.
Theorem C59_full_failure o wvl nf sc E F e : frows F = frows E -> fcols F = fcols E -> full_Fourier o wvl nf sc E = Raise e -> full_Fourier o wvl nf sc F = Raise e.
Proof. apply lin_failure, lin_full. Qed.
Theorem C59_compact_failure o wvl nf ev sc fpm E F e : lin (o_downsample o) -> frows F = frows E -> fcols F = fcols E ->
  compact_field o wvl nf ev sc fpm E = Raise e -> compact_field o wvl nf ev sc fpm F = Raise e.
Proof. intros HD. apply lin_failure. now apply lin_compact. Qed.
(* any well-formed configuration with a known coronagraph name succeeds, on every input field, with the shape of the final grid *)
Theorem C59_full_succeeds o wvl nf sc E : well_formed o -> known_full o -> 0 < wvl ->
  exists F, full_Fourier o wvl nf sc E = Ok F /\ frows F = g_Neta (o_fend o) /\ fcols F = g_Nxi (o_fend o).
Proof. intros W K Hw. destruct (full_succeeds o wvl nf sc E W K Hw) as (F & EF & S). exists F. split; [exact EF|exact S]. Qed.
Theorem C59_compact_succeeds o wvl nf (ev : bool) sc fpm E : well_formed o -> known_compact o -> 0 < wvl -> let g := if ev then o_eval o else o_fend o in
  exists F, compact_field o wvl nf ev sc fpm E = Ok F /\ frows F = g_Neta g /\ fcols F = g_Nxi g.
Proof. intros W K Hw g. destruct (compact_succeeds o wvl nf ev sc fpm E W K Hw) as (F & EF & S). exists F. split; [exact EF|exact S]. Qed.
Example C59_example : exists F G, full_Fourier (ex_o "LC" 1 2 0) 1 1 true (ones 2) = Ok F /\ compact_field (ex_o "vortex" 1 2 0) 1 1 true true true (ones 4) = Ok G /\ lin (o_downsample (ex_o "LC" 1 2 0)).
Proof.
  destruct (full_succeeds (ex_o "LC" 1 2 0) 1 1 true (ones 2)) as (F & EF & _); [apply ex_wf|left; left; reflexivity|lra|].
  destruct (compact_succeeds (ex_o "vortex" 1 2 0) 1 1 true true true (ones 4)) as (G & EG & _); [apply ex_wf|right; split; [left; reflexivity|exists 6%Z; reflexivity]|lra|].
  exists F, G. split; [exact EF|]. split; [exact EG|]. apply lin_id.
Qed.

(* C60: the normalisation factor only rescales the field; zero means no normalisation *)
Theorem C60_full_rescales o wvl n1 n2 sc E F1 : 0 < n1 -> 0 < n2 -> full_Fourier o wvl n1 sc E = Ok F1 ->
  exists F2, full_Fourier o wvl n2 sc E = Ok F2 /\ scaled (RtoC (sqrt n1 / sqrt n2)) F1 F2.
Proof. apply full_norm. Qed.
Theorem C60_compact_rescales o wvl n1 n2 ev sc fpm E F1 : 0 < n1 -> 0 < n2 -> compact_field o wvl n1 ev sc fpm E = Ok F1 ->
  exists F2, compact_field o wvl n2 ev sc fpm E = Ok F2 /\ scaled (RtoC (sqrt n1 / sqrt n2)) F1 F2.
Proof. apply compact_norm. Qed.
Theorem C60_full_zero o wvl n sc E F : 0 < n -> ~ In (upper (o_coro o)) ["VORTEX"; "VC"; "AVC"] -> full_Fourier o wvl n sc E = Ok F ->
  exists F0, full_Fourier o wvl 0 sc E = Ok F0 /\ scaled (RtoC (sqrt n)) F F0.
Proof. intros Hn I. apply full_norm0; auto. unfold is_vortex. destruct (str_in _ _) eqn:B; auto. apply str_in_iff in B. contradiction. Qed.
Theorem C60_compact_zero o wvl n ev sc fpm E F : 0 < n -> ~ In (upper (o_coro o)) ["VORTEX"; "VC"; "AVC"] \/ fpm = false -> compact_field o wvl n ev sc fpm E = Ok F ->
  exists F0, compact_field o wvl 0 ev sc fpm E = Ok F0 /\ scaled (RtoC (sqrt n)) F F0.
Proof. intros Hn I. apply compact_norm0; auto. destruct I as [I|I]; [left|right; auto]. unfold is_vortex. destruct (str_in _ _) eqn:B; auto. apply str_in_iff in B. contradiction. Qed.
(* vortex: a run with factor zero leaves the mask out *)
Theorem C60_vortex_zero o wvl ev sc fpm E : In (upper (o_coro o)) ["VORTEX"; "VC"; "AVC"] -> compact_field o wvl 0 ev sc fpm E = compact_field o wvl 0 ev sc false E.
Proof. intros I. apply compact_norm0_vortex. now apply str_in_iff. Qed.
Example C60_example : exists F F0, full_Fourier (ex_o "LC" 1 2 0) 1 3 true (ones 2) = Ok F /\ full_Fourier (ex_o "LC" 1 2 0) 1 0 true (ones 2) = Ok F0 /\ scaled (RtoC (sqrt 3)) F F0.
Proof.
  destruct (full_succeeds (ex_o "LC" 1 2 0) 1 3 true (ones 2)) as (F & EF & _); [apply ex_wf|left; left; reflexivity|lra|].
  destruct (C60_full_zero (ex_o "LC" 1 2 0) 1 3 true (ones 2) F) as (F0 & E0 & S); [lra|cbn; intuition discriminate|exact EF|]. exists F, F0. auto.
Qed.

(* C61: a mask that is transparent everywhere is the same as no mask (Babinet models); for the hybrid Lyot
   coronagraph any constant transmission *)
Theorem C61_transparent o wvl nf ev sc E t : well_formed o -> In (upper (o_coro o)) ["LC"; "APLC"; "HLC"] -> 0 < wvl -> (upper (o_coro o) <> "HLC" -> t = RtoC 1) ->
  (forall i j, (i < frows (o_fpm o))%nat -> (j < fcols (o_fpm o))%nat -> fpx (o_fpm o) i j = t) ->
  exists F G, compact_field o wvl nf ev sc true E = Ok F /\ compact_field o wvl nf ev sc false E = Ok G /\ feq F G.
Proof. apply transparent. Qed.
Example C61_example : exists F G, compact_field (ex_o "HLC" 1 2 (1/3, 1/5)) 1 1 false true true (ones 2) = Ok F /\ compact_field (ex_o "HLC" 1 2 (1/3, 1/5)) 1 1 false true false (ones 2) = Ok G /\ feq F G.
Proof. apply (C61_transparent _ 1 1 false true (ones 2) (1/3, 1/5)); [apply ex_wf|right; right; left; reflexivity|lra|intros H; exfalso; apply H; reflexivity|reflexivity]. Qed.

(* C62: a piston on a DM multiplies every image by one unit phase, 4 pi piston / wavelength per DM in use *)
Theorem C62_full_piston o wvl nf sc E p1 p2 F : full_Fourier o wvl nf sc E = Ok F ->
  exists F', full_Fourier (with_surfs o (piston p1 (o_surf1 o)) (piston p2 (o_surf2 o))) wvl nf sc E = Ok F' /\
    scaled (cis (4 * PI * ((if o_use1 o then p1 else 0) + (if o_use2 o then p2 else 0)) / wvl)) F F'.
Proof.
  intros EF. pose proof (full_piston o wvl nf sc E p1 p2) as R. rewrite EF in R. destruct (full_Fourier (with_surfs _ _ _) wvl nf sc E) as [F'|]; [|destruct R]. exists F'. split; [reflexivity|].
  replace (4 * PI) with (2 * 2 * PI) by ring. destruct R as (R1 & R2 & R3). split; [exact R1|]. split; [exact R2|]. intros i j Hi Hj. cbn in R1, R2. rewrite R3 by congruence. reflexivity.
Qed.
Theorem C62_compact_piston o wvl nf ev sc fpm E p1 p2 F : lin (o_downsample o) -> compact_field o wvl nf ev sc fpm E = Ok F ->
  exists F', compact_field (with_surfs o (piston p1 (o_surf1 o)) (piston p2 (o_surf2 o))) wvl nf ev sc fpm E = Ok F' /\
    scaled (cis (4 * PI * ((if o_use1 o then p1 else 0) + (if o_use2 o then p2 else 0)) / wvl)) F F'.
Proof.
  intros HD EF. pose proof (compact_piston o wvl nf ev sc fpm E p1 p2 HD) as R. rewrite EF in R. destruct (compact_field (with_surfs _ _ _) wvl nf ev sc fpm E) as [F'|]; [|destruct R]. exists F'. split; [reflexivity|].
  replace (4 * PI) with (2 * 2 * PI) by ring. destruct R as (R1 & R2 & R3). split; [exact R1|]. split; [exact R2|]. intros i j Hi Hj. cbn in R1, R2. rewrite R3 by congruence. reflexivity.
Qed.
(* so no intensity changes *)
Lemma abs2_mult a b : abs2 (Cmult a b) = abs2 a * abs2 b.
Proof. unfold abs2, Cmult. cbn. ring. Qed.
Theorem C62_intensity o wvl nf sc E p1 p2 F : full_Fourier o wvl nf sc E = Ok F ->
  exists F', full_Fourier (with_surfs o (piston p1 (o_surf1 o)) (piston p2 (o_surf2 o))) wvl nf sc E = Ok F' /\
    forall i j, (i < frows F)%nat -> (j < fcols F)%nat -> abs2 (fpx F' i j) = abs2 (fpx F i j).
Proof.
  intros EF. destruct (C62_full_piston o wvl nf sc E p1 p2 F EF) as (F' & EF' & S1 & S2 & V). exists F'. split; [auto|]. intros i j Hi Hj. rewrite V by auto. rewrite abs2_mult, abs2_cis. ring.
Qed.
Example C62_example : exists F F', full_Fourier (ex_o "LC" 1 2 0) 1 1 true (ones 2) = Ok F /\
  full_Fourier (with_surfs (ex_o "LC" 1 2 0) (piston (1/8) (o_surf1 (ex_o "LC" 1 2 0))) (piston 0 (o_surf2 (ex_o "LC" 1 2 0)))) 1 1 true (ones 2) = Ok F' /\ scaled (cis (4 * PI * (1/8 + 0) / 1)) F F'.
Proof.
  destruct (full_succeeds (ex_o "LC" 1 2 0) 1 1 true (ones 2)) as (F & EF & _); [apply ex_wf|left; left; reflexivity|lra|].
  destruct (C62_full_piston (ex_o "LC" 1 2 0) 1 1 true (ones 2) (1/8) 0 F EF) as (F' & E' & S). exists F, F'. auto.
Qed.

(* C63: with both DMs at the pupil only the sum of their surfaces matters *)
Theorem C63_full_sum o wvl nf sc E s1 s2 : well_formed o -> 0 < wvl -> o_use1 o = true -> o_use2 o = true -> o_d1 o = 0 -> o_d12 o = 0 ->
  (frows s1 = o_pad o /\ fcols s1 = o_pad o) -> (frows s2 = o_pad o /\ fcols s2 = o_pad o) ->
  (forall i j, (i < o_pad o)%nat -> (j < o_pad o)%nat -> fpx s1 i j + fpx s2 i j = fpx (o_surf1 o) i j + fpx (o_surf2 o) i j) ->
  req_field (full_Fourier (with_surfs o s1 s2) wvl nf sc E) (full_Fourier o wvl nf sc E).
Proof. apply surf_sum_full. Qed.
Theorem C63_compact_sum o wvl nf ev sc fpm E s1 s2 : well_formed o -> lin (o_downsample o) -> 0 < wvl -> o_use1 o = true -> o_use2 o = true -> o_d1 o = 0 -> o_d12 o = 0 ->
  (frows s1 = o_pad o /\ fcols s1 = o_pad o) -> (frows s2 = o_pad o /\ fcols s2 = o_pad o) ->
  (forall i j, (i < o_pad o)%nat -> (j < o_pad o)%nat -> fpx s1 i j + fpx s2 i j = fpx (o_surf1 o) i j + fpx (o_surf2 o) i j) ->
  req_field (compact_field (with_surfs o s1 s2) wvl nf ev sc fpm E) (compact_field o wvl nf ev sc fpm E).
Proof. apply surf_sum_compact. Qed.
Example C63_example : let o := ex_o "LC" 0 0 0 in req_field (full_Fourier (with_surfs o (o_surf2 o) (o_surf1 o)) 1 1 true (ones 2)) (full_Fourier o 1 1 true (ones 2)).
Proof. intros o. apply C63_full_sum; try reflexivity; try lra; try (split; reflexivity); [apply ex_wf|]. intros. ring. Qed.

(* C64: the two models agree when they are given the same sampling and an unscaled focal-plane mask *)
Theorem C64_models_agree o wvl nf E : well_formed o -> lyot_like o -> (upper (o_coro o) = "HLC" -> o_trans o = None) -> 0 < wvl ->
  exists F G, full_Fourier o wvl nf false E = Ok F /\ compact_field o wvl nf false false true E = Ok G /\ feq F G.
Proof. apply full_compact_equal. Qed.
Theorem C64_models_agree_vortex o wvl nf E : well_formed o -> In (upper (o_coro o)) ["VORTEX"; "VC"] -> (exists q, o_charge o = ChInt q) ->
  o_rot o = true -> Z.Odd (o_n34 o) -> 0 < wvl ->
  exists F G, full_Fourier o wvl nf false E = Ok F /\ compact_field o wvl nf false false true E = Ok G /\ feq F G.
Proof. intros W I Hq Hr [k Hk] Hw. apply full_compact_vortex; auto. unfold nrel. rewrite Hr. lia. Qed.
(* with the mask scaled in proportion to the wavelength they do not: the full Lyot model scales the Lyot-plane sampling
   and leaves the vertical mask sampling unscaled *)
Theorem C64_scaled_refuted : exists o, well_formed o /\ lyot_like o /\ exists F G, full_Fourier o 4 1 true (ones 1) = Ok F /\ compact_field o 4 1 false true true (ones 1) = Ok G /\ ~ feq F G.
Proof. exists lc11. split; [apply lc11_wf|]. split; [left; reflexivity|]. exact lc11_scaled. Qed.
(* names and flags on which they differ *)
Theorem C64_avc o wvl nf sc ev E : well_formed o -> 0 < wvl -> upper (o_coro o) = "AVC" -> (exists q, o_charge o = ChInt q) ->
  full_Fourier o wvl nf sc E = Raise ValueError /\ exists F, compact_field o wvl nf ev sc true E = Ok F.
Proof.
  intros W Hw Q Hq. split; [now apply full_avc|]. destruct (compact_succeeds o wvl nf ev sc true E W) as (F & EF & _); [|auto|eauto]. right. split; [rewrite Q; right; right; left; reflexivity|auto].
Qed.
Theorem C64_unknown_name o wvl nf sc ev E : well_formed o -> 0 < wvl -> ~ In (upper (o_coro o)) ["LC"; "APLC"; "HLC"; "SPLC"; "FLC"; "VORTEX"; "VC"; "AVC"] ->
  full_Fourier o wvl nf sc E = Raise ValueError /\ compact_field o wvl nf ev sc true E = Raise NameError.
Proof. intros W Hw Q. split; [apply full_unknown; auto; intros I; apply Q; cbn in *; tauto|now apply compact_unknown]. Qed.
Theorem C64_surface_errors o wvl nf sc E : (1 <= o_pad o)%nat -> (sc = true -> o_lambda0 o <> 0) -> o_wfe o = true -> full_Fourier o wvl nf sc E = Raise NameError.
Proof. apply full_wfe. Qed.
Example C64_example : exists F G, full_Fourier (ex_o "SPLC" 1 2 (1/2)) 1 3 false (ones 2) = Ok F /\ compact_field (ex_o "SPLC" 1 2 (1/2)) 1 3 false false true (ones 2) = Ok G /\ feq F G.
Proof. apply C64_models_agree; [apply ex_wf|right; right; right; right; left; reflexivity|discriminate|lra]. Qed.
Example C64_example_vortex : exists F G, full_Fourier (ex_o "vortex" 1 2 0) 1 3 false (ones 2) = Ok F /\ compact_field (ex_o "vortex" 1 2 0) 1 3 false false true (ones 2) = Ok G /\ feq F G.
Proof. apply C64_models_agree_vortex; [apply ex_wf|left; reflexivity|exists 6%Z; reflexivity|reflexivity|exists 0%Z; reflexivity|lra]. Qed.
Example C64_example_names : full_Fourier (ex_o "avc" 1 2 0) 1 1 true (ones 2) = Raise ValueError /\ full_Fourier (with_wfe (ex_o "LC" 1 2 0) true) 1 1 false (ones 2) = Raise NameError.
Proof. split; [apply C64_avc; [exact true|apply ex_wf|lra|reflexivity|exists 6%Z; reflexivity]|apply C64_surface_errors; [cbn; lia|discriminate|reflexivity]]. Qed.

(* C65: the reverse mode of the vortex propagation is the exact adjoint of the forward mode *)
Theorem C65_vortex_adjoint charge radius inVal outVal E F VE VF n : shape E n n -> shape F n n ->
  mft_p2v2p E charge radius inVal outVal false = Ok VE -> mft_p2v2p F charge radius inVal outVal true = Ok VF ->
  inner n n (fpx F) (fpx VE) = inner n n (fpx VF) (fpx E).
Proof. apply vortex_adjoint. Qed.
(* both modes accept every square array *)
Theorem C65_total charge radius inVal outVal rev E : 0 < radius -> 0 < inVal -> 0 < outVal -> frows E = fcols E ->
  exists V, mft_p2v2p E charge radius inVal outVal rev = Ok V /\ frows V = frows E /\ fcols V = fcols E.
Proof.
  intros H1 H2 H3 HE. unfold mft_p2v2p. destruct (Rle_dec radius 0); [lra|]. destruct (Rle_dec inVal 0); [lra|]. destruct (Rle_dec outVal 0); [lra|]. rewrite HE, Nat.eqb_refl. cbn [negb]. eexists. split; [reflexivity|]. split; reflexivity.
Qed.
Theorem C65_linear charge radius inVal outVal rev a b E F PE PF : frows F = frows E -> fcols F = fcols E ->
  mft_p2v2p E charge radius inVal outVal rev = Ok PE -> mft_p2v2p F charge radius inVal outVal rev = Ok PF ->
  exists PC, mft_p2v2p (fcomb a b E F) charge radius inVal outVal rev = Ok PC /\ feq PC (fcomb a b PE PF).
Proof. apply (lin_comb (fun E => mft_p2v2p E charge radius inVal outVal rev)), lin_vortex. Qed.
Example C65_example : exists VE VF, mft_p2v2p (ones 3) 6 1 0.3 5 false = Ok VE /\ mft_p2v2p (mkf 3 3 (fun i _ => RtoC (INR i))) 6 1 0.3 5 true = Ok VF.
Proof. destruct (C65_total 6 1 0.3 5 false (ones 3)) as (V & EV & _); try lra; [reflexivity|]. destruct (C65_total 6 1 0.3 5 true (mkf 3 3 (fun i _ => RtoC (INR i)))) as (W & EW & _); try lra; [reflexivity|]. exists V, W. auto. Qed.
