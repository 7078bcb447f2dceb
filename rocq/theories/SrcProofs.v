From Verif Require Import Base RBase StrBase UtilModel CBase PropModel PropSpec OptModel OptSpec LinBase OptProofs OptProofs2 OptProofs3 OptProofs4 OptProofs5 SrcModel SrcSpec.
Open Scope R_scope.
(* ---- index of the mask ---- *)
Lemma ilam_many Ns Nw s w : (1 < Ns)%Z -> (1 < Nw)%Z -> ilam_full Ns Nw s w = Ok (wavelength_number Nw s w + (Ns + 1 - 2 * Nw))%Z.
Proof. intros H1 H2. unfold ilam_full, wavelength_number. rewrite (proj2 (Z.ltb_lt _ _) H1), (proj2 (Z.ltb_lt _ _) H2). cbn [andb]. apply (f_equal (@Ok Z)). ring. Qed.
Lemma np_ix_in n i : (0 <= i < n)%Z -> np_ix n i = Some i.
Proof. intros H. unfold np_ix. rewrite (proj2 (Z.leb_le _ _)), (proj2 (Z.ltb_lt _ _)) by lia. reflexivity. Qed.
Lemma np_ix_neg n i : (- n <= i < 0)%Z -> np_ix n i = Some (i + n)%Z.
Proof. intros H. unfold np_ix. destruct (Z.leb_spec 0 i); [lia|]. cbn. rewrite (proj2 (Z.leb_le _ _)), (proj2 (Z.ltb_lt _ _)) by lia. reflexivity. Qed.
Lemma np_ix_out n i : (0 <= n)%Z -> (n <= i \/ i < - n)%Z -> np_ix n i = None.
Proof.
  intros Hn H. unfold np_ix. destruct (Z.leb_spec 0 i), (Z.ltb_spec i n); cbn; try lia; destruct (Z.leb_spec (- n) i), (Z.ltb_spec i 0); cbn; try lia; reflexivity.
Qed.
Lemma np_get_in {A} (l : list A) i x : nth_error l (Z.to_nat i) = Some x -> (0 <= i)%Z -> np_get l i = Ok x.
Proof.
  intros H Hi. unfold np_get. rewrite np_ix_in; [now rewrite H|]. assert (Z.to_nat i < length l)%nat by (apply nth_error_Some; congruence). lia.
Qed.
Lemma np_get_out {A} (l : list A) i : (Z.of_nat (length l) <= i)%Z -> np_get l i = Raise IndexError.
Proof. intros H. unfold np_get. rewrite np_ix_out; [reflexivity|lia|lia]. Qed.
Lemma np_get_neg {A} (l : list A) i : (i < 0)%Z -> (- Z.of_nat (length l) <= i)%Z -> np_get l i = np_get l (i + Z.of_nat (length l))%Z.
Proof. intros H1 H2. unfold np_get. rewrite np_ix_neg by lia. rewrite np_ix_in by lia. reflexivity. Qed.

(* ---- the input field ---- *)
Definition phase (b : bench) (wvl x y : R) (i j : nat) : C := cis ((-1) * (2 * PI * (x * fpx (b_X b) i j + y * fpx (b_Y b) i j)) * b_lambda0 b / wvl).
Lemma phase_add b wvl x y u v i j : Cmult (phase b wvl x y i j) (phase b wvl u v i j) = phase b wvl (x + u) (y + v) i j.
Proof. unfold phase. rewrite <- cis_add. f_equal. unfold Rdiv. ring. Qed.
Lemma bop_same f A B r c : shape A r c -> shape B r c -> exists F, bop f A B = Ok F /\ shape F r c /\ forall i j, (i < r)%nat -> (j < c)%nat -> fpx F i j = f (fpx A i j) (fpx B i j).
Proof.
  intros [A1 A2] [B1 B2]. unfold bop. rewrite A1, A2, B1, B2. unfold bdim. rewrite !Nat.eqb_refl. eexists. split; [reflexivity|]. split; [split; reflexivity|].
  intros i j Hi Hj. cbn. unfold bix. destruct (Nat.eqb_spec r 1), (Nat.eqb_spec c 1); subst; try (replace i with 0%nat by lia); try (replace j with 0%nat by lia); reflexivity.
Qed.
Lemma imul_same A B r c : shape A r c -> shape B r c -> exists F, imul A B = Ok F /\ shape F r c /\ forall i j, (i < r)%nat -> (j < c)%nat -> fpx F i j = Cmult (fpx A i j) (fpx B i j).
Proof.
  intros SA SB. destruct (bop_same Cmult A B r c SA SB) as (F & EF & S & V). exists F. unfold imul. rewrite EF. cbn [rbind]. destruct S as [S1 S2], SA as [A1 A2]. rewrite S1, S2, A1, A2, !Nat.eqb_refl. cbn.
  repeat split; auto.
Qed.
Lemma source_eval b mv wvl nf E0 r c k st x y : shape E0 r c -> coords_fit b r c -> mv_star mv = Some k -> np_get (b_stars b) k = Ok st -> want_off mv x y ->
  let nx := if Req_EM_T nf 0 then b_normx b else 0 in let ny := if Req_EM_T nf 0 then b_normy b else 0 in
  exists F, source_field b mv wvl nf E0 = Ok F /\ shape F r c /\ forall i j, (i < r)%nat -> (j < c)%nat ->
    fpx F i j = Cmult (RtoC (sqrt (st_w st))) (Cmult (phase b wvl (st_xi st + x + nx) (st_eta st + y + ny) i j) (fpx E0 i j)).
Proof.
  intros S (X1 & X2 & Y1 & Y2) Hk Hst (src & Hsrc & HO) nx ny. unfold source_field. rewrite Hk. cbn [attr rbind]. rewrite Hst. cbn [rbind].
  assert (T : forall u v, shape (tilt b u v wvl) r c) by (intros; split; cbn; auto).
  destruct (bop_same Cmult (scal (RtoC (sqrt (st_w st))) (tilt b (st_xi st) (st_eta st) wvl)) E0 r c) as (E1 & EE1 & S1 & V1); [split; cbn; auto|exact S|].
  rewrite EE1. cbn [rbind]. rewrite Hsrc. cbn [attr rbind].
  assert (HE2 : exists E2, (if String.eqb (lower src) "offaxis" then do x0 <- attr (mv_x mv); do y0 <- attr (mv_y mv); imul E1 (tilt b x0 y0 wvl) else Ok E1) = Ok E2 /\ shape E2 r c /\
    forall i j, (i < r)%nat -> (j < c)%nat -> fpx E2 i j = Cmult (RtoC (sqrt (st_w st))) (Cmult (phase b wvl (st_xi st + x) (st_eta st + y) i j) (fpx E0 i j))).
  { destruct HO as [(O1 & O2 & O3)|(O1 & -> & ->)]; rewrite O1.
    - rewrite O2, O3. cbn [attr rbind]. destruct (imul_same E1 (tilt b x y wvl) r c S1 (T x y)) as (E2 & EE2 & S2 & V2). exists E2. split; [exact EE2|]. split; [exact S2|].
      intros i j Hi Hj. rewrite V2, V1 by auto. rewrite <- phase_add. cbn [tilt scal fmap fpx]. fold (phase b wvl x y i j). fold (phase b wvl (st_xi st) (st_eta st) i j). ring.
    - exists E1. split; [reflexivity|]. split; [exact S1|]. intros i j Hi Hj. rewrite V1 by auto. cbn [tilt scal fmap fpx]. rewrite !Rplus_0_r. fold (phase b wvl (st_xi st) (st_eta st) i j). ring. }
  destruct HE2 as (E2 & -> & S2 & V2). cbn [rbind]. unfold nx, ny. destruct (Req_EM_T nf 0).
  - destruct (imul_same E2 (tilt b (b_normx b) (b_normy b) wvl) r c S2 (T _ _)) as (E3 & EE3 & S3 & V3). exists E3. split; [exact EE3|]. split; [exact S3|].
    intros i j Hi Hj. rewrite V3, V2 by auto. rewrite <- (phase_add b wvl (st_xi st + x) (st_eta st + y)). cbn [tilt fpx]. fold (phase b wvl (b_normx b) (b_normy b) i j). ring.
  - exists E2. split; [reflexivity|]. split; [exact S2|]. intros i j Hi Hj. rewrite V2 by auto. rewrite !Rplus_0_r. reflexivity.
Qed.
(* two requests whose total offsets agree differ by the ratio of the amplitudes *)
Lemma source_rel b l' mv mv' wvl nf nf' E0 r c k st st' x y x' y' a : shape E0 r c -> coords_fit b r c ->
  mv_star mv = Some k -> np_get (b_stars b) k = Ok st -> want_off mv x y -> mv_star mv' = Some k -> np_get l' k = Ok st' -> want_off mv' x' y' ->
  sqrt (st_w st') = a * sqrt (st_w st) ->
  st_xi st' + x' + (if Req_EM_T nf' 0 then b_normx b else 0) = st_xi st + x + (if Req_EM_T nf 0 then b_normx b else 0) ->
  st_eta st' + y' + (if Req_EM_T nf' 0 then b_normy b else 0) = st_eta st + y + (if Req_EM_T nf 0 then b_normy b else 0) ->
  req_field (source_field (with_stars b l') mv' wvl nf' E0) (rscal (RtoC a) (source_field b mv wvl nf E0)).
Proof.
  intros S X K1 G1 W1 K2 G2 W2 Ha Hx Hy.
  destruct (source_eval b mv wvl nf E0 r c k st x y S X K1 G1 W1) as (F & EF & [S1 S2] & V).
  destruct (source_eval (with_stars b l') mv' wvl nf' E0 r c k st' x' y' S X K2 G2 W2) as (F' & EF' & [S1' S2'] & V').
  rewrite EF, EF'. cbn. split; [cbn; congruence|]. split; [cbn; congruence|]. intros i j Hi Hj. rewrite S1' in Hi. rewrite S2' in Hj. rewrite V' by auto. cbn [scal fmap fpx]. rewrite V by auto.
  cbn [with_stars b_normx b_normy]. rewrite Hx, Hy, Ha. rewrite RtoC_mult. unfold phase. cbn. ring.
Qed.
(* everything after the source, in either wrapper *)
Definition full_after (b : bench) (fd : fulldata) (mv : modvar) (s w : Z) (wvl nf : R) (E1 : field C) : res (field C) :=
  do z <- attr (mv_zern mv); do E2 <- zern_full b z wvl E1; do o <- hlc_full b fd s w; run_full b o wvl nf E2.
Lemma lin_zern_full b z wvl : lin (zern_full b z wvl).
Proof.
  unfold zern_full. destruct (z =? 1)%Z; [apply lin_id|]. apply lin_const_bind. intros m. apply lin_const_bind. intros c. apply lin_bind; [apply lin_mask_r|apply lin_scal].
Qed.
Lemma lin_run_full b o wvl nf : fourier_layout b -> lin (run_full b o wvl nf).
Proof. intros [E|E]; unfold run_full; rewrite E; apply lin_full. Qed.
Lemma lin_full_after b fd mv s w wvl nf : fourier_layout b -> lin (full_after b fd mv s w wvl nf).
Proof.
  intros L. unfold full_after. apply lin_const_bind. intros z. apply (lin_bind (zern_full b z wvl) (fun E2 => do o <- hlc_full b fd s w; run_full b o wvl nf E2)); [apply lin_zern_full|].
  apply lin_const_bind. intros o. now apply lin_run_full.
Qed.
Definition compact_after (b : bench) (cd : compactdata) (mv : modvar) (ev fpm : bool) (s : Z) (wvl nf : R) (E1 : field C) : res (field C) :=
  do E2 <- zern_compact b (match mv_zern mv with Some z => z | None => 1%Z end) wvl E1;
  do o <- hlc_compact b cd s;
  match b_layout b with
  | LFourier => compact_field o wvl nf ev false fpm E2
  | LFpmScale | LProper => compact_field o wvl nf ev (String.eqb (upper (o_coro (b_o b))) "HLC") fpm E2
  | LUnknown => Raise NameError
  end.
Lemma hlc_compact_down b cd s o : hlc_compact b cd s = Ok o -> o_downsample o = o_downsample (b_o b).
Proof.
  unfold hlc_compact. destruct (String.eqb _ _); [|now intros [= <-]].
  destruct (b_layout b); try discriminate; destruct (cd_cube cd) as [l|]; try discriminate.
  - destruct (np_get l s); [|discriminate]. now intros [= <-].
  - destruct (cd_lut cd s); [|discriminate]. now intros [= <-].
  - destruct (np_get l s); [|discriminate]. now intros [= <-].
  - destruct (np_get l s); [|discriminate]. now intros [= <-].
Qed.
Lemma lin_compact_after b cd mv ev fpm s wvl nf : lin (o_downsample (b_o b)) -> lin (compact_after b cd mv ev fpm s wvl nf).
Proof.
  intros L. unfold compact_after. apply (lin_bind (zern_compact b _ wvl) (fun E2 => do o <- hlc_compact b cd s; _)).
  - unfold zern_compact. destruct (_ =? 1)%Z; [apply lin_id|]. apply lin_const_bind. intros m. apply lin_const_bind. intros c. apply lin_imul.
  - destruct (hlc_compact b cd s) as [o|e] eqn:HO; cbn [rbind]; [|apply lin_raise]. apply hlc_compact_down in HO. destruct (b_layout b); [| | |apply lin_raise]; apply lin_compact; rewrite HO; exact L.
Qed.
Lemma full_rel b l' fd mv mv' n r c k st st' x y x' y' a : fourier_layout b -> full_fields fd r c -> coords_fit b r c -> same_target mv mv' ->
  mv_star mv = Some k -> np_get (b_stars b) k = Ok st -> want_off mv x y -> mv_star mv' = Some k -> np_get l' k = Ok st' -> want_off mv' x' y' ->
  sqrt (st_w st') = a * sqrt (st_w st) -> st_xi st' + x' = st_xi st + x -> st_eta st' + y' = st_eta st + y ->
  req_field (full_wrapper (with_stars b l') fd mv' n) (rscal (RtoC a) (full_wrapper b fd mv n)).
Proof.
  intros L HE X (T1 & T2 & T3 & T4) K1 G1 W1 K2 G2 W2 Ha Hx Hy. unfold full_wrapper. rewrite T1, T2, T3, T4, K1, K2. cbn [attr rbind with_stars b_stars]. rewrite G1, G2. cbn [rbind].
  set (X1 := if n then _ else Ok 0). destruct X1 as [nf|e]; [cbn [rbind]|reflexivity].
  set (X2 := match mv_wvl mv with Some _ => _ | None => _ end). destruct X2 as [wvl|e]; [cbn [rbind]|reflexivity].
  destruct (attr (mv_wps mv)) as [w|e]; [cbn [rbind]|reflexivity]. destruct (attr (mv_sbp mv)) as [s|e]; [cbn [rbind]|reflexivity].
  destruct (np_get2 (fd_E fd) s w) as [E0|e] eqn:GE; [cbn [rbind]|reflexivity].
  apply (rscal_bind (RtoC a) (source_field b mv wvl nf E0) (source_field (with_stars b l') mv' wvl nf E0) (full_after b fd mv s w wvl nf)); [now apply lin_full_after|].
  eapply source_rel; eauto; rewrite ?Hx, ?Hy; reflexivity.
Qed.
Lemma compact_rel b l' cd mv mv' n ev fpm r c k st st' x y x' y' a : lin (o_downsample (b_o b)) -> compact_fields cd r c -> coords_fit b r c -> same_target mv mv' ->
  mv_star mv = Some k -> np_get (b_stars b) k = Ok st -> want_off mv x y -> mv_star mv' = Some k -> np_get l' k = Ok st' -> want_off mv' x' y' ->
  sqrt (st_w st') = a * sqrt (st_w st) -> st_xi st' + x' = st_xi st + x -> st_eta st' + y' = st_eta st + y ->
  req_field (compact_wrapper (with_stars b l') cd mv' n ev fpm) (rscal (RtoC a) (compact_wrapper b cd mv n ev fpm)).
Proof.
  intros L HE X (T1 & T2 & T3 & T4) K1 G1 W1 K2 G2 W2 Ha Hx Hy. unfold compact_wrapper. rewrite T1, T3, T4, K1, K2. cbn [attr rbind with_stars b_stars]. rewrite G1, G2. cbn [rbind].
  set (X1 := if n then _ else Ok 0). destruct X1 as [nf|e]; [cbn [rbind]|reflexivity].
  set (X2 := match mv_wvl mv with Some _ => _ | None => _ end). destruct X2 as [wvl|e]; [cbn [rbind]|reflexivity].
  destruct (attr (mv_sbp mv)) as [s|e]; [cbn [rbind]|reflexivity].
  destruct (np_get (cd_E cd) s) as [E0|e] eqn:GE; [cbn [rbind]|reflexivity].
  apply (rscal_bind (RtoC a) (source_field b mv wvl nf E0) (source_field (with_stars b l') mv' wvl nf E0) (compact_after b cd mv ev fpm s wvl nf)); [now apply lin_compact_after|].
  eapply source_rel; eauto; rewrite ?Hx, ?Hy; reflexivity.
Qed.
Lemma hlc_full_coro b fd s w o : hlc_full b fd s w = Ok o -> o_coro o = o_coro (b_o b).
Proof.
  unfold hlc_full. destruct (String.eqb _ _); [|now intros [= <-]]. destruct (ilam_full _ _ _ _) as [il|]; [cbn [rbind]|discriminate].
  destruct (b_layout b), (fd_cube fd) as [l|]; try discriminate; try (now intros [= <-]);
    first [destruct (np_get l il); [|discriminate]; now intros [= <-] | destruct (fd_lut fd s w); [|discriminate]; now intros [= <-]].
Qed.
Lemma hlc_compact_coro b cd s o : hlc_compact b cd s = Ok o -> o_coro o = o_coro (b_o b).
Proof.
  unfold hlc_compact. destruct (String.eqb _ _); [|now intros [= <-]].
  destruct (b_layout b); try discriminate; destruct (cd_cube cd) as [l|]; try discriminate.
  - destruct (np_get l s); [|discriminate]. now intros [= <-].
  - destruct (cd_lut cd s); [|discriminate]. now intros [= <-].
  - destruct (np_get l s); [|discriminate]. now intros [= <-].
  - destruct (np_get l s); [|discriminate]. now intros [= <-].
Qed.
Lemma scaled_req c x y : (forall F, x = Ok F -> exists F0, y = Ok F0 /\ scaled c F F0) -> forall F, x = Ok F -> req_field y (rscal c x).
Proof. intros H F EF. destruct (H F EF) as (F0 & -> & S1 & S2 & V). rewrite EF. cbn. split; [exact S1|]. split; [exact S2|]. intros i j Hi Hj. cbn in *. apply V; congruence. Qed.
Lemma req_scaled c x y F : req_field y (rscal c x) -> x = Ok F -> exists F0, y = Ok F0 /\ scaled c F F0.
Proof. intros H ->. destruct y as [F0|]; [|destruct H]. exists F0. split; [reflexivity|]. destruct H as (S1 & S2 & V). cbn in *. split; [auto|]. split; [auto|]. intros i j Hi Hj. apply V; congruence. Qed.
Lemma full_after_norm b fd mv s w wvl n E F : fourier_layout b -> 0 < n -> is_vortex (b_o b) = false -> full_after b fd mv s w wvl n E = Ok F ->
  exists F0, full_after b fd mv s w wvl 0 E = Ok F0 /\ scaled (RtoC (sqrt n)) F F0.
Proof.
  intros L Hn V. unfold full_after. destruct (attr (mv_zern mv)) as [z|]; [cbn [rbind]|discriminate]. destruct (zern_full b z wvl E) as [E2|]; [cbn [rbind]|discriminate].
  destruct (hlc_full b fd s w) as [o|] eqn:HO; [cbn [rbind]|discriminate]. apply hlc_full_coro in HO. assert (V' : is_vortex o = false) by (unfold is_vortex in *; now rewrite HO).
  unfold run_full. destruct L as [-> | ->]; apply full_norm0; auto.
Qed.
Lemma compact_after_norm b cd mv ev fpm s wvl n E F : 0 < n -> is_vortex (b_o b) = false \/ fpm = false -> compact_after b cd mv ev fpm s wvl n E = Ok F ->
  exists F0, compact_after b cd mv ev fpm s wvl 0 E = Ok F0 /\ scaled (RtoC (sqrt n)) F F0.
Proof.
  intros Hn V. unfold compact_after. destruct (zern_compact b _ wvl E) as [E2|]; [cbn [rbind]|discriminate].
  destruct (hlc_compact b cd s) as [o|] eqn:HO; [cbn [rbind]|discriminate]. apply hlc_compact_coro in HO. assert (V' : is_vortex o = false \/ fpm = false) by (unfold is_vortex in *; now rewrite HO).
  destruct (b_layout b); try discriminate; apply compact_norm0; auto.
Qed.
Lemma full_unnorm b l' fd mv r c k st s w n x y F : fourier_layout b -> is_vortex (b_o b) = false -> full_fields fd r c -> coords_fit b r c ->
  mv_star mv = Some k -> np_get (b_stars b) k = Ok st -> np_get l' k = Ok (mkstar (st_xi st + b_normx b) (st_eta st + b_normy b) (st_w st)) -> want_off mv x y ->
  mv_sbp mv = Some s -> mv_wps mv = Some w -> np_get2 (fd_I00 fd) s w = Ok n -> 0 < n ->
  full_wrapper (with_stars b l') fd mv true = Ok F -> exists F0, full_wrapper b fd mv false = Ok F0 /\ scaled (RtoC (sqrt n)) F F0.
Proof.
  intros L V HE X K1 G1 G2 W Hs Hw Hn Pn. unfold full_wrapper. rewrite K1, Hs, Hw. cbn [attr rbind with_stars b_stars]. rewrite Hn, G1, G2. cbn [rbind].
  set (X2 := match mv_wvl mv with Some _ => _ | None => _ end). destruct X2 as [wvl|e]; [cbn [rbind]|discriminate].
  destruct (np_get2 (fd_E fd) s w) as [E0|e] eqn:GE; [cbn [rbind]|discriminate].
  change (with_stars b l') with (with_stars b l'). intros EF.
  assert (HS : req_field (source_field (with_stars b l') mv wvl n E0) (rscal (RtoC 1) (source_field b mv wvl 0 E0))).
  { eapply source_rel; eauto; [cbn; ring| |]; cbn; destruct (Req_EM_T 0 0) as [_|N]; try (now destruct N); destruct (Req_EM_T n 0); try lra. }
  destruct (source_field (with_stars b l') mv wvl n E0) as [E1'|]; [|discriminate]. destruct (source_field b mv wvl 0 E0) as [E1|]; [|destruct HS]. cbn [rbind] in *.
  assert (QE : feq E1' E1) by (destruct HS as (S1 & S2 & S3); cbn in *; split; [auto|]; split; [auto|]; intros i j Hi Hj; rewrite S3 by auto; ring).
  change (full_after (with_stars b l') fd mv s w wvl n E1' = Ok F) in EF. change (full_after b fd mv s w wvl n E1' = Ok F) in EF.
  change (exists F0, full_after b fd mv s w wvl 0 E1 = Ok F0 /\ scaled (RtoC (sqrt n)) F F0).
  destruct (full_after_norm b fd mv s w wvl n E1' F L Pn V EF) as (F1 & EF1 & S1 & S2 & S3).
  pose proof (lin_feq _ _ _ (lin_full_after b fd mv s w wvl 0 L) QE) as Q. rewrite EF1 in Q. destruct (full_after b fd mv s w wvl 0 E1) as [F0|]; [|destruct Q]. exists F0. split; [reflexivity|].
  destruct Q as (Q1 & Q2 & Q3). split; [congruence|]. split; [congruence|]. intros i j Hi Hj. rewrite <- S3 by auto. symmetry. apply Q3; congruence.
Qed.
Lemma wrappers_agree b fd cd mv s w n wvl E r c k st x y z : b_layout b = LFourier -> well_formed (b_o b) -> lyot_like (b_o b) -> upper (o_coro (b_o b)) <> "HLC"%string -> 0 < wvl ->
  same_data b fd cd mv s w n wvl E -> shape E r c -> coords_fit b r c -> mv_star mv = Some k -> np_get (b_stars b) k = Ok st -> want_off mv x y -> mv_zern mv = Some z ->
  (z <> 1%Z -> exists m q, b_zern b z = Ok m /\ shape m r c /\ b_zcoef b z = Ok q) ->
  exists F G, full_wrapper b fd mv true = Ok F /\ compact_wrapper b cd mv true false true = Ok G /\ scaled (if (z =? 1)%Z then RtoC 1 else Ci) F G.
Proof.
  intros LF W LL NH Hw [D1 D2 D3 D4 D5 D6 D7 D8 D9] S X K G WO Hz HZ.
  unfold full_wrapper, compact_wrapper. rewrite D1, D2, D3, Hz, K. cbn [attr rbind]. rewrite D4, D5, D6, D7, D8, D9, G. cbn [rbind].
  destruct (source_eval b mv wvl n E r c k st x y S X K G WO) as (E1 & -> & S1 & _). cbn [rbind].
  unfold hlc_full, hlc_compact. rewrite (proj2 (String.eqb_neq _ _) NH). unfold run_full. rewrite LF.
  assert (HH : forall E, exists F G, full_Fourier (b_o b) wvl n false E = Ok F /\ compact_field (b_o b) wvl n false false true E = Ok G /\ feq F G).
  { intros E'. apply full_compact_equal; auto. intros H. contradiction. }
  unfold zern_full, zern_compact. destruct (Z.eqb_spec z 1) as [Z1|Z1].
  - cbn [rbind]. destruct (HH E1) as (F & H & EF & EH & Q1 & Q2 & Q3). exists F, H. split; [exact EF|]. split; [exact EH|]. split; [congruence|]. split; [congruence|]. intros i j Hi Hj. rewrite <- Q3 by auto. ring.
  - destruct (HZ Z1) as (m & q & Em & Sm & Eq). rewrite Em, Eq. cbn [rbind].
    destruct (bop_same Cmult E1 m r c S1 Sm) as (P & -> & SP & VP). cbn [rbind].
    destruct (imul_same E1 (scal (Cmult Ci (RtoC (2 * PI / wvl * q))) m) r c S1) as (P' & -> & SP' & VP'); [destruct Sm; split; cbn; auto|]. cbn [rbind].
    set (Ef := scal (RtoC (2 * PI / wvl * q)) P).
    assert (Q : feq P' (scal Ci Ef)).
    { destruct SP as [P1 P2], SP' as [P1' P2']. split; [cbn; congruence|]. split; [cbn; congruence|]. intros i j Hi Hj. rewrite VP' by congruence. unfold Ef. cbn [scal fmap fpx]. rewrite VP by congruence. ring. }
    destruct (HH Ef) as (F & H0 & EF & _). exists F.
    destruct (HH P') as (F' & H & EF' & EH & QH). exists H. split; [exact EF|]. split; [exact EH|].
    pose proof (lin_feq _ _ _ (lin_full (b_o b) wvl n false) Q) as R1. pose proof (lin_rscal _ Ci Ef (lin_full (b_o b) wvl n false)) as R2. cbv beta in R1, R2.
    pose proof (req_trans _ _ _ R1 R2) as R3. rewrite EF, EF' in R3. cbn in R3. destruct R3 as (A1 & A2 & A3), QH as (B1 & B2 & B3). cbn in A1, A2. split; [congruence|]. split; [congruence|].
    intros i j Hi Hj. rewrite <- B3 by congruence. rewrite A3 by congruence. reflexivity.
Qed.
