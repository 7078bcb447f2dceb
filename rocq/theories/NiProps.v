(* C96: the control Jacobian of the normalised intensity. *)
From Verif Require Import Base RBase StrBase UtilModel CBase PropModel PropSpec PropProofs PropProofs2 OptModel OptSpec LinBase OptProofs OptProofs2 OptProofs3 OptProofs4 OptProofs6 SrcModel PokeModel GradModel GradSpec PokeSpec PokeProofs5 PokeProofs7 PokeProofs9 NiModel NiSpec NiProofs NiProofs2 NiProofs3.
Open Scope R_scope.

(* A column is the derivative, for a volt on the actuator, of the field divided by the brightest pixel of the image without
   the focal-plane mask, when that pixel is alone and on the axis.  Exact under the conditions of C71. *)
Theorem C96_column_is_derivative b o st sp w I00 scale M Ein pk nd2 (dm2 : bool) i0 j0 : poke_ready o pk -> ni_ready b o st sp -> lyot_like o ->
  compact_trans o = Ok (RtoC 1) -> (if dm2 then o_use2 o else o_use1 o) = true -> 0 < w -> 0 < I00 ->
  frows M = g_Neta (o_fend o) -> fcols M = g_Nxi (o_fend o) -> pk_dead pk = false ->
  even_size nd2 -> (1 <= nd2 <= o_pad o)%nat -> (dm2 = true -> nd2 = pk_nd pk) ->
  (if dm2 then o_d1 o + o_d12 o = 0 else o_d1 o = 0 /\ o_d12 o = 0) \/ whole_array o pk ->
  on_axis o i0 j0 -> only_maximum o w I00 scale Ein i0 j0 -> unocculted o w I00 scale Ein i0 j0 <> RtoC 0 ->
  exists fields ni col, precomp o w Ein nd2 = Ok fields /\ ni_fields o w I00 scale Ein = Ok ni /\ snd ni = unocculted o w I00 scale Ein i0 j0 /\
    lyot_column_ni b o st sp w I00 scale M fields ni dm2 pk = Ok col /\ length col = mask_count M /\
    forall i j, (i < frows M)%nat -> (j < fcols M)%nat -> fpx M i j = true ->
      exists D, derivative (fun t => normalised (poked_by o dm2 pk t) w I00 scale Ein i j) D /\ nth (mask_rank M i j) col (RtoC 0) = Cmult (RtoC (pk_weight pk)) D.
Proof. exact (column_ni b o st sp w I00 scale M Ein pk nd2 dm2 i0 j0). Qed.
(* The scalar the code subtracts is the derivative of the on-axis field without the mask, short of the transmission t of the
   mask's corner, which the compact model applies to that field (t = 1 unless the coronagraph is an HLC). *)
Theorem C96_peak_jacobian b o st sp w I00 scale Ein pk nd2 (dm2 : bool) i0 j0 t : poke_ready o pk -> ni_ready b o st sp ->
  compact_trans o = Ok t -> (if dm2 then o_use2 o else o_use1 o) = true -> 0 < w -> 0 < I00 ->
  even_size nd2 -> (1 <= nd2 <= o_pad o)%nat -> (dm2 = true -> nd2 = pk_nd pk) ->
  (if dm2 then o_d1 o + o_d12 o = 0 else o_d1 o = 0 /\ o_d12 o = 0) \/ whole_array o pk -> on_axis o i0 j0 ->
  exists fields J, precomp o w Ein nd2 = Ok fields /\ peak_jac b o st sp w I00 fields dm2 pk = Ok J /\
    derivative (fun x => unocculted (poked_by o dm2 pk x) w I00 scale Ein i0 j0) (Cmult t J).
Proof. exact (peak_der b o st sp w I00 scale Ein pk nd2 dm2 i0 j0 t). Qed.
(* not the derivative for an HLC whose mask has another transmission at its corner *)
Theorem C96_hlc_peak_refuted b o st sp w I00 scale Ein pk nd2 (dm2 : bool) i0 j0 t : poke_ready o pk -> ni_ready b o st sp ->
  compact_trans o = Ok t -> t <> RtoC 1 -> (if dm2 then o_use2 o else o_use1 o) = true -> 0 < w -> 0 < I00 ->
  even_size nd2 -> (1 <= nd2 <= o_pad o)%nat -> (dm2 = true -> nd2 = pk_nd pk) ->
  (if dm2 then o_d1 o + o_d12 o = 0 else o_d1 o = 0 /\ o_d12 o = 0) \/ whole_array o pk -> on_axis o i0 j0 ->
  exists fields J, precomp o w Ein nd2 = Ok fields /\ peak_jac b o st sp w I00 fields dm2 pk = Ok J /\
    (J <> RtoC 0 -> ~ derivative (fun x => unocculted (poked_by o dm2 pk x) w I00 scale Ein i0 j0) J).
Proof.
  intros P N Et Nt U Hw HI E2 H2 H3 Hd OA. destruct (peak_der b o st sp w I00 scale Ein pk nd2 dm2 i0 j0 t P N Et U Hw HI E2 H2 H3 Hd OA) as (fields & J & A & B & D). exists fields, J. split; [exact A|]. split; [exact B|]. intros NJ D'.
  destruct D as [D1 D2], D' as [D1' D2']. apply Coquelicot.Derive.is_derive_unique in D1, D2, D1', D2'. apply NJ.
  assert (E : Cmult t J = J) by (apply injective_projections; congruence).
  assert (NZ : Cminus t (RtoC 1) <> RtoC 0) by (intros Q; apply Nt; replace t with (Cplus (Cminus t (RtoC 1)) (RtoC 1)) by ring; rewrite Q; ring).
  replace J with (Cmult (Cinv (Cminus t (RtoC 1))) (Cmult (Cminus t (RtoC 1)) J)) by (field; exact NZ). replace (Cmult (Cminus t (RtoC 1)) J) with (RtoC 0); [ring|]. transitivity (Cminus (Cmult t J) J); [rewrite E; ring|ring].
Qed.
(* the peak is the first of the brightest pixels *)
Theorem C96_peak_is_brightest F p : peak_of F = Ok p -> (exists i j, (i < frows F)%nat /\ (j < fcols F)%nat /\ p = fpx F i j) /\
  forall i j, (i < frows F)%nat -> (j < fcols F)%nat -> Cmod (fpx F i j) <= Cmod p.
Proof.
  assert (G : forall t a, let r := fold_left (fun best v => if Rlt_dec (Cmod best) (Cmod v) then v else best) t a in In r (a :: t) /\ forall x, In x (a :: t) -> Cmod x <= Cmod r).
  { induction t as [|v t IH]; intros a; cbn [fold_left]; cbv zeta.
    - split; [now left|]. intros x [<-|[]]. lra.
    - destruct (Rlt_dec (Cmod a) (Cmod v)) as [L|L].
      + destruct (IH v) as [A B]. split; [now right|]. intros x [<-|Hx]; [|auto]. pose proof (B v (or_introl eq_refl)). lra.
      + destruct (IH a) as [A B]. split; [destruct A as [A|A]; [now left|right; now right]|]. intros x [<-|[<-|Hx]]; [apply B; now left| |apply B; now right]. pose proof (B a (or_introl eq_refl)). lra. }
  intros H. unfold peak_of, first_max in H. pose proof (in_pixels F) as IP. destruct (pixels F) as [|a t]; [discriminate|]. injection H as H. destruct (G t a) as [A B]. rewrite H in A, B. split; [apply IP; exact A|]. intros i j Hi Hj. apply B. apply IP. eauto.
Qed.
(* the controller divides the estimate by the same peak: an exact estimate of the dark hole becomes the normalised field *)
Theorem C96_estimate_normalised o w I00 scale Ein M Eo e : compact_field o w I00 false scale true Ein = Ok Eo -> gather M Eo = Ok e ->
  forall ni, ni_fields o w I00 scale Ein = Ok ni ->
  exists e', ni_estimate o w I00 scale Ein e = Ok e' /\ length e' = length e /\ frows Eo = frows M /\ fcols Eo = fcols M /\
    forall i j, (i < frows M)%nat -> (j < fcols M)%nat -> fpx M i j = true -> nth (mask_rank M i j) e' (RtoC 0) = normalised o w I00 scale Ein i j.
Proof.
  intros E1 E2 ni E3. unfold ni_fields in E3. rewrite E1 in E3. cbn [rbind] in E3. unfold ni_estimate, normalised. rewrite E1. destruct (compact_field o w I00 false scale false Ein) as [U|]; [|discriminate]. cbn [rbind] in *. destruct (peak_of U) as [p|]; [|discriminate]. cbn [rbind]. eexists. split; [reflexivity|]. split; [apply map_length|].
  assert (Q : frows Eo = frows M /\ fcols Eo = fcols M). { unfold gather in E2. destruct (Nat.eqb_spec (frows Eo) (frows M)); [|discriminate]. destruct (Nat.eqb_spec (fcols Eo) (fcols M)); [auto|discriminate]. }
  destruct Q as [Q1 Q2]. split; [exact Q1|]. split; [exact Q2|]. destruct (gather_ok M Eo Q1 Q2) as (g & Eg & Lg & Vg). assert (g = e) by congruence. subst g. intros i j Hi Hj HM. destruct (Vg i j Hi Hj HM) as [V1 V2].
  rewrite (nth_indep _ (RtoC 0) (Cdiv (RtoC 0) p)) by (rewrite map_length, Lg; exact V1). rewrite (map_nth (fun z => Cdiv z p)). now rewrite V2.
Qed.
(* a stop sampled otherwise than the entrance pupil has to be supplied at the resolution of the pupil *)
Theorem C96_needs_stop_at_pupil_resolution b o st m w I00 fields dm2 pk : o_nbeam4 o <> o_nbeam1 o -> peak_jac b o st (mkstops m None) w I00 fields dm2 pk = Raise ValueError.
Proof.
  intros H. unfold peak_jac, ett_undo, lyot_reimaged. destruct (Req_EM_T (o_nbeam4 o) (o_nbeam1 o)); [contradiction|]. unfold relay at 1. destruct (_ =? 1)%Z; reflexivity.
Qed.
(* With inter-pixel centring and an odd number of rotations the stop is rotated about the wrong point: row i of the rotated
   array is row n - i (modulo n) of the stop, where the compact model takes row n - 1 - i. *)
Theorem C96_interpixel_stop_displaced o sp : o_nbeam4 o = o_nbeam1 o -> even_size (o_pad o) -> (1 <= o_pad o)%nat -> frows (sp_mask sp) = o_pad o -> fcols (sp_mask sp) = o_pad o ->
  o_cen o = Interpixel -> (nrel o (o_n23 o + o_n34 o) mod 2 = 1)%Z ->
  exists l p r, lyot_reimaged o sp = Ok l /\ pad_cropf (sp_mask sp) (o_pad o) (o_pad o) = Ok p /\ relay p (nrel o (o_n23 o + o_n34 o)) (o_cen o) = Ok r /\
    (forall i j, (i < o_pad o)%nat -> (j < o_pad o)%nat -> fpx r i j = fpx (sp_mask sp) (o_pad o - 1 - i) (o_pad o - 1 - j)) /\
    (forall i j, (1 <= i < o_pad o)%nat -> (1 <= j < o_pad o)%nat -> fpx l i j = fpx (sp_mask sp) (o_pad o - i) (o_pad o - j)).
Proof.
  intros Hb He Hn M1 M2 Hc Ho. set (n := o_pad o) in *. destruct (crop_in n n (sp_mask sp) He He ltac:(lia) (conj M1 M2)) as (p & Ep & [S1 S2] & V).
  unfold lyot_reimaged. destruct (Req_EM_T (o_nbeam4 o) (o_nbeam1 o)); [|contradiction]. cbn [rbind]. fold n. rewrite Ep. cbn [rbind]. rewrite Hc. unfold relay. rewrite Ho. cbn [Z.eqb Pos.eqb]. do 3 eexists. split; [reflexivity|]. split; [reflexivity|]. split; [reflexivity|].
  split; intros i j Hi Hj.
  - cbn. rewrite S1, S2, V by lia. f_equal; lia.
  - cbn. rewrite S1, S2. unfold roll_ix. rewrite !Z.mod_small by lia. rewrite V by lia. f_equal; lia.
Qed.

(* Non-vacuity: 2 x 2 arrays, rotations between all the pupils, an uneven DM surface; the image has one pixel. *)
Definition g11 : grid2 := mkg 1 1 1 1.
Definition ls2 : field C := mkf 2 2 (fun i j => if (i =? 1)%nat && (j =? 1)%nat then (1/2, 1/3) else RtoC 0).
Definition ni_o : optics :=
  mko 2 true 1 1 1 1 Pixel 0 0 3 1 (1/10) true true (flat 2) (flat 2) (ones 2) None None false None "LC" g22 (mkf 3 2 (fun i j => (INR i, INR j))) None (ChInt 0) 1 1 (1/10) 2 ls2 (fun E => Ok E) g11 g11.
Definition ax2 : list R := map (coord 2 (1/10) Pixel) (seq 0 2).
Definition ni_pk : poked := mkpk 2 1 1 1 1 ax2 ax2 (1/7) (mkf 1 1 (fun _ _ => 1/9)) 2 false.
Definition ni_b : bench := mkb ni_o LFourier (mkf 2 2 (fun _ j => INR j)) (mkf 2 2 (fun i _ => INR i)) [mkstar 0 0 1] 1 0 0 (fun _ => Raise IndexError) (fun _ => Raise IndexError) (fun _ _ => Raise IndexError).
Lemma ni_wf : well_formed ni_o.
Proof. constructor; cbn; auto; try discriminate; try lra; try lia; try (repeat split; cbn; auto; lra || lia). Qed.
Lemma ax2_ok : length ax2 = 2%nat /\ forall k, (k < 2)%nat -> nth k ax2 0 = coord 2 (1/10) Pixel k.
Proof. split; [reflexivity|]. intros k Hk. do 2 (destruct k as [|k]; [reflexivity|]). lia. Qed.
Lemma ni_pk_ready : poke_ready ni_o ni_pk.
Proof. constructor; [exact ni_wf|cbn; unfold even_size; auto|cbn; lia|cbn; split; [lia|reflexivity]|cbn; auto|unfold box_inside; vm_compute; split; split; discriminate|apply ax2_ok|apply ax2_ok|exact I]. Qed.
Lemma ni_rd : ni_ready ni_b ni_o (mkstar 0 0 1) (mkstops ls2 None).
Proof.
  constructor; cbn; auto.
  - unfold even_size. cbn. auto with arith.
  - exists 2%nat. split; [reflexivity|]. split; [lia|]. split; [reflexivity|]. split; [reflexivity|]. intros i j Hi Hj. destruct i as [|[|i]], j as [|[|j]]; try lia; reflexivity.
  - split; [lia|]. intros _ k Hk. destruct k as [|[|k]]; [split; reflexivity|split; reflexivity|lia].
Qed.
Lemma pad22 X : frows X = 2%nat -> fcols X = 2%nat -> exists O, pad_cropf X 2 2 = Ok O /\ frows O = 2%nat /\ fcols O = 2%nat /\ forall i j, (i < 2)%nat -> (j < 2)%nat -> fpx O i j = fpx X i j.
Proof. intros A B. destruct (crop_in 2 2 X eq_refl eq_refl ltac:(lia) (conj A B)) as (O & E & [S1 S2] & V). exists O. repeat split; auto. Qed.
Lemma ni_peak_value : unocculted ni_o 1 1 false (ones 2) 0 0 <> RtoC 0.
Proof.
  unfold unocculted. rewrite compact_field_eq. change (compact_trans ni_o) with (Ok (RtoC 1)). cbn [rbind]. change (fpm_scale ni_o 1 false) with (Ok 1). cbn [rbind].
  unfold compact_EP3, compact_to_P3. cbn [o_pad ni_o o_pupil o_stop1 o_stop2 o_wfe stop_or_ones andb o_n12 o_cen o_d1 o_d12 o_dx2 o_use1 o_use2 o_surf1 o_surf2 o_n23 o_apod orb surf_or_zero].
  destruct (pad22 (ones 2) eq_refl eq_refl) as (p & Ep & P1 & P2 & VP). rewrite Ep. cbn [rbind].
  destruct (bop_sq Cmult p p 2 2 (conj P1 P2) (conj P1 P2)) as (e1 & -> & [A1 A2] & V1). cbn [rbind].
  change (nrel ni_o 1) with 1%Z. unfold relay at 1. cbn [Z.modulo Z.div_eucl Z.pos_div_eucl Z.eqb Pos.eqb]. change (1 mod 2 =? 1)%Z with true. cbv iota. cbn [rbind].
  destruct (Req_EM_T 0 0); [|lra]. cbn [rbind].
  set (r1 := roll2 1 1 (flip2 e1)). assert (R1 : frows r1 = 2%nat /\ fcols r1 = 2%nat) by (split; cbn; auto).
  destruct (imul_sq r1 (ones 2) 2 2 R1 (ones_shape 2)) as (e2 & -> & A3 & V2). cbn [rbind].
  destruct (bop_sq Cmult e2 (ones 2) 2 2 A3 (ones_shape 2)) as (e3 & -> & A4 & V3). cbn [rbind].
  destruct (bop_sq Cmult e3 (phasor 1 (flat 2)) 2 2 A4 ltac:(split; reflexivity)) as (e4 & -> & A5 & V4). cbn [rbind].
  rewrite ptp_0 by (cbn; lra). cbn [rbind].
  destruct (bop_sq Cmult (ones 2) e4 2 2 (ones_shape 2) A5) as (e5 & -> & A6 & V5). cbn [rbind].
  destruct (bop_sq Cmult (ones 2) e5 2 2 (ones_shape 2) A6) as (e6 & -> & A7 & V6). cbn [rbind].
  destruct (bop_sq Cmult e6 (phasor 1 (flat 2)) 2 2 A7 ltac:(split; reflexivity)) as (e7 & -> & A8 & V7). cbn [rbind].
  destruct (Req_EM_T (0 + 0) 0); [|lra]. cbn [rbind]. unfold relay at 1. change (1 mod 2 =? 1)%Z with true. cbv iota. cbn [rbind m_EP3].
  rewrite (from_false ni_o 1 1 (RtoC 1) 1 _ ni_wf). unfold tailn. change (nrel ni_o (o_n34 ni_o)) with 1%Z. change (o_cen ni_o) with Pixel. unfold relay at 1. change (1 mod 2 =? 1)%Z with true. cbv iota. cbn [rbind]. change (o_narr4 ni_o) with 2%nat. change (o_lyot ni_o) with ls2.
  destruct A8 as [A81 A82].
  destruct (pad22 (scal (RtoC 1) (roll2 1 1 (flip2 (roll2 1 1 (flip2 e7))))) A81 A82) as (q & Eq & Q1 & Q2 & VQ). rewrite Eq. cbn [rbind].
  destruct (bop_sq Cmult ls2 q 2 2 ltac:(split; reflexivity) (conj Q1 Q2)) as (e8 & -> & [A9 A10] & V8). cbn [rbind]. unfold to_Fend. change (nrel ni_o (o_nend ni_o)) with 1%Z. change (o_cen ni_o) with Pixel. unfold relay at 1. change (1 mod 2 =? 1)%Z with true. cbv iota. cbn [rbind].
  set (r9 := roll2 1 1 (flip2 e8)).
  destruct (p2f_value r9 (o_fl ni_o) 1 (o_dx4 ni_o) (g_dxi (o_fend ni_o)) (g_Nxi (o_fend ni_o)) (g_deta (o_fend ni_o)) (g_Neta (o_fend ni_o)) Pixel) as (F & -> & F1 & F2 & VF); try (cbn; lra); try discriminate; try (cbn; lia); try (cbn; congruence).
  cbn [rbind]. unfold normalise. destruct (Req_EM_T 1 0); [lra|]. cbn [fmap fpx]. rewrite VF by (cbn; lia). change (frows r9) with (frows e8). change (fcols r9) with (fcols e8). rewrite A9, A10.
  unfold fourier_sum. cbn [csum]. 
  assert (E : forall i j, (i < 2)%nat -> (j < 2)%nat -> fpx r9 i j = fpx e8 i j). { intros i j Hi Hj. unfold r9. cbn [roll2 flip2 fpx frows fcols]. rewrite A9, A10. destruct i as [|[|i]], j as [|[|j]]; try lia; reflexivity. }
  rewrite !E by lia. rewrite !V8 by lia. unfold ls2 at 1 2 3 4. cbn [fpx Nat.eqb andb]. rewrite !VQ by lia.
  assert (E7 : fpx (scal (RtoC 1) (roll2 1 1 (flip2 (roll2 1 1 (flip2 e7))))) 1%nat 1%nat = fpx e7 1%nat 1%nat). { cbn [scal fmap roll2 flip2 fpx frows fcols]. rewrite A81, A82. change (roll_ix 2 1 1) with 0%nat. cbn [Nat.sub]. change (roll_ix 2 1 1) with 0%nat. cbn [Nat.sub]. ring. }
  rewrite E7. rewrite V7, V6, V5, V4, V3, V2 by lia.
  assert (E1 : fpx r1 1%nat 1%nat = RtoC 1). { unfold r1. cbn [roll2 flip2 fpx frows fcols]. rewrite A1, A2. change (roll_ix 2 1 1) with 0%nat. cbn [Nat.sub]. rewrite V1, !VP by lia. cbn [ones fpx]. ring. }
  rewrite E1. cbn [ones fpx phasor fmap]. intros Q.
  assert (NZ : forall x, cis x <> RtoC 0). { intros x H. assert (H2 : abs2 (cis x) = 0) by (rewrite H; unfold abs2; cbn; ring). unfold abs2, cis in H2. cbn in H2. pose proof (sin2_cos2 x) as S. unfold Rsqr in S. lra. }
  assert (MZ : forall x y : C, Cmult x y = RtoC 0 -> x = RtoC 0 \/ y = RtoC 0). { intros x y H. destruct (Ceq_dec x (RtoC 0)); auto. right. transitivity (Cmult (Cinv x) (Cmult x y)); [field; auto|rewrite H; ring]. }
  rewrite sqrt_1 in Q. match type of Q with Cdiv ?a _ = _ => assert (Q' : a = RtoC 0) by (transitivity (Cdiv a (RtoC 1)); [field; intros Z0; injection Z0; lra|exact Q]) end. clear Q. rename Q' into Q.
  apply MZ in Q. destruct Q as [Q|Q].
  - injection Q. intros Q0. cbn in Q0. assert (0 < sqrt (1 / 10 * (1 / 10) * 1 * 1)) by (apply sqrt_lt_R0; lra). lra.
  - match type of Q with ?L = _ => match L with context [cis ?a] => idtac end end.
    repeat match type of Q with context [Cmult (RtoC 0) ?x] => replace (Cmult (RtoC 0) x) with (RtoC 0) in Q by ring end.
    repeat match type of Q with context [Cplus (RtoC 0) ?x] => replace (Cplus (RtoC 0) x) with x in Q by ring end.
    repeat (apply MZ in Q; destruct Q as [Q|Q]); try (injection Q; intros; lra); try (eapply NZ; exact Q).
Qed.
Example C96_example : poke_ready ni_o ni_pk /\ ni_ready ni_b ni_o (mkstar 0 0 1) (mkstops ls2 None) /\ lyot_like ni_o /\ compact_trans ni_o = Ok (RtoC 1) /\
  o_use1 ni_o = true /\ o_use2 ni_o = true /\ pk_dead ni_pk = false /\ even_size (pk_nd ni_pk) /\ (1 <= pk_nd ni_pk <= o_pad ni_o)%nat /\ (o_d1 ni_o = 0 /\ o_d12 ni_o = 0) /\ on_axis ni_o 0 0 /\
  only_maximum ni_o 1 1 false (ones 2) 0 0 /\ unocculted ni_o 1 1 false (ones 2) 0 0 <> RtoC 0.
Proof.
  split; [exact ni_pk_ready|]. split; [exact ni_rd|]. split; [unfold lyot_like; cbn; auto|]. split; [reflexivity|]. split; [reflexivity|]. split; [reflexivity|]. split; [reflexivity|]. split; [reflexivity|]. split; [cbn; lia|]. split; [cbn; auto|].
  split; [unfold on_axis; cbn; repeat split; try lia; unfold coord; cbn; lra|]. split; [|exact ni_peak_value].
  intros k l Hk Hl NE. cbn in Hk, Hl. exfalso. apply NE. f_equal; lia.
Qed.
