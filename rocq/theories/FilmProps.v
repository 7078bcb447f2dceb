(* C74: complex transmission of the coatings of a mask (thinfilm.calc_complex_trans_matrix, thinfilm.calc_complex_occulter). *)
From Verif Require Import Base RBase StrBase CBase PropModel OptModel ThinModel ThinSpec ThinProofs ThinProofs2 ThinProofs5 ThinProofs6 ThinProps FilmModel FilmSpec FilmProofs FilmProofs2.
Open Scope R_scope.
(* the names accepted; everything else is a ValueError.  'FUSEDSILICA' and 'FUSED_SILICA' are not among them *)
Definition substrate_known (s : string) : Prop := In (upper s) ["FS"; "FUSEDSILICA, FUSED_SILICA"; "N-BK7"; "NBK7"; "BK7"]%string.
Definition dielectric_known (s : string) : Prop := In (lower s) ["pmgi"; "mgf2"]%string.
Definition metal_known (s : string) : Prop := In (lower s) ["nickel"; "ni"]%string.
Definition known (a : trans_in) : Prop := substrate_known (ti_sub a) /\ dielectric_known (ti_diel a) /\ metal_known (ti_metal a).
Definition in_range (a : trans_in) : Prop := 0 < ti_lam a /\ 0 <= ti_aoi a /\ 0 <= ti_tTi a.
Lemma sub_cases s um : (substrate_known s /\ exists n, substrate_index s um = Ok n) \/ (~ substrate_known s /\ substrate_index s um = Raise ValueError).
Proof.
  unfold substrate_known, substrate_index. destruct (str_in (upper s) ["FS"; "FUSEDSILICA, FUSED_SILICA"]%string) eqn:A.
  - left. apply str_in_iff in A. cbn [In] in A |- *. split; [tauto|eauto].
  - destruct (str_in (upper s) ["N-BK7"; "NBK7"; "BK7"]%string) eqn:B.
    + left. apply str_in_iff in B. cbn [In] in B |- *. split; [tauto|eauto].
    + right. split; [|reflexivity]. intros H. assert (N1 : ~ In (upper s) ["FS"; "FUSEDSILICA, FUSED_SILICA"]%string) by (rewrite <- str_in_iff; congruence). assert (N2 : ~ In (upper s) ["N-BK7"; "NBK7"; "BK7"]%string) by (rewrite <- str_in_iff; congruence). cbn [In] in *. tauto.
Qed.
Lemma diel_cases tb s um nm : (dielectric_known s /\ exists n, dielectric_index tb s um nm = Ok n) \/ (~ dielectric_known s /\ dielectric_index tb s um nm = Raise ValueError).
Proof.
  unfold dielectric_known, dielectric_index. destruct (str_in (lower s) ["pmgi"]%string) eqn:A.
  - left. apply str_in_iff in A. cbn [In] in A |- *. split; [tauto|eauto].
  - destruct (str_in (lower s) ["mgf2"]%string) eqn:B.
    + left. apply str_in_iff in B. cbn [In] in B |- *. split; [tauto|eauto].
    + right. split; [|reflexivity]. intros H. assert (N1 : ~ In (lower s) ["pmgi"]%string) by (rewrite <- str_in_iff; congruence). assert (N2 : ~ In (lower s) ["mgf2"]%string) by (rewrite <- str_in_iff; congruence). cbn [In] in *. tauto.
Qed.
Lemma metal_cases tb s nm : (metal_known s /\ metal_index tb s nm = Ok (row_index (ni_rows tb) nm)) \/ (~ metal_known s /\ metal_index tb s nm = Raise ValueError).
Proof.
  unfold metal_known, metal_index. destruct (str_in (lower s) ["nickel"; "ni"]%string) eqn:A.
  - left. apply str_in_iff in A. auto.
  - right. split; [|reflexivity]. rewrite <- str_in_iff. congruence.
Qed.
(* the table has one row per dielectric thickness and one column per metal thickness, for every accepted input *)
Theorem C74_table_shape tb a tm td : in_range a -> known a -> (ti_pol a = 0 \/ ti_pol a = 1 \/ ti_pol a = 2)%Z ->
  exists m, calc_trans tb a tm td = Ok m /\ length m = length td /\ forall j, (j < length td)%nat -> length (nth j m nil) = length tm.
Proof.
  intros (R1 & R2 & R3) (K1 & K2 & K3) P. unfold calc_trans. destruct (Rle_dec (ti_lam a) 0); [lra|]. destruct (Rlt_dec (ti_aoi a) 0); [lra|]. destruct (Rlt_dec (ti_tTi a) 0); [lra|].
  destruct (sub_cases (ti_sub a) (ti_lam a * 1000000)) as [[_ (ns & ->)]|[N _]]; [|contradiction]. cbn [rbind].
  destruct (diel_cases tb (ti_diel a) (ti_lam a * 1000000) (ti_lam a * 1000000000)) as [[_ (nd & ->)]|[N _]]; [|contradiction]. cbn [rbind].
  destruct (metal_cases tb (ti_metal a) (ti_lam a * 1000000000)) as [[_ ->]|[N _]]; [|contradiction]. cbn [rbind].
  match goal with |- exists m, mapr ?f td = Ok m /\ _ => set (F := f) end.
  assert (E : exists m, mapr F td = Ok m). { apply mapr_all. intros x _. unfold F. apply mapr_all. intros y _. apply entry_ok; auto. apply Rmult_le_pos; [lra|]. pose proof PI_RGT_0. lra. }
  destruct E as (m & E). exists m. split; [exact E|]. split; [exact (mapr_len _ _ _ E)|]. intros j Hj. pose proof (mapr_nth F td m 0 nil j E Hj) as EJ. unfold F in EJ. exact (mapr_len _ _ _ EJ).
Qed.
(* what is refused *)
Theorem C74_refuses tb a tm td :
  (~ in_range a -> calc_trans tb a tm td = Raise TypeError) /\
  (in_range a -> ~ known a -> calc_trans tb a tm td = Raise ValueError) /\
  (in_range a -> known a -> tm <> nil -> td <> nil -> ~ (ti_pol a = 0 \/ ti_pol a = 1 \/ ti_pol a = 2)%Z -> calc_trans tb a tm td = Raise ValueError).
Proof.
  unfold calc_trans, in_range, known. destruct (Rle_dec (ti_lam a) 0) as [A|A]; [split; [reflexivity|split; lra]|]. destruct (Rlt_dec (ti_aoi a) 0) as [B|B]; [split; [reflexivity|split; lra]|]. destruct (Rlt_dec (ti_tTi a) 0) as [D|D]; [split; [reflexivity|split; lra]|].
  split; [intros H; exfalso; apply H; lra|].
  destruct (sub_cases (ti_sub a) (ti_lam a * 1000000)) as [[K1 (ns & ->)]|[N ->]]; cbn [rbind]; [|split; [reflexivity|tauto]].
  destruct (diel_cases tb (ti_diel a) (ti_lam a * 1000000) (ti_lam a * 1000000000)) as [[K2 (nd & ->)]|[N ->]]; cbn [rbind]; [|split; [reflexivity|tauto]].
  destruct (metal_cases tb (ti_metal a) (ti_lam a * 1000000000)) as [[K3 ->]|[N ->]]; cbn [rbind]; [|split; [reflexivity|tauto]].
  split; [tauto|]. intros _ _ N1 N2 P. destruct td as [|x td]; [congruence|]. destruct tm as [|y tm]; [congruence|]. cbn [mapr]. unfold trans_entry at 1.
  destruct (Z.eqb_spec (ti_pol a) 2) as [E|E]; [tauto|]. destruct (Z.eqb_spec (ti_pol a) 0) as [E0|E0]; [tauto|]. destruct (Z.eqb_spec (ti_pol a) 1) as [E1|E1]; [tauto|]. reflexivity.
Qed.
Lemma aoi_sin aoi : 0 <= aoi < 90 -> 0 <= aoi * (PI / 180) /\ Rabs (sin (aoi * (PI / 180))) < 1.
Proof.
  intros H. pose proof PI_RGT_0 as P. set (x := aoi * (PI / 180)). assert (X : 0 <= x < PI / 2) by (unfold x; split; [apply Rmult_le_pos; lra|nra]). split; [lra|].
  rewrite Rabs_right by (apply Rle_ge; apply sin_ge_0; lra). rewrite <- sin_PI2. apply sin_increasing_1; lra.
Qed.
Lemma calc_entries tb a tm td m : absorber (ni_rows tb) -> absorber (mgf2_rows tb) -> optical (ti_lam a) -> 0 <= ti_aoi a < 90 -> calc_trans tb a tm td = Ok m ->
  exists ns nd nm nt, 1 < ns /\ good nd /\ good nm /\ good nt /\ substrate_index (ti_sub a) (ti_lam a * 1000000) = Ok ns /\ 0 <= ti_tTi a /\
    (forall t', 0 <= t' -> forall d tm td, calc_trans tb (mkti (ti_sub a) (ti_metal a) (ti_diel a) (ti_lam a) (ti_aoi a) t' d (ti_pol a) (ti_opd a)) tm td =
       mapr (fun dpm => mapr (fun dni => trans_entry ns nd nm nt (ti_lam a) (ti_aoi a * (PI / 180)) t' d (ti_pol a) (ti_opd a) dpm dni) tm) td).
Proof.
  intros A1 A2 O H90 H. assert (L : 0 < ti_lam a) by (destruct O; lra). unfold calc_trans in H. destruct (Rle_dec (ti_lam a) 0); [discriminate|]. destruct (Rlt_dec (ti_aoi a) 0); [discriminate|]. destruct (Rlt_dec (ti_tTi a) 0); [discriminate|].
  destruct (substrate_index (ti_sub a) (ti_lam a * 1000000)) as [ns|] eqn:E1; [|discriminate]. cbn [rbind] in H. destruct (dielectric_index tb (ti_diel a) (ti_lam a * 1000000) (ti_lam a * 1000000000)) as [nd|] eqn:E2; [|discriminate]. cbn [rbind] in H.
  destruct (metal_index tb (ti_metal a) (ti_lam a * 1000000000)) as [nm|] eqn:E3; [|discriminate]. cbn [rbind] in H.
  exists ns, (absorbing nd), (absorbing nm), (absorbing (row_index ti_rows (ti_lam a * 1000000000))). split; [apply (sub_good (ti_sub a) (ti_lam a * 1000000)); auto; destruct O; lra|]. split; [apply (diel_good tb (ti_diel a) (ti_lam a * 1000000) (ti_lam a * 1000000000)); auto; lra|].
  split; [|split; [|split; [reflexivity|split; [lra|]]]].
  - unfold metal_index in E3. destruct (str_in _ _); [|discriminate]. injection E3 as <-. now apply row_good.
  - apply row_good, ti_absorbs.
  - intros t' Ht' d tm' td'. unfold calc_trans. cbn [ti_sub ti_metal ti_diel ti_lam ti_aoi ti_tTi ti_d0 ti_pol ti_opd]. destruct (Rle_dec (ti_lam a) 0); [lra|]. destruct (Rlt_dec (ti_aoi a) 0); [lra|]. destruct (Rlt_dec t' 0); [lra|]. rewrite E1, E2, E3. reflexivity.
Qed.
Lemma same_a a : mkti (ti_sub a) (ti_metal a) (ti_diel a) (ti_lam a) (ti_aoi a) (ti_tTi a) (ti_d0 a) (ti_pol a) (ti_opd a) = a. Proof. now destruct a. Qed.
(* no coating transmits and reflects more light than falls on it; for pol = 2 (mean amplitude of the two polarizations) too *)
Theorem C74_no_gain tb a tm td m row t r : absorber (ni_rows tb) -> absorber (mgf2_rows tb) -> optical (ti_lam a) -> 0 <= ti_aoi a < 90 ->
  (forall x, In x tm -> 0 <= x) -> (forall x, In x td -> 0 <= x) -> calc_trans tb a tm td = Ok m -> In row m -> In (t, r) row -> abs2 t + abs2 r <= 1.
Proof.
  intros A1 A2 O H90 P1 P2 H I1 I2. destruct (calc_entries tb a tm td m A1 A2 O H90 H) as (ns & nd & nm & nt & G1 & G2 & G3 & G4 & _ & T & F). specialize (F (ti_tTi a) T (ti_d0 a) tm td). rewrite same_a, H in F. symmetry in F.
  destruct (mapr_in _ _ _ _ F I1) as (x & Ix & Ex). destruct (mapr_in _ _ _ _ Ex I2) as (y & Iy & Ey). destruct (aoi_sin _ H90) as [S1 S2].
  exact (entry_bound ns nd nm nt (ti_lam a) (ti_aoi a * (PI / 180)) G1 G2 G3 G4 S2 (ti_tTi a) (ti_d0 a) (ti_pol a) (ti_opd a) x y t r T (P2 x Ix) (P1 y Iy) Ey).
Qed.
(* moving the reference plane by dl multiplies every transmission by one and the same phase, and every reflection by its square *)
Theorem C74_reference_plane tb a tm td m dl j i t r : absorber (ni_rows tb) -> absorber (mgf2_rows tb) -> optical (ti_lam a) -> 0 <= ti_aoi a < 90 ->
  (forall x, In x tm -> 0 <= x) -> (forall x, In x td -> 0 <= x) -> calc_trans tb a tm td = Ok m ->
  let a' := mkti (ti_sub a) (ti_metal a) (ti_diel a) (ti_lam a) (ti_aoi a) (ti_tTi a) (ti_d0 a + dl) (ti_pol a) (ti_opd a) in
  let s := if ti_opd a then - 1 else 1 in let k := normal_k (ti_lam a) (ti_aoi a) in
  exists m', calc_trans tb a' tm td = Ok m' /\ ((j < length td)%nat -> (i < length tm)%nat -> nth i (nth j m nil) (RtoC 0, RtoC 0) = (t, r) ->
    nth i (nth j m' nil) (RtoC 0, RtoC 0) = (Cmult (cis (s * (k * dl))) t, Cmult (cis (s * (2 * k * dl))) r)).
Proof.
  intros A1 A2 O H90 P1 P2 H a' s k. destruct (calc_entries tb a tm td m A1 A2 O H90 H) as (ns & nd & nm & nt & G1 & G2 & G3 & G4 & _ & T & F).
  pose proof (F (ti_tTi a) T (ti_d0 a) tm td) as F0. rewrite same_a, H in F0. symmetry in F0. pose proof (F (ti_tTi a) T (ti_d0 a + dl) tm td) as F1. fold a' in F1. destruct (aoi_sin _ H90) as [S1 S2]. assert (L : 0 < ti_lam a) by (destruct O; lra).
  assert (E : exists m', calc_trans tb a' tm td = Ok m').
  { rewrite F1. apply mapr_all. intros x Hx. apply mapr_all. intros y Hy.
    destruct (mapr_in_f _ _ _ x F0 Hx) as (row & Erow). destruct (mapr_in_f _ _ _ y Erow Hy) as ([t0 r0] & E0).
    pose proof (entry_ref ns nd nm nt (ti_lam a) (ti_aoi a * (PI / 180)) G1 G2 G3 G4 L S1 S2 (ti_tTi a) (ti_d0 a) dl (ti_pol a) (ti_opd a) x y t0 r0 T (P2 x Hx) (P1 y Hy) E0) as E1. cbv zeta in E1. eauto. }
  destruct E as (m' & E). exists m'. split; [exact E|]. intros Hj Hi EN. rewrite F1 in E.
  pose proof (mapr_nth _ td m 0 nil j F0 Hj) as Ej. pose proof (mapr_nth _ tm _ 0 (RtoC 0, RtoC 0) i Ej Hi) as Ei. cbv beta in Ei. rewrite EN in Ei.
  pose proof (mapr_nth _ td m' 0 nil j E Hj) as Ej'. pose proof (mapr_nth _ tm _ 0 (RtoC 0, RtoC 0) i Ej' Hi) as Ei'. cbv beta in Ei'.
  pose proof (entry_ref ns nd nm nt (ti_lam a) (ti_aoi a * (PI / 180)) G1 G2 G3 G4 L S1 S2 (ti_tTi a) (ti_d0 a) dl (ti_pol a) (ti_opd a) _ _ t r T (P2 _ (nth_In _ _ Hj)) (P1 _ (nth_In _ _ Hi)) Ei) as E1. cbv zeta in E1. rewrite Ei' in E1. injection E1 as E1. exact E1.
Qed.
(* each entry of the table is the answer for its own pair of thicknesses *)
Theorem C74_entrywise tb a tm td m j i : calc_trans tb a tm td = Ok m -> (j < length td)%nat -> (i < length tm)%nat ->
  calc_trans tb a [nth i tm 0] [nth j td 0] = Ok [[nth i (nth j m nil) (RtoC 0, RtoC 0)]].
Proof.
  intros H Hj Hi. unfold calc_trans in *. destruct (Rle_dec (ti_lam a) 0); [discriminate|]. destruct (Rlt_dec (ti_aoi a) 0); [discriminate|]. destruct (Rlt_dec (ti_tTi a) 0); [discriminate|].
  destruct (substrate_index (ti_sub a) (ti_lam a * 1000000)) as [ns|]; [|discriminate]. cbn [rbind] in *. destruct (dielectric_index tb (ti_diel a) (ti_lam a * 1000000) (ti_lam a * 1000000000)) as [nd|]; [|discriminate]. cbn [rbind] in *.
  destruct (metal_index tb (ti_metal a) (ti_lam a * 1000000000)) as [nm|]; [|discriminate]. cbn [rbind] in *. pose proof (mapr_nth _ td m 0 nil j H Hj) as Ej. pose proof (mapr_nth _ tm _ 0 (RtoC 0, RtoC 0) i Ej Hi) as Ei. cbv beta in Ei. cbn [mapr]. rewrite Ei. reflexivity.
Qed.
(* titanium is laid under metal only: where the metal is thinner than 1e-10 m its thickness has no effect *)
Theorem C74_no_titanium_without_metal tb a tm td t' : (forall x, In x tm -> x < 1 / 10000000000) -> 0 <= ti_tTi a -> 0 <= t' -> calc_trans tb (with_tTi a t') tm td = calc_trans tb a tm td.
Proof.
  intros Hm T1 T2. unfold calc_trans, with_tTi. cbn [ti_sub ti_metal ti_diel ti_lam ti_aoi ti_tTi ti_d0 ti_pol ti_opd]. destruct (Rle_dec (ti_lam a) 0); [reflexivity|]. destruct (Rlt_dec (ti_aoi a) 0); [reflexivity|]. destruct (Rlt_dec t' 0); [lra|]. destruct (Rlt_dec (ti_tTi a) 0); [lra|].
  destruct (substrate_index (ti_sub a) (ti_lam a * 1000000)) as [ns|]; [|reflexivity]. cbn [rbind]. destruct (dielectric_index tb (ti_diel a) (ti_lam a * 1000000) (ti_lam a * 1000000000)) as [nd|]; [|reflexivity]. cbn [rbind]. destruct (metal_index tb (ti_metal a) (ti_lam a * 1000000000)) as [nm|]; [|reflexivity]. cbn [rbind].
  apply mapr_ext. intros x _. apply mapr_ext. intros y Hy. unfold trans_entry, ti_under. destruct (Rlt_dec y (1 / 10000000000)) as [Q|Q]; [reflexivity|]. specialize (Hm y Hy). lra.
Qed.
(* bare substrate (no metal, no dielectric), one polarization: Fresnel transmission of the air-substrate surface, with the phase of the air up to the reference plane *)
Theorem C74_bare_substrate tb a m : absorber (ni_rows tb) -> absorber (mgf2_rows tb) -> optical (ti_lam a) -> 0 <= ti_aoi a < 90 -> (ti_pol a = 0 \/ ti_pol a = 1)%Z ->
  calc_trans tb a [0] [0] = Ok m ->
  let k := normal_k (ti_lam a) (ti_aoi a) in
  exists ns o, 1 < ns /\ substrate_index (ti_sub a) (ti_lam a * 1000000) = Ok ns /\ solver [RtoC 1; RtoC ns] [] (ti_aoi a * (PI / 180)) (ti_lam a) (Z.eqb (ti_pol a) 1) = Ok o /\
    let t := Cmult (cis (- (k * ti_d0 a))) (tf_tt o) in let r := Cmult (cis (- (2 * k * ti_d0 a))) (tf_rr o) in
    m = [[if ti_opd a then (t, r) else (Cconj t, Cconj r)]].
Proof.
  intros A1 A2 O H90 P H k. destruct (calc_entries tb a [0] [0] m A1 A2 O H90 H) as (ns & nd & nm & nt & G1 & G2 & G3 & G4 & SI & T & F). specialize (F (ti_tTi a) T (ti_d0 a) [0] [0]). rewrite same_a, H in F.
  destruct (aoi_sin _ H90) as [S1 S2]. assert (L : 0 < ti_lam a) by (destruct O; lra). set (theta := ti_aoi a * (PI / 180)) in *. set (tm := Z.eqb (ti_pol a) 1).
  destruct (sol_ok [RtoC 1; RtoC 1; RtoC ns] [ti_d0 a] theta (ti_lam a) tm eq_refl S1 L) as (o1 & H1).
  assert (HP : passive (medium [RtoC 1; RtoC ns]) (thick []) (bottom [RtoC 1; RtoC ns]) theta (ti_lam a)). { apply (stack_passive [RtoC ns] [] theta (ti_lam a) L S2); [|discriminate|apply Forall_nil]. apply Forall_cons; [unfold good; cbn; lra|apply Forall_nil]. }
  destruct (C73_reference_height (RtoC 1) (RtoC ns) [] (ti_d0 a) [] theta (ti_lam a) tm o1 H1 HP) as (o & Ho & _ & _ & Er & Et). cbn [fst RtoC] in Er, Et. rewrite Rmult_1_l in Er, Et. change (2 * PI / ti_lam a * Rabs (cos theta)) with k in Er, Et.
  exists ns, o. split; [exact G1|]. split; [exact SI|]. split; [exact Ho|]. cbn [mapr] in F.
  assert (X : trans_entry ns nd nm nt (ti_lam a) theta (ti_tTi a) (ti_d0 a) (ti_pol a) (ti_opd a) 0 0 = Ok (if ti_opd a then (tf_tt o1, tf_rr o1) else (Cconj (tf_tt o1), Cconj (tf_rr o1)))).
  { unfold trans_entry, ti_under. destruct (Rlt_dec 0 (1 / 10000000000)) as [Q|Q]; [|lra]. replace (ti_d0 a - 0 - 0 - 0) with (ti_d0 a) by ring.
    assert (Y : solver [RtoC 1; RtoC 1; nd; nm; nt; RtoC ns] [ti_d0 a; 0; 0; 0] theta (ti_lam a) tm = Ok o1). { rewrite (stack_no_metal ns nd nm nt (ti_lam a) theta G1 G2 G3 G4 L S2 (ti_d0 a) 0 tm (Rle_refl 0)), (stack_bare ns nd (ti_lam a) theta G1 G2 L S2 (ti_d0 a) tm). exact H1. }
    destruct P as [P|P]; unfold tm in Y; rewrite P in Y |- *; cbn [Z.eqb Pos.eqb orb] in Y |- *; rewrite Y; reflexivity. }
  rewrite X in F. cbn [rbind] in F. injection F as ->. rewrite Et, Er. reflexivity.
Qed.
(* ---- calc_complex_occulter ---- *)
Lemma triple_eq_spec p q : triple_eq p q = true <-> p = q.
Proof.
  destruct p as [[p1 p2] p3], q as [[q1 q2] q3]. unfold triple_eq. cbn [fst snd]. destruct (Req_EM_T p1 q1) as [E1|E1]; [|split; [discriminate|congruence]]. destruct (Req_EM_T p2 q2) as [E2|E2]; [|split; [discriminate|congruence]].
  destruct (Req_EM_T p3 q3) as [E3|E3]; [|split; [discriminate|congruence]]. split; congruence.
Qed.
Lemma triple_dec (p q : R * R * R) : {p = q} + {p <> q}.
Proof. destruct (triple_eq p q) eqn:E; [left; now apply triple_eq_spec|right; intros H; apply triple_eq_spec in H; congruence]. Qed.
Lemma uniq_in p l : In p (uniq l) <-> In p l.
Proof.
  induction l as [|q l IH]; [reflexivity|]. cbn [uniq In]. rewrite filter_In, IH. destruct (triple_eq q p) eqn:E; cbn [negb].
  - apply triple_eq_spec in E. subst. split; [intros [H|[H _]]; tauto|tauto].
  - split; [intros [H|[H _]]; tauto|intros [H|H]; tauto].
Qed.
Lemma grid_in r c i j : In (i, j) (grid r c) <-> (i < r /\ j < c)%nat.
Proof.
  unfold grid. rewrite in_flat_map. split.
  - intros (x & H1 & H2). apply in_map_iff in H2. destruct H2 as (y & E & H2). injection E as <- <-. apply in_seq in H1. apply in_seq in H2. lia.
  - intros [H1 H2]. exists i. split; [apply in_seq; lia|]. apply in_map_iff. exists j. split; [reflexivity|apply in_seq; lia].
Qed.
Lemma occ_loop_spec tb a metal diel us : forall out out', occ_loop tb a metal diel us out = Ok out' ->
  frows out' = frows out /\ fcols out' = fcols out /\ forall i j, let u := (fpx diel i j, fpx metal i j, ti_map (ti_tTi a) metal i j) in
    (In u us -> exists m, calc_trans tb (with_tTi a (snd u)) [fpx metal i j] [fpx diel i j] = Ok m /\ fpx out' i j = fst (nth 0 (nth 0 m nil) (RtoC 0, RtoC 0))) /\
    (~ In u us -> fpx out' i j = fpx out i j).
Proof.
  induction us as [|w us IH]; intros out out' H; cbn [occ_loop] in H.
  - injection H as <-. split; [reflexivity|split; [reflexivity|]]. intros i j u. split; [intros []|reflexivity].
  - destruct (calc_trans tb (with_tTi a (snd w)) [snd (fst w)] [fst (fst w)]) as [m|] eqn:E; [|discriminate]. cbn [rbind] in H. apply IH in H. destruct H as (H1 & H2 & H3). split; [exact H1|split; [exact H2|]]. intros i j u. destruct (H3 i j) as [A B]. fold u in A, B. cbn [fpx] in B.
    destruct (triple_eq u w) eqn:Q.
    + split; [|intros N; exfalso; apply N; left; symmetry; now apply triple_eq_spec]. intros _. destruct (in_dec triple_dec u us) as [I1|I1]; [now apply A|].
      rewrite (B I1). fold u. rewrite Q. apply triple_eq_spec in Q. subst w. exists m. split; [exact E|reflexivity].
    + assert (N : w <> u) by (intros EQ; rewrite EQ in Q; rewrite (proj2 (triple_eq_spec u u) eq_refl) in Q; discriminate Q). split.
      * intros [I1|I1]; [congruence|now apply A].
      * intros I1. rewrite B by (intros I2; apply I1; now right). fold u. now rewrite Q.
Qed.
(* calc_complex_occulter: each pixel of the mask is the transmission computed for that pixel's own pair of thicknesses, with the caller's titanium thickness *)
Theorem C74_occulter_pixelwise tb a metal diel out : calc_occulter tb a metal diel = Ok out ->
  frows out = frows metal /\ fcols out = fcols metal /\ frows diel = frows metal /\ fcols diel = fcols metal /\
  forall i j, (i < frows metal)%nat -> (j < fcols metal)%nat -> exists r, calc_trans tb a [fpx metal i j] [fpx diel i j] = Ok [[(fpx out i j, r)]].
Proof.
  unfold calc_occulter. destruct (Rlt_dec (ti_tTi a) 0) as [Q|Q]; [discriminate|]. destruct (Nat.eqb (frows metal) (frows diel) && Nat.eqb (fcols metal) (fcols diel)) eqn:S; [|discriminate]. cbn [negb]. intros H. apply andb_prop in S. destruct S as [S1 S2]. apply Nat.eqb_eq in S1, S2.
  apply occ_loop_spec in H. cbn [frows fcols fpx] in H. destruct H as (H1 & H2 & H3). split; [exact H1|]. split; [exact H2|]. split; [congruence|]. split; [congruence|]. intros i j Hi Hj. destruct (H3 i j) as [A _]. cbv zeta in A.
  destruct A as (m & A & B).
  { rewrite uniq_in. apply in_map_iff. exists (i, j). split; [reflexivity|]. apply grid_in. auto. }
  cbn [snd] in A.
  assert (A' : calc_trans tb a [fpx metal i j] [fpx diel i j] = Ok m).
  { rewrite <- A. unfold ti_map. destruct (Rlt_dec (10 / 4503599627370496) (fpx metal i j)) as [T|T].
    - f_equal. unfold with_tTi. now rewrite same_a.
    - symmetry. apply C74_no_titanium_without_metal; [|lra|lra]. intros x [<-|[]]. lra. }
  assert (SH : exists p, m = [[p]]).
  { unfold calc_trans in A'. destruct (Rle_dec (ti_lam a) 0); [discriminate|]. destruct (Rlt_dec (ti_aoi a) 0); [discriminate|]. destruct (Rlt_dec (ti_tTi a) 0); [discriminate|].
    destruct (substrate_index (ti_sub a) (ti_lam a * 1000000)) as [ns|]; [|discriminate]. cbn [rbind] in *. destruct (dielectric_index tb (ti_diel a) (ti_lam a * 1000000) (ti_lam a * 1000000000)) as [nd|]; [|discriminate]. cbn [rbind] in *.
    destruct (metal_index tb (ti_metal a) (ti_lam a * 1000000000)) as [nm|]; [|discriminate]. cbn [rbind mapr] in *.
    match type of A' with context[trans_entry ?a1 ?a2 ?a3 ?a4 ?a5 ?a6 ?a7 ?a8 ?a9 ?b1 ?b2 ?b3] => destruct (trans_entry a1 a2 a3 a4 a5 a6 a7 a8 a9 b1 b2 b3) as [p|]; [|discriminate] end. cbn [rbind] in A'. injection A' as <-. eauto. }
  destruct SH as (p & ->). cbn [nth] in B. exists (snd p). rewrite A'. rewrite B. now rewrite <- surjective_pairing.
Qed.
(* and it succeeds on every pair of maps of one shape for accepted inputs *)
Theorem C74_occulter_total tb a metal diel : in_range a -> known a -> (ti_pol a = 0 \/ ti_pol a = 1 \/ ti_pol a = 2)%Z -> frows metal = frows diel -> fcols metal = fcols diel -> exists out, calc_occulter tb a metal diel = Ok out.
Proof.
  intros RG K P S1 S2. unfold calc_occulter. destruct (Rlt_dec (ti_tTi a) 0) as [Q|Q]; [destruct RG as (_ & _ & ?); lra|]. rewrite S1, S2, !Nat.eqb_refl. cbn [andb negb].
  assert (X : forall us out, (forall u, In u us -> 0 <= snd u) -> exists out', occ_loop tb a metal diel us out = Ok out').
  { induction us as [|u us IH]; intros out HU; cbn [occ_loop]; [eauto|]. destruct (C74_table_shape tb (with_tTi a (snd u)) [snd (fst u)] [fst (fst u)]) as (m & E & _).
    - destruct RG as (R1 & R2 & _). unfold in_range, with_tTi. cbn. split; [exact R1|split; [exact R2|]]. apply HU. now left.
    - exact K.
    - exact P.
    - rewrite E. cbn [rbind]. apply IH. intros v Hv. apply HU. now right. }
  apply X. intros u Hu. rewrite uniq_in in Hu. apply in_map_iff in Hu. destruct Hu as ([i j] & <- & _). cbn [snd fst]. unfold ti_map. destruct (Rlt_dec _ _); lra.
Qed.
(* a concrete request meeting all hypotheses above *)
Example C74_example : let tb := mktab [(500, 17/10, 27/10)] [(1/2, 138/100, 1/1000)] in let a := mkti "FS" "Ni" "PMGI" (1 / 2000000) 5 (3 / 1000000000) (4 / 1000000) 2 false in
  absorber (ni_rows tb) /\ absorber (mgf2_rows tb) /\ optical (ti_lam a) /\ 0 <= ti_aoi a < 90 /\ in_range a /\ known a /\
  exists m, calc_trans tb a [0; 1 / 10000000] [0; 1 / 10000000; 3 / 10000000] = Ok m /\ length m = 3%nat.
Proof.
  intros tb a. assert (K : known a) by (unfold known, substrate_known, dielectric_known, metal_known; vm_compute; tauto). assert (RG : in_range a) by (unfold in_range; cbn; lra).
  split; [|split; [|split; [|split; [|split; [exact RG|split; [exact K|]]]]]].
  - split; [discriminate|]. intros w n k [H|[]]. injection H as <- <- <-. lra.
  - split; [discriminate|]. intros w n k [H|[]]. injection H as <- <- <-. lra.
  - unfold optical. cbn. lra.
  - cbn. lra.
  - destruct (C74_table_shape tb a [0; 1 / 10000000] [0; 1 / 10000000; 3 / 10000000] RG K) as (m & E & L & _); [cbn; tauto|]. exists m. split; [exact E|exact L].
Qed.
Example C74_fusedsilica_refused tb metal diel lam aoi t d pol o tm td : 0 < lam -> 0 <= aoi -> 0 <= t -> calc_trans tb (mkti "fusedsilica" metal diel lam aoi t d pol o) tm td = Raise ValueError.
Proof. intros A B D. destruct (C74_refuses tb (mkti "fusedsilica" metal diel lam aoi t d pol o) tm td) as (_ & H & _). apply H; [unfold in_range; cbn; auto|]. intros (K & _). unfold substrate_known in K. vm_compute in K. intuition discriminate. Qed.
