(* C95: Zernike sensitivities *)
From Verif Require Import Base RBase StrBase UtilModel MaskModel MaskProofs HoleModel CBase PropModel OptModel ZsnModel ZsnProofs.
Open Scope R_scope.
(* ---- specification ---- *)
(* number of pixels of a region, and the sum of a quantity over it *)
Definition count_of (c : scfg) (m : nat -> nat -> bool) : R := rsum (s_ne c) (fun i => rsum (s_nx c) (fun j => if m i j then 1 else 0)).
Definition total_of (c : scfg) (m : nat -> nat -> bool) (v : nat -> nat -> R) : R := rsum (s_ne c) (fun i => rsum (s_nx c) (fun j => if m i j then v i j else 0)).
(* mean over the region; nan for an empty one *)
Definition mean_over (c : scfg) (m : nat -> nat -> bool) (v : nat -> nat -> R) : option R :=
  if Req_EM_T (count_of c m) 0 then None else Some (total_of c m v / count_of c m).
(* the scoring region between the two radii: first side, first shape and the only opening angle of the dark hole, no clocking, no offset *)
Definition annulus (c : scfg) (r : R * R) (m : nat -> nat -> bool) : Prop :=
  exists fov side sh ang o, f_FOV (s_fend c) = Some fov /\ nth_error (f_sides (s_fend c)) 0 = Some side /\ cang (s_fend c) = [ang] /\
    match f_shape (s_fend c) with None => sh = None | Some l => exists x, nth_error l 0 = Some x /\ sh = Some x end /\
    falco_gen_SW_mask (mksw (f_res (s_fend c)) (fst r) (snd r) ang side (Some (f_cen (s_fend c))) sh None (Some fov) None None None None None None) = Ok o /\
    nr (sw_mask o) = Z.of_nat (s_ne c) /\ nc (sw_mask o) = Z.of_nat (s_nx c) /\ forall i j, m i j = px (sw_mask o) (Z.of_nat i) (Z.of_nat j).
(* mp as it is, with the polarisation p *)
Definition plain_state (s : zst) (p : Z) (s0 : zst) : Prop := z_E s0 = z_E s /\ z_ind s0 = z_ind s /\ z_val s0 = z_val s /\ z_pol s0 = Some p.
(* mp with the phase of the Zernike map m, rms metres of it, in the entrance field of one wavelength only *)
Definition phase_state (c : scfg) (s : zst) (si wi p : Z) (m : field R) (s1 : zst) : Prop :=
  (forall a b, (a, b) <> (si, wi) -> z_E s1 a b = z_E s a b) /\
  frows (z_E s1 si wi) = frows (z_E s si wi) /\ fcols (z_E s1 si wi) = fcols (z_E s si wi) /\
  (frows m = frows (z_E s si wi) -> fcols m = fcols (z_E s si wi) -> forall i j, (i < frows m)%nat -> (j < fcols m)%nat ->
     fpx (z_E s1 si wi) i j = Cmult (fpx (z_E s si wi) i j) (cis (2 * PI * (s_rms c * fpx m i j) / s_wvl c si wi))) /\
  (z_ind s1 = z_ind s \/ z_ind s = None /\ z_ind s1 = Some ([], [])) /\ z_val s1 = z_val s /\ z_pol s1 = Some p.
(* mp of a PROPER model with rms metres more of Zernike z in its list of aberrations *)
Definition listed_state (c : scfg) (s : zst) (p z : Z) (s1 : zst) : Prop :=
  z_E s1 = z_E s /\ z_pol s1 = Some p /\
  exists zi zv zi' zv', (z_ind s = Some (zi, zv) \/ z_ind s = None /\ zi = [] /\ zv = []) /\ z_ind s1 = Some (zi', zv') /\ z_val s1 = Some zv' /\
    (In z zi -> zi' = zi /\ length zv' = length zv /\ forall k, (k < length zv)%nat -> nth k zv' 0 = nth k zv 0 + (if Z.eqb (nth k zi (z - 1)%Z) z then s_rms c else 0)) /\
    (~ In z zi -> zi' = (zi ++ [z])%list /\ zv' = (zv ++ [s_rms c])%list).

Lemma filter_mean c m (v : nat -> nat -> R) : omean (map (fun q => Some (v (fst q) (snd q))) (filter (fun q => m (fst q) (snd q)) (cells c))) = mean_over c m v.
Proof.
  unfold mean_over. set (l := filter (fun q => m (fst q) (snd q)) (cells c)).
  assert (N : INR (length l) = count_of c m).
  { unfold l, count_of. rewrite length_filter. exact (cells_sum c (fun i j => if m i j then 1 else 0)). }
  assert (T : rsuml (map (fun q => v (fst q) (snd q)) l) = total_of c m v).
  { unfold l, total_of. rewrite (rsuml_filter (fun q => v (fst q) (snd q))). exact (cells_sum c (fun i j => if m i j then v i j else 0)). }
  rewrite <- N. destruct l as [|q t] eqn:EL.
  - cbn. destruct (Req_EM_T 0 0); [reflexivity|easy].
  - assert (0 < INR (length (q :: t))) by (apply lt_0_INR; cbn; lia). destruct (Req_EM_T (INR (length (q :: t))) 0); [lra|].
    rewrite <- (map_map (fun q => v (fst q) (snd q)) Some). rewrite omean_some by (cbn; discriminate). rewrite map_length, T. reflexivity.
Qed.
Lemma zone_annulus c r m : zone_mask c r = Ok m -> annulus c r m.
Proof.
  unfold zone_mask, zone_in. destruct (f_FOV (s_fend c)) as [fov|] eqn:EF; [|discriminate].
  destruct (idx (f_sides (s_fend c)) 0) as [sd|e] eqn:ES; cbn [rbind]; [|discriminate]. apply idx_some in ES.
  destruct (match f_shape (s_fend c) with None => Ok None | Some l => do x <- idx l 0; Ok (Some x) end) as [sh|e] eqn:EH; cbn [rbind]; [|discriminate].
  destruct (cang (s_fend c)) as [|a [|b t]] eqn:EA; try discriminate. cbn [rbind].
  match goal with |- rbind ?q _ = _ -> _ => destruct q as [o|e] eqn:EO end; cbn [rbind]; [|discriminate].
  destruct (Z.eqb_spec (nr (sw_mask o)) (Z.of_nat (s_ne c))) as [N1|]; [|discriminate]. destruct (Z.eqb_spec (nc (sw_mask o)) (Z.of_nat (s_nx c))) as [N2|]; [|discriminate].
  cbn [andb]. intros H. injection H as <-. exists fov, sd, sh, a, o. repeat (split; [assumption||reflexivity|]). split.
  { destruct (f_shape (s_fend c)) as [l|]; [|now injection EH as <-]. destruct (idx l 0) as [x|e] eqn:EI; [|discriminate]. cbn [rbind] in EH. injection EH as <-. apply idx_some in EI. eauto. }
  auto.
Qed.
Lemma bop_imul_same A B : frows B = frows A -> fcols B = fcols A -> forall P, imul A B = Ok P -> forall i j, (i < frows A)%nat -> (j < fcols A)%nat -> fpx P i j = Cmult (fpx A i j) (fpx B i j).
Proof.
  intros H1 H2 P. unfold imul, bop. rewrite H1, H2.
  assert (D : forall n, bdim n n = Some n) by (intros n; unfold bdim; now rewrite Nat.eqb_refl). rewrite !D. cbn [rbind frows fcols]. rewrite !Nat.eqb_refl. cbn [andb].
  intros H i j Hi Hj. injection H as <-. cbn [fpx]. assert (X : forall n k, (k < n)%nat -> bix n k = k).
  { intros n k Hk. unfold bix. destruct (Nat.eqb_spec n 1); [lia|reflexivity]. } now rewrite !X.
Qed.
Lemma imul_shape A B P : imul A B = Ok P -> frows P = frows A /\ fcols P = fcols A.
Proof.
  unfold imul. destruct (bop Cmult A B) as [Q|e]; cbn [rbind]; [|discriminate]. destruct (Nat.eqb_spec (frows Q) (frows A)); [|discriminate].
  destruct (Nat.eqb_spec (fcols Q) (fcols A)); [|discriminate]. cbn [andb]. intros H. injection H as <-. auto.
Qed.
Lemma bump_spec z a : forall zi zv v, bump zi zv z a = Ok v -> length v = length zv /\ forall k, (k < length zv)%nat -> nth k v 0 = nth k zv 0 + (if Z.eqb (nth k zi (z - 1)%Z) z then a else 0).
Proof.
  induction zi as [|i zi IH]; intros zv v H; cbn [bump] in H.
  - injection H as <-. split; [reflexivity|]. intros k _. destruct k; cbn [nth]; (destruct (Z.eqb_spec (z - 1) z); [lia|ring]).
  - destruct zv as [|x zv].
    + destruct (i =? z)%Z; [discriminate|]. destruct (IH _ _ H) as [L _]. split; [exact L|]. cbn. lia.
    + destruct (bump zi zv z a) as [r|e] eqn:E; [|discriminate]. cbn [rbind] in H. injection H as <-. destruct (IH _ _ E) as [L V]. cbn [length]. split; [now rewrite L|].
      intros [|k] Hk; cbn [nth]; [destruct (i =? z)%Z; ring|apply V; lia].
Qed.
Definition with_ind (s : zst) (p : Z) : zst := mkz (z_E s) (Some (dind s)) (z_val s) (Some p).
Lemma zern_result full c s il ip iz si wi p z E : task_env c il ip = Ok ((si, wi), p) -> nth_error (s_zern c) iz = Some z -> fst (field_zern full c (il, ip, iz) s) = Ok E ->
  exists s1, disturb c si wi z (with_ind s p) (fst (dind s)) (snd (dind s)) = Ok s1 /\ full s1 si wi = Ok E.
Proof.
  intros HT HZ. unfold field_zern. cbn [fst snd]. rewrite HT. fold (dind s). cbv zeta. apply idx_some in HZ. rewrite HZ. fold (with_ind s p).
  change (mkz (z_E (set_pol p s)) (Some (dind s)) (z_val (set_pol p s)) (z_pol (set_pol p s))) with (with_ind s p).
  destruct (disturb c si wi z (with_ind s p) (fst (dind s)) (snd (dind s))) as [s1|e] eqn:ED; [|discriminate]. destruct (full s1 si wi) as [F|e] eqn:EF; [|discriminate].
  cbn [fst]. intros H. injection H as <-. eauto.
Qed.
Lemma disturb_phase c s si wi p z s1 : s_proper c = false -> disturb c si wi z (with_ind s p) (fst (dind s)) (snd (dind s)) = Ok s1 ->
  exists m, s_map c z = Ok m /\ phase_state c s si wi p m s1.
Proof.
  intros P. unfold disturb. rewrite P. destruct (s_map c z) as [m|e]; cbn [rbind]; [|discriminate]. destruct (aberrate _ _ m _) as [F|e] eqn:EA; cbn [rbind]; [|discriminate].
  intros H. injection H as <-. exists m. split; [reflexivity|]. unfold phase_state. cbn [z_E z_ind z_val z_pol with_ind] in *. unfold put_E. rewrite !Z.eqb_refl. cbn [andb].
  unfold aberrate in EA. destruct (imul_shape _ _ _ EA) as [S1 S2]. split.
  { intros a b N. destruct (Z.eqb_spec a si) as [->|]; [|reflexivity]. destruct (Z.eqb_spec b wi) as [->|]; [congruence|reflexivity]. }
  split; [exact S1|]. split; [exact S2|]. split.
  - intros M1 M2 i j Hi Hj. rewrite (bop_imul_same _ (fmap (fun v => cis (2 * PI / s_wvl c si wi * s_rms c * v)) m) M1 M2 _ EA) by lia. f_equal. cbn [fmap fpx]. f_equal. unfold Rdiv. ring.
  - split; [|auto]. unfold dind. destruct (z_ind s) as [x|]; auto.
Qed.
Lemma disturb_listed c s si wi p z s1 : s_proper c = true -> disturb c si wi z (with_ind s p) (fst (dind s)) (snd (dind s)) = Ok s1 -> listed_state c s p z s1.
Proof.
  intros P. unfold disturb. rewrite P.
  assert (B : existsb (Z.eqb z) (fst (dind s)) = true <-> In z (fst (dind s))).
  { rewrite existsb_exists. split; [intros (x & H1 & H2); apply Z.eqb_eq in H2; now subst|intros H; exists z; now rewrite Z.eqb_refl]. }
  assert (DI : z_ind s = Some (fst (dind s), snd (dind s)) \/ z_ind s = None /\ fst (dind s) = [] /\ snd (dind s) = []).
  { unfold dind. destruct (z_ind s) as [[a b]|]; auto. }
  destruct (existsb (Z.eqb z) (fst (dind s))) eqn:EB.
  - destruct (bump _ _ _ _) as [v|e] eqn:EV; cbn [rbind]; [|discriminate]. intros H. injection H as <-. split; [reflexivity|]. split; [reflexivity|].
    exists (fst (dind s)), (snd (dind s)), (fst (dind s)), v. cbn [z_ind z_val]. split; [exact DI|]. split; [reflexivity|]. split; [reflexivity|]. destruct (bump_spec _ _ _ _ _ EV) as [L V]. split; [auto|].
    intros N. destruct (N (proj1 B eq_refl)).
  - intros H. injection H as <-. split; [reflexivity|]. split; [reflexivity|].
    exists (fst (dind s)), (snd (dind s)), (fst (dind s) ++ [z])%list, (snd (dind s) ++ [s_rms c])%list. cbn [z_ind z_val]. split; [exact DI|]. split; [reflexivity|]. split; [reflexivity|]. split; [|auto].
    intros N. apply B in N. discriminate.
Qed.
Lemma nth_map_lt {A B} (f : A -> B) l k d d' : (k < length l)%nat -> nth k (map f l) d = f (nth k l d').
Proof. intros H. rewrite (nth_indep _ d (f d')) by now rewrite map_length. apply map_nth. Qed.
(* common part *)
Lemma sens_core full c s M s' iz ia z r ps : calc_zern_sens full c s = (Ok M, s') -> s_pol c = Some ps -> ps <> [] -> s_lam c <> [] ->
  nth_error (s_zern c) iz = Some z -> nth_error (s_rsens c) ia = Some r ->
  exists m D, annulus c r m /\
    (forall il ip si wi p, nth_error (s_lam c) il = Some (si, wi) -> nth_error ps ip = Some p -> exists s0 s1 E0 E1,
      plain_state s p s0 /\ disturb c si wi z (with_ind s p) (fst (dind s)) (snd (dind s)) = Ok s1 /\ full s0 si wi = Ok E0 /\ full s1 si wi = Ok E1 /\
      forall i j, D il ip i j = abs2 (Cminus (fpx E1 i j) (fpx E0 i j))) /\
    nth ia (nth iz M []) None = mean_over c m (fun i j => rsum (length (s_lam c)) (fun il => rsum (length ps) (fun ip => D il ip i j) / INR (length ps)) / INR (length (s_lam c))).
Proof.
  intros H HP NP NL HZ HR. assert (K := calc_threads _ _ _ _ _ H). assert (H2 : fst (calc_zern_sens full c s) = Ok M) by now rewrite H. clear H.
  apply (calc_iff full c s M K) in H2 as (ms & R0 & R1 & A1 & _ & A2 & _ & A3 & _ & A4).
  apply traverse_ok in A1, A2, A3. assert (HN : npol c = length ps) by (unfold npol; now rewrite HP).
  assert (Lz : (iz < length (s_zern c))%nat) by (apply nth_error_Some; congruence).
  assert (Lr : (ia < length (s_rsens c))%nat) by (apply nth_error_Some; congruence).
  assert (MA : exists m, nth_error ms ia = Some m /\ zone_mask c r = Ok m).
  { clear -A1 HR. revert ia HR. induction A1 as [|x y l l' Hxy F IH]; intros ia HR; [destruct ia; discriminate|]. destruct ia as [|ia]; cbn in HR |- *; [injection HR as <-; eauto|now apply IH]. }
  destruct MA as (m & M1 & M2). set (DD := de_array (inds_zern c) R1 (e0_array (inds c) R0)) in *.
  exists m, (fun il ip i j => abs2 (DD il ip iz i j)). split; [now apply zone_annulus|]. split.
  - intros il ip si wi p Hl Hp. assert (Ll : (il < length (s_lam c))%nat) by (apply nth_error_Some; congruence). assert (Lp : (ip < npol c)%nat) by (rewrite HN; apply nth_error_Some; congruence).
    assert (TE : task_env c il ip = Ok ((si, wi), p)). { unfold task_env. apply idx_some in Hl, Hp. now rewrite Hl, HP, Hp. }
    destruct (forall2_get _ _ _ (il, ip) A2 (proj2 (in_inds c il ip) (conj Ll Lp))) as (E0 & G0).
    destruct (forall2_get _ _ _ (il, ip, iz) A3 (proj2 (in_inds_zern c il ip iz) (conj Ll (conj Lp Lz)))) as (E1 & G1).
    destruct (zern_result _ _ _ _ _ _ _ _ _ _ _ TE HZ G1) as (s1 & Q1 & Q2).
    exists (set_pol p s), s1, E0, E1. split; [unfold plain_state, set_pol; cbn; auto|]. split; [exact Q1|]. split; [|split; [exact Q2|]].
    + unfold field_nominal in G0. cbn [fst snd] in G0. now rewrite TE in G0.
    + intros i j. unfold DD. f_equal. rewrite (de_get _ _ _ _ il ip iz E1 A3 (proj2 (in_inds_zern c il ip iz) (conj Ll (conj Lp Lz))) G1). f_equal. f_equal.
      rewrite (e0_get _ _ _ il ip E0 A2 (proj2 (in_inds c il ip) (conj Ll Lp)) G0). reflexivity.
  - unfold sens_mat in A4. destruct (squeezed c && _)%bool; [discriminate|]. injection A4 as <-.
    rewrite (nth_map_lt _ _ _ _ 0%nat) by now rewrite seq_length. rewrite seq_nth by exact Lz. cbn [Nat.add].
    assert (Lm : (ia < length ms)%nat) by (apply nth_error_Some; congruence).
    rewrite (nth_map_lt _ _ _ _ (fun _ _ => false)) by exact Lm. rewrite (nth_error_nth ms ia _ M1).
    rewrite <- filter_mean. f_equal. apply map_ext. intros q.
    rewrite de2_value; [now rewrite HN| |rewrite HN]; apply Nat.neq_0_lt_0; intros N; apply length_zero_iff_nil in N; auto.
Qed.
(* ---- the values ---- *)
Theorem C95_value : forall full c s M s' iz ia z r ps, calc_zern_sens full c s = (Ok M, s') -> s_proper c = false -> s_pol c = Some ps -> ps <> [] -> s_lam c <> [] ->
  nth_error (s_zern c) iz = Some z -> nth_error (s_rsens c) ia = Some r ->
  exists m map_z D, annulus c r m /\ s_map c z = Ok map_z /\
    (forall il ip si wi p, nth_error (s_lam c) il = Some (si, wi) -> nth_error ps ip = Some p -> exists s0 s1 E0 E1,
      plain_state s p s0 /\ phase_state c s si wi p map_z s1 /\ full s0 si wi = Ok E0 /\ full s1 si wi = Ok E1 /\
      forall i j, D il ip i j = abs2 (Cminus (fpx E1 i j) (fpx E0 i j))) /\
    nth ia (nth iz M []) None = mean_over c m (fun i j => rsum (length (s_lam c)) (fun il => rsum (length ps) (fun ip => D il ip i j) / INR (length ps)) / INR (length (s_lam c))).
Proof.
  intros full c s M s' iz ia z r ps H P HP NP NL HZ HR. destruct (sens_core _ _ _ _ _ _ _ _ _ _ H HP NP NL HZ HR) as (m & D & A1 & A2 & A3).
  assert (MZ : exists q, s_map c z = Ok q).
  { destruct (s_lam c) as [|[si wi] lt] eqn:EL; [easy|]. destruct ps as [|p pt]; [easy|].
    destruct (A2 0%nat 0%nat si wi p eq_refl eq_refl) as (s0 & s1 & E0 & E1 & _ & Q & _). destruct (disturb_phase _ _ _ _ _ _ _ P Q) as (q & Q2 & _). eauto. }
  destruct MZ as (q & MZ). exists m, q, D. split; [exact A1|]. split; [exact MZ|]. split; [|exact A3].
  intros il ip si wi p Hl Hp. destruct (A2 il ip si wi p Hl Hp) as (s0 & s1 & E0 & E1 & B1 & B2 & B3 & B4 & B5).
  destruct (disturb_phase _ _ _ _ _ _ _ P B2) as (q' & Q2 & Q3). rewrite MZ in Q2. injection Q2 as <-. exists s0, s1, E0, E1. auto 10.
Qed.
Theorem C95_value_proper : forall full c s M s' iz ia z r ps, calc_zern_sens full c s = (Ok M, s') -> s_proper c = true -> s_pol c = Some ps -> ps <> [] -> s_lam c <> [] ->
  nth_error (s_zern c) iz = Some z -> nth_error (s_rsens c) ia = Some r ->
  exists m D, annulus c r m /\
    (forall il ip si wi p, nth_error (s_lam c) il = Some (si, wi) -> nth_error ps ip = Some p -> exists s0 s1 E0 E1,
      plain_state s p s0 /\ listed_state c s p z s1 /\ full s0 si wi = Ok E0 /\ full s1 si wi = Ok E1 /\
      forall i j, D il ip i j = abs2 (Cminus (fpx E1 i j) (fpx E0 i j))) /\
    nth ia (nth iz M []) None = mean_over c m (fun i j => rsum (length (s_lam c)) (fun il => rsum (length ps) (fun ip => D il ip i j) / INR (length ps)) / INR (length (s_lam c))).
Proof.
  intros full c s M s' iz ia z r ps H P HP NP NL HZ HR. destruct (sens_core _ _ _ _ _ _ _ _ _ _ H HP NP NL HZ HR) as (m & D & A1 & A2 & A3).
  exists m, D. split; [exact A1|]. split; [|exact A3]. intros il ip si wi p Hl Hp. destruct (A2 il ip si wi p Hl Hp) as (s0 & s1 & E0 & E1 & B1 & B2 & B3 & B4 & B5).
  exists s0, s1, E0, E1. split; [exact B1|]. split; [eapply disturb_listed; eauto|auto].
Qed.
(* one row per Zernike mode, one column per annulus *)
Theorem C95_shape : forall full c s M s', calc_zern_sens full c s = (Ok M, s') -> length M = length (s_zern c) /\ forall row, In row M -> length row = length (s_rsens c).
Proof.
  intros full c s M s' H. assert (K := calc_threads _ _ _ _ _ H). assert (H2 : fst (calc_zern_sens full c s) = Ok M) by now rewrite H.
  apply (calc_iff full c s M K) in H2 as (ms & R0 & R1 & A1 & _ & _ & _ & _ & _ & A4). apply traverse_ok in A1. apply forall2_length in A1.
  unfold sens_mat in A4. destruct (squeezed c && _)%bool; [discriminate|]. injection A4 as <-. split; [now rewrite map_length, seq_length|].
  intros row Hr. apply in_map_iff in Hr as (iz & <- & _). rewrite map_length. congruence.
Qed.
Lemma div_nonneg a b : 0 <= a -> 0 < b -> 0 <= a / b.
Proof. intros A B. apply Rmult_le_pos; [exact A|]. left. now apply Rinv_0_lt_compat. Qed.
Lemma mean_over_nonneg c m v x : (forall i j, 0 <= v i j) -> mean_over c m v = Some x -> 0 <= x.
Proof.
  intros V. unfold mean_over. destruct (Req_EM_T (count_of c m) 0) as [|N]; [discriminate|]. intros H. injection H as <-.
  assert (0 <= count_of c m) by (apply rsum_nonneg; intros; apply rsum_nonneg; intros; destruct (m _ _); lra).
  apply div_nonneg; [|lra]. apply rsum_nonneg. intros. apply rsum_nonneg. intros. destruct (m _ _); [apply V|lra].
Qed.
Theorem C95_nonnegative : forall full c s M s' iz ia x ps, calc_zern_sens full c s = (Ok M, s') -> s_pol c = Some ps -> ps <> [] -> s_lam c <> [] ->
  nth ia (nth iz M []) None = Some x -> 0 <= x.
Proof.
  intros full c s M s' iz ia x ps H HP NP NL HX. destruct (C95_shape _ _ _ _ _ H) as [S1 S2].
  assert (Lz : (iz < length M)%nat). { apply Nat.nle_gt. intros L. rewrite (nth_overflow M) in HX by exact L. destruct ia; discriminate. }
  assert (Lr : (ia < length (s_rsens c))%nat). { apply Nat.nle_gt. intros L. rewrite nth_overflow in HX; [discriminate|]. rewrite S2; [exact L|]. now apply nth_In. }
  destruct (nth_error (s_zern c) iz) as [z|] eqn:EZ; [|apply nth_error_None in EZ; lia]. destruct (nth_error (s_rsens c) ia) as [r|] eqn:ER; [|apply nth_error_None in ER; lia].
  destruct (sens_core _ _ _ _ _ _ _ _ _ _ H HP NP NL EZ ER) as (m & D & _ & A2 & A3). rewrite HX in A3. symmetry in A3. eapply mean_over_nonneg; [|exact A3].
  intros i j. cbn beta. assert (PL : 0 < INR (length (s_lam c))) by (apply lt_0_INR; destruct (s_lam c); [easy|cbn; lia]). assert (PP : 0 < INR (length ps)) by (apply lt_0_INR; destruct ps; [easy|cbn; lia]).
  apply div_nonneg; [|exact PL]. apply rsum_nonneg. intros il Hil. apply div_nonneg; [|exact PP]. apply rsum_nonneg. intros ip Hip.
  destruct (nth_error (s_lam c) il) as [[si wi]|] eqn:EL; [|apply nth_error_None in EL; lia]. destruct (nth_error ps ip) as [p|] eqn:EP; [|apply nth_error_None in EP; lia].
  destruct (A2 il ip si wi p EL EP) as (s0 & s1 & E0 & E1 & _ & _ & _ & _ & V). rewrite V. unfold abs2. nra.
Qed.
(* ---- worker processes ---- *)
Definition with_par (b : bool) (c : scfg) : scfg :=
  mksc (s_fend c) (s_ne c) (s_nx c) (s_rsens c) (s_zern c) (s_proper c) (s_lam c) (s_pol c) (s_rms c) (s_wvl c) (s_map c) b (s_threads c).
Theorem C95_parallel_same : forall full c s M, (0 < s_threads c)%nat ->
  (fst (calc_zern_sens full (with_par true c) s) = Ok M <-> fst (calc_zern_sens full (with_par false c) s) = Ok M).
Proof.
  intros full c s M K. rewrite (calc_iff full (with_par true c) s M (fun _ => K)), (calc_iff full (with_par false c) s M (fun _ => K)). reflexivity.
Qed.
Theorem C95_parallel_untouched : forall full c s M s', s_par c = true -> calc_zern_sens full c s = (Ok M, s') -> s' = s.
Proof. intros full c s M s' P H. exact (proj2 (calc_state _ _ _ _ _ H) P). Qed.
(* ---- what is left behind ---- *)
Theorem C95_restored : forall full c s M s', calc_zern_sens full c s = (Ok M, s') ->
  z_E s' = z_E s /\ (z_ind s' = z_ind s \/ z_ind s = None /\ z_ind s' = Some ([], [])) /\ (s_proper c = false -> z_val s' = z_val s).
Proof.
  intros full c s M s' H. destruct (calc_state _ _ _ _ _ H) as [(A & B & D) _]. split; [exact A|]. split; [|exact D].
  destruct B as [B|B]; [now left|]. unfold dind in B. destruct (z_ind s); auto.
Qed.
(* a full model reads pixels, and treats an absent list of Zernikes as an empty one *)
Definition same_field (A B : field C) : Prop := frows A = frows B /\ fcols A = fcols B /\ forall i j, (i < frows A)%nat -> (j < fcols A)%nat -> fpx A i j = fpx B i j.
Definition ordinary (full : fullmodel) : Prop := forall s1 s2 si wi, (forall a b, same_field (z_E s1 a b) (z_E s2 a b)) -> dind s1 = dind s2 -> z_val s1 = z_val s2 -> z_pol s1 = z_pol s2 ->
  full s1 si wi = full s2 si wi.
Lemma same_field_refl A : same_field A A. Proof. unfold same_field. auto. Qed.
Theorem C95_again : forall full c s M s', ordinary full -> s_proper c = false -> calc_zern_sens full c s = (Ok M, s') -> exists s2, calc_zern_sens full c s' = (Ok M, s2).
Proof.
  intros full c s M s' HO P H. assert (K := calc_threads _ _ _ _ _ H). destruct (C95_restored _ _ _ _ _ H) as (A & B & D). specialize (D P).
  assert (DI : dind s' = dind s). { unfold dind. destruct B as [B|[B1 B2]]; [now rewrite B|now rewrite B1, B2]. }
  assert (H2 : fst (calc_zern_sens full c s) = Ok M) by now rewrite H. apply (calc_iff full c s M K) in H2 as (ms & R0 & R1 & A1 & A1' & A2 & A2' & A3 & A3' & A4).
  assert (G : fst (calc_zern_sens full c s') = Ok M).
  { apply (calc_iff full c s' M K). exists ms, R0, R1. split; [exact A1|]. split; [exact A1'|]. split; [|split; [exact A2'|split; [|split; [exact A3'|exact A4]]]].
    - rewrite <- A2. apply traverse_ext. intros t _. unfold field_nominal. destruct (task_env c (fst t) (snd t)) as [[[si wi] p]|e]; [|reflexivity]. cbn [fst]. apply HO; cbn [set_pol z_E z_val z_pol].
      + intros a b. rewrite A. apply same_field_refl.
      + exact DI.
      + exact D.
      + reflexivity.
    - rewrite <- A3. apply traverse_ext. intros t _. apply inv1_result. split; [exact A|]. split; [|auto]. destruct B as [B|[B1 B2]]; [now left|right]. unfold dind. now rewrite B1. }
  destruct (calc_zern_sens full c s') as [q s2]. cbn [fst] in G. subst q. eauto.
Qed.
Lemma mean_over_zero c m v : (forall i j, (i < s_ne c)%nat -> (j < s_nx c)%nat -> v i j = 0) -> mean_over c m v = if Req_EM_T (count_of c m) 0 then None else Some 0.
Proof.
  intros V. unfold mean_over. destruct (Req_EM_T (count_of c m) 0); [reflexivity|]. f_equal.
  replace (total_of c m v) with 0; [unfold Rdiv; ring|]. symmetry. unfold total_of. apply rsum_zero. intros i Hi. apply rsum_zero. intros j Hj. destruct (m i j); [now apply V|reflexivity].
Qed.
Theorem C95_no_aberration : forall full c s M s' iz ia z r ps, ordinary full -> s_proper c = false -> s_rms c = 0 ->
  (forall z m a b, s_map c z = Ok m -> frows m = frows (z_E s a b) /\ fcols m = fcols (z_E s a b)) ->
  calc_zern_sens full c s = (Ok M, s') -> s_pol c = Some ps -> ps <> [] -> s_lam c <> [] -> nth_error (s_zern c) iz = Some z -> nth_error (s_rsens c) ia = Some r ->
  exists m, annulus c r m /\ nth ia (nth iz M []) None = if Req_EM_T (count_of c m) 0 then None else Some 0.
Proof.
  intros full c s M s' iz ia z r ps HO P HR0 HM H HP NP NL HZ HR. destruct (C95_value _ _ _ _ _ _ _ _ _ _ H P HP NP NL HZ HR) as (m & q & D & A1 & A2 & A3 & A4).
  exists m. split; [exact A1|]. rewrite A4. apply mean_over_zero. intros i j _ _.
  replace (rsum (length (s_lam c)) _) with 0; [unfold Rdiv; ring|]. symmetry. apply rsum_zero. intros il Hil.
  replace (rsum (length ps) _) with 0; [unfold Rdiv; ring|]. symmetry. apply rsum_zero. intros ip Hip.
  destruct (nth_error (s_lam c) il) as [[si wi]|] eqn:EL; [|apply nth_error_None in EL; lia]. destruct (nth_error ps ip) as [p|] eqn:EP; [|apply nth_error_None in EP; lia].
  destruct (A3 il ip si wi p EL EP) as (s0 & s1 & E0 & E1 & (B1 & B2 & B3 & B4) & (D1 & D2 & D3 & D4 & D5 & D6 & D7) & F0 & F1 & V). rewrite V.
  assert (F : full s0 si wi = full s1 si wi).
  { apply HO.
    - intros a b. destruct (HM z q si wi A2) as [M1 M2]. destruct (Z.eq_dec a si) as [->|Na]; [destruct (Z.eq_dec b wi) as [->|Nb]|].
      + rewrite B1. split; [now rewrite D2|]. split; [now rewrite D3|]. intros u v Hu Hv. rewrite D4 by (auto; congruence). rewrite HR0.
        replace (2 * PI * (0 * fpx q u v) / s_wvl c si wi) with 0 by (unfold Rdiv; ring). unfold cis. rewrite cos_0, sin_0. destruct (fpx (z_E s si wi) u v) as [x y]. apply injective_projections; cbn; ring.
      + rewrite D1 by congruence. rewrite B1. apply same_field_refl.
      + rewrite D1 by congruence. rewrite B1. apply same_field_refl.
    - unfold dind. rewrite B2. destruct D5 as [D5|[D5 D5']]; rewrite D5; [reflexivity|now rewrite D5'].
    - congruence.
    - congruence. }
  rewrite F0, F1 in F. injection F as <-. destruct (fpx E0 i j) as [x y]. unfold abs2. cbn. ring.
Qed.
(* ---- where the claim fails ---- *)
(* one Zernike mode only *)
Theorem C95_single_mode_refuted : forall full c s M, length (s_zern c) = 1%nat -> fst (calc_zern_sens full c s) <> Ok M.
Proof.
  intros full c s M L H. destruct (calc_zern_sens full c s) as [q s'] eqn:E. cbn [fst] in H. subst q. assert (K := calc_threads _ _ _ _ _ E).
  assert (H2 : fst (calc_zern_sens full c s) = Ok M) by now rewrite E. apply (calc_iff full c s M K) in H2 as (ms & R0 & R1 & _ & _ & _ & _ & _ & _ & A4).
  unfold sens_mat, squeezed in A4. rewrite L in A4. cbn [Nat.eqb] in A4. rewrite orb_true_r in A4. discriminate.
Qed.
(* a dark hole of several zones *)
Theorem C95_two_zones_refuted : forall full c s, (1 < length (cang (s_fend c)))%nat -> s_rsens c <> [] -> exists e, calc_zern_sens full c s = (Raise e, s).
Proof.
  intros full c s L N. unfold calc_zern_sens. destruct (s_rsens c) as [|r t]; [easy|]. cbn [traverse].
  assert (E : exists e, zone_mask c r = Raise e).
  { unfold zone_mask, zone_in. destruct (f_FOV (s_fend c)); cbn [rbind]; [|eauto]. destruct (idx (f_sides (s_fend c)) 0); cbn [rbind]; [|eauto].
    destruct (match f_shape (s_fend c) with None => Ok None | Some l => do x <- idx l 0; Ok (Some x) end); cbn [rbind]; [|eauto].
    destruct (cang (s_fend c)) as [|a [|b u]]; cbn [length] in L; [lia|lia|]. eexists. reflexivity. }
  destruct E as (e & ->). cbn [rbind]. eauto.
Qed.
Theorem C95_no_polarisations_refuted : forall full c s M, s_pol c = None -> s_lam c <> [] -> fst (calc_zern_sens full c s) <> Ok M.
Proof.
  intros full c s M P N H. destruct (calc_zern_sens full c s) as [q s'] eqn:E. cbn [fst] in H. subst q. assert (K := calc_threads _ _ _ _ _ E).
  assert (H2 : fst (calc_zern_sens full c s) = Ok M) by now rewrite E. apply (calc_iff full c s M K) in H2 as (ms & R0 & R1 & _ & _ & A2 & _).
  apply traverse_ok in A2. assert (I0 : In (0, 0)%nat (inds c)). { apply in_inds. unfold npol. rewrite P. destruct (s_lam c); [easy|cbn; lia]. }
  destruct (forall2_get _ _ _ _ A2 I0) as (F & HF). unfold field_nominal, task_env in HF. cbn [fst snd] in HF. destruct (idx (s_lam c) 0); cbn [rbind] in HF; [|discriminate]. rewrite P in HF. discriminate.
Qed.
(* the full model fails on an aberrated field: the aberration stays in mp *)
Theorem C95_failure_leaves_aberration_refuted : forall full c s si wi p z zs ms ql m F E0 e, s_par c = false -> s_proper c = false -> s_lam c = [(si, wi)] -> s_pol c = Some [p] -> s_zern c = z :: zs ->
  traverse (zone_mask c) (s_rsens c) = Ok ms -> traverse (s_map c) (s_zern c) = Ok ql -> s_map c z = Ok m -> aberrate (s_rms c) (s_wvl c si wi) m (z_E s si wi) = Ok F ->
  full (set_pol p s) si wi = Ok E0 -> fits c E0 = true -> (forall s1, phase_state c s si wi p m s1 -> full s1 si wi = Raise e) ->
  exists s', calc_zern_sens full c s = (Raise e, s') /\ phase_state c s si wi p m s'.
Proof.
  intros full c s si wi p z zs ms ql m F E0 e P1 P2 HL HP HZ A1 A2 A3 A4 A5 A6 HF. unfold calc_zern_sens. rewrite A1. cbn [rbind]. rewrite P2, A2. cbn [rbind].
  unfold run_tasks. rewrite P1. unfold inds, inds_zern, npol. rewrite HL, HP, HZ. cbn [length seq list_prod map app].
  cbn [in_turn]. assert (TE : task_env c 0 0 = Ok ((si, wi), p)) by (unfold task_env; rewrite HL, HP; reflexivity).
  unfold field_nominal at 1. cbn [fst snd]. rewrite TE, A5, A6.
  unfold field_zern at 1. cbn [fst snd]. rewrite TE. rewrite HZ. cbn [idx nth_error].
  change (match z_ind (set_pol p s) with Some x => x | None => ([], []) end) with (dind s). cbv zeta.
  change (mkz (z_E (set_pol p (set_pol p s))) (Some (dind s)) (z_val (set_pol p (set_pol p s))) (z_pol (set_pol p (set_pol p s)))) with (with_ind s p).
  destruct (disturb c si wi z (with_ind s p) (fst (dind s)) (snd (dind s))) as [s1|e1] eqn:ED.
  2:{ unfold disturb in ED. rewrite P2, A3 in ED. cbn [rbind with_ind z_E] in ED. rewrite A4 in ED. discriminate. }
  destruct (disturb_phase _ _ _ _ _ _ _ P2 ED) as (m' & M1 & M2). rewrite A3 in M1. injection M1 as <-. rewrite (HF s1 M2). eauto.
Qed.
(* PROPER models that read mp.full.zval: the second call finds the last Zernike of the first one still in place *)
Definition reads_zval (full : fullmodel) : Prop := forall s1 s2 si wi, z_E s1 = z_E s2 -> fst (dind s1) = fst (dind s2) -> z_val s1 = z_val s2 -> z_pol s1 = z_pol s2 -> full s1 si wi = full s2 si wi.
Lemma last_prod {A B} (a : list A) (b : list B) y : a <> [] -> exists l x, list_prod a (b ++ [y]) = (l ++ [(x, y)])%list.
Proof.
  induction a as [|x a IH]; intros N; [easy|]. cbn [list_prod]. rewrite map_app. cbn [map]. destruct a as [|x2 a].
  - cbn [list_prod]. rewrite app_nil_r. eauto.
  - destruct IH as (l & x' & IH); [easy|]. rewrite IH. exists ((map (fun y0 => (x, y0)) b ++ [(x, y)]) ++ l)%list, x'. now rewrite app_assoc.
Qed.
Lemma in_turn_last {T} (f : T -> zst -> res (field C) * zst) fit l t s R s' : in_turn f fit (l ++ [t])%list s = (Ok R, s') -> exists R1 s1 E, in_turn f fit l s = (Ok R1, s1) /\ f t s1 = (Ok E, s').
Proof.
  revert s R. induction l as [|x l IH]; intros s R H; cbn [app in_turn] in *.
  - destruct (f t s) as [[E|e] s1] eqn:F; [|discriminate]. destruct (fit E); [|discriminate]. injection H as _ <-. eauto 10.
  - destruct (f x s) as [[E|e] s1]; [|discriminate]. destruct (fit E); [|discriminate]. destruct (in_turn f fit (l ++ [t]) s1) as [[R1|e] s2] eqn:Q; [|discriminate].
    injection H as _ <-. destruct (IH _ _ Q) as (R2 & s3 & E2 & Q1 & Q2). rewrite Q1. eauto 10.
Qed.
Lemma zval_left full c s M s' zl z zi zv ps : calc_zern_sens full c s = (Ok M, s') -> s_par c = false -> s_proper c = true -> s_pol c = Some ps -> ps <> [] -> s_lam c <> [] ->
  s_zern c = (zl ++ [z])%list -> z_ind s = Some (zi, zv) -> In z zi -> exists v, bump zi zv z (s_rms c) = Ok v /\ z_val s' = Some v.
Proof.
  intros H P1 P2 HP NP NL HZ HI HIn. unfold calc_zern_sens in H. destruct (do ms <- _; _) as [ms|e]; [|discriminate].
  destruct (run_tasks (field_nominal full c) c (inds c) s) as [[R0|e] s1] eqn:E0; [|discriminate].
  destruct (run_tasks (field_zern full c) c (inds_zern c) s1) as [[R1|e] s2] eqn:E1; [|discriminate]. injection H as _ <-.
  assert (I0 : inv0 s s) by (split; [|split]; reflexivity).
  assert (I1 := inv0_inv1 c s s1 (run_inv _ _ (fun t s1 E s2 H H2 => inv0_state full c s t s1 E s2 H H2) c _ s R0 s1 I0 E0)).
  unfold run_tasks in E1. rewrite P1 in E1. unfold inds_zern in E1. rewrite HZ, app_length in E1. cbn [length] in E1. rewrite Nat.add_1_r, seq_S in E1.
  destruct (last_prod (list_prod (seq 0 (length (s_lam c))) (seq 0 (npol c))) (seq 0 (length zl)) (0 + length zl)%nat) as (l & [il ip] & EL).
  { unfold npol. rewrite HP. destruct (s_lam c); [easy|]. destruct ps; [easy|]. discriminate. }
  rewrite EL in E1. destruct (in_turn_last _ _ _ _ _ _ _ E1) as (R2 & s3 & E & Q1 & Q2).
  assert (I3 := in_turn_inv _ _ (fun t s1 E s2 H H2 => inv1_state full c s t s1 E s2 H H2) _ _ _ _ _ I1 Q1).
  assert (DI := inv1_dind c s s3 I3). unfold field_zern in Q2. cbn [fst snd] in Q2. destruct (task_env c il ip) as [[[si wi] p]|e]; [|discriminate].
  rewrite DI in Q2. cbv zeta in Q2. unfold idx in Q2. rewrite HZ in Q2. cbn [Nat.add] in Q2. rewrite nth_error_app2, Nat.sub_diag in Q2 by lia. cbn [nth_error] in Q2.
  unfold disturb in Q2. rewrite P2 in Q2. unfold dind in Q2. rewrite HI in Q2. cbn [fst snd] in Q2.
  replace (existsb (Z.eqb z) zi) with true in Q2 by (symmetry; apply existsb_exists; exists z; now rewrite Z.eqb_refl).
  destruct (bump zi zv z (s_rms c)) as [v|e]; cbn [rbind] in Q2; [|discriminate]. exists v. split; [reflexivity|]. destruct (full _ si wi); [|discriminate]. injection Q2 as _ <-. reflexivity.
Qed.
Theorem C95_second_call_refuted : forall full c s M s' M2 s2 zl z zi zv ps ia r, reads_zval full -> s_par c = false -> s_proper c = true -> s_pol c = Some ps -> ps <> [] -> s_lam c <> [] ->
  s_zern c = (zl ++ [z])%list -> z_ind s = Some (zi, zv) -> In z zi -> nth_error (s_rsens c) ia = Some r ->
  calc_zern_sens full c s = (Ok M, s') -> calc_zern_sens full c s' = (Ok M2, s2) -> nth ia (nth (length zl) M2 []) None = None \/ nth ia (nth (length zl) M2 []) None = Some 0.
Proof.
  intros full c s M s' M2 s2 zl z zi zv ps ia r HRd P1 P2 HP NP NL HZ HI HIn HR H1 H2.
  destruct (zval_left _ _ _ _ _ _ _ _ _ _ H1 P1 P2 HP NP NL HZ HI HIn) as (v & V1 & V2). destruct (C95_restored _ _ _ _ _ H1) as (A & B & _).
  assert (HI' : z_ind s' = Some (zi, zv)) by (destruct B as [B|[B _]]; congruence).
  assert (HZn : nth_error (s_zern c) (length zl) = Some z) by (rewrite HZ, nth_error_app2, Nat.sub_diag by lia; reflexivity).
  destruct (sens_core _ _ _ _ _ _ _ _ _ _ H2 HP NP NL HZn HR) as (m & D & A1 & A2 & A3). rewrite A3. rewrite mean_over_zero; [destruct (Req_EM_T (count_of c m) 0); auto|]. intros i j _ _.
  replace (rsum (length (s_lam c)) _) with 0; [unfold Rdiv; ring|]. symmetry. apply rsum_zero. intros il Hil.
  replace (rsum (length ps) _) with 0; [unfold Rdiv; ring|]. symmetry. apply rsum_zero. intros ip Hip.
  destruct (nth_error (s_lam c) il) as [[si wi]|] eqn:EL; [|apply nth_error_None in EL; lia]. destruct (nth_error ps ip) as [p|] eqn:EP; [|apply nth_error_None in EP; lia].
  destruct (A2 il ip si wi p EL EP) as (s0 & s1 & E0 & E1 & (B1 & B2 & B3 & B4) & Q & F0 & F1 & V). rewrite V.
  assert (DI : dind s' = (zi, zv)) by (unfold dind; now rewrite HI').
  unfold disturb in Q. rewrite P2, DI in Q. cbn [fst snd] in Q. replace (existsb (Z.eqb z) zi) with true in Q by (symmetry; apply existsb_exists; exists z; now rewrite Z.eqb_refl).
  rewrite V1 in Q. cbn [rbind] in Q. injection Q as <-.
  assert (F : full s0 si wi = full (mkz (z_E (with_ind s' p)) (Some (zi, v)) (Some v) (z_pol (with_ind s' p))) si wi).
  { apply HRd; cbn [z_E z_val z_pol with_ind]; [exact B1| |congruence|exact B4]. unfold dind. rewrite B2, HI'. reflexivity. }
  assert (FE : Ok E0 = Ok E1) by (rewrite <- F0, <- F1; exact F). injection FE as <-. destruct (fpx E0 i j) as [x y]. unfold abs2. cbn. ring.
Qed.

(* ---- concrete case: two pixels by two, one wavelength, an identity model ---- *)
Definition ex_fend : fend := mkfend 1 "interpixel" (Some 1) None None None None [0] [1] [360] ["right"%string] None None None None 1 [0] [1] [360].
Definition ex_sens (proper par : bool) (zs : list Z) (rms : R) : scfg :=
  mksc ex_fend 2 2 [(0, 1); (5, 6)] zs proper [(0, 0)%Z] (Some [0%Z]) rms (fun _ _ => 1) (fun _ => Ok (mkf 2 2 (fun _ _ => 1))) par 4.
Definition ex_state : zst := mkz (fun _ _ => mkf 2 2 (fun _ _ => RtoC 1)) (Some ([4%Z], [0])) None None.
(* the first pixel of the entrance field everywhere, and the first coefficient in mp.full.zval everywhere *)
Definition const2 (v : C) : field C := mkf 2 2 (fun _ _ => v).
Definition ex_full : fullmodel := fun s si wi => let E := z_E s si wi in Ok (const2 (if (Nat.eqb (frows E) 0 || Nat.eqb (fcols E) 0)%bool then RtoC 0 else fpx E 0 0)).
Definition ex_zval : fullmodel := fun s _ _ => Ok (const2 (RtoC (match z_val s with Some (v :: _) => v | _ => 0 end))).
Lemma ex_size : default_size true (1 * 1 + Rabs 0) 1 = 2%Z.
Proof. unfold default_size, ceil_even. rewrite Rabs_R0. replace (/ 2 * (2 * (1 * 1 + 0) * 1)) with 1 by lra. rewrite (Zceil_IZR 1). reflexivity. Qed.
Lemma ex_zone proper par zs rms a b : exists m, zone_mask (ex_sens proper par zs rms) (a, b) = Ok m /\
  forall i j, (i < 2)%nat -> (j < 2)%nat -> m i j = (Rle_bool (a - 13 * eps) (sqrt (1 / 2)) && Rle_bool (sqrt (1 / 2)) (b + 13 * eps))%bool.
Proof.
  Local Open Scope string_scope.
  unfold zone_mask, zone_in. cbn [s_fend ex_sens ex_fend f_FOV f_sides f_shape cang f_res f_cen idx nth_error rbind fst snd].
  unfold falco_gen_SW_mask. cbn [MaskModel.centering MaskModel.shape clockAngDeg FOV xiOffset etaOffset xiFOV etaFOV Nxi Neta pixresFP rhoInner rhoOuter angDeg whichSide dget].
  change (str_in "interpixel" ["pixel"; "interpixel"]) with true. cbn [negb]. change (lower "circle") with "circle".
  change (max_extent "circle" 0) with 1. change (String.eqb "interpixel" "interpixel") with true. rewrite ex_size.
  destruct (Req_EM_T 1 0) as [E|_]; [lra|]. change (side_angle "right") with (Some 0). cbv beta iota.
  change (shape_test "circle" 0 0 0 0 0) with (Some (Rle_bool 0 0 && Rle_bool 0 0)%bool). cbv beta iota. cbn [rbind sw_mask nr nc].
  change ((Z.max 0 2 =? Z.of_nat 2) && (Z.max 0 2 =? Z.of_nat 2))%Z with true. cbv beta iota. eexists. split; [reflexivity|]. intros i j Hi Hj. cbn [px].
  change (two_sided "right") with false. unfold shape_test. change (str_in "circle" ["circle"; "annulus"]) with true. cbv beta iota zeta. cbn [andb]. rewrite orb_false_r.
  assert (Q : forall k, (k < 2)%nat -> (sw_axis true 2 (1 / 1) (Z.of_nat k) - 0) * (sw_axis true 2 (1 / 1) (Z.of_nat k) - 0) = 1 / 4).
  { intros k Hk. unfold sw_axis. destruct k as [|[|k]]; [cbn [Z.of_nat]; field|cbn; field|lia]. }
  rewrite !Q by assumption. replace (1 / 4 + 1 / 4) with (1 / 2) by field.
  assert (T : forall th c, sector_test th c (radians 360) = true).
  { intros th c. unfold sector_test. apply Rle_bool_iff. unfold radians. replace (360 * PI / 180 / 2) with PI by field. unfold wrapped.
    destruct (atan2_range (sin (th - c)) (cos (th - c))). apply Rabs_le. lra. }
  rewrite T. rewrite andb_true_r. reflexivity.
Qed.
Local Close Scope string_scope.

Lemma ex_masks m1 m2 proper par zs rms (c := ex_sens proper par zs rms) : (forall i j, (i < 2)%nat -> (j < 2)%nat -> m1 i j = (Rle_bool (0 - 13 * eps) (sqrt (1 / 2)) && Rle_bool (sqrt (1 / 2)) (1 + 13 * eps))%bool) ->
  (forall i j, (i < 2)%nat -> (j < 2)%nat -> m2 i j = (Rle_bool (5 - 13 * eps) (sqrt (1 / 2)) && Rle_bool (sqrt (1 / 2)) (6 + 13 * eps))%bool) ->
  forall v, (forall v0, (forall i j, (i < 2)%nat -> (j < 2)%nat -> v i j = v0) -> mean_over c m1 v = Some v0) /\ mean_over c m2 v = None.
Proof.
  intros H1 H2 v. assert (P : 0 < eps < / 100). { unfold eps. split; [apply Rinv_0_lt_compat; lra|apply Rinv_lt_contravar; lra]. }
  assert (S1 : 0 <= sqrt (1 / 2) <= 1). { split; [apply sqrt_pos|]. rewrite <- sqrt_1 at 2. apply sqrt_le_1; lra. }
  assert (B1 : forall i j, (i < 2)%nat -> (j < 2)%nat -> m1 i j = true). { intros i j Hi Hj. rewrite H1 by assumption. apply andb_true_intro. split; apply Rle_bool_iff; lra. }
  assert (B2 : forall i j, (i < 2)%nat -> (j < 2)%nat -> m2 i j = false). { intros i j Hi Hj. rewrite H2 by assumption. apply andb_false_intro1. apply not_true_is_false. rewrite Rle_bool_iff. lra. }
  split.
  - intros v0 V. unfold mean_over, count_of, total_of. cbn [s_ne s_nx c ex_sens rsum]. rewrite !B1, !V by lia. destruct (Req_EM_T _ 0) as [E|_]; [lra|]. f_equal. field.
  - unfold mean_over, count_of. cbn [s_ne s_nx c ex_sens rsum]. rewrite !B2 by lia. destruct (Req_EM_T _ 0) as [_|E]; [reflexivity|]. lra.
Qed.
Lemma annulus_fun c r m m' : annulus c r m -> annulus c r m' -> forall i j, m i j = m' i j.
Proof.
  intros (fov & sd & sh & ang & o & A1 & A2 & A3 & A4 & A5 & _ & _ & A6) (fov' & sd' & sh' & ang' & o' & B1 & B2 & B3 & B4 & B5 & _ & _ & B6) i j. rewrite A6, B6.
  assert (fov' = fov) by congruence. assert (sd' = sd) by congruence. assert (ang' = ang) by congruence. subst.
  assert (sh' = sh). { destruct (f_shape (s_fend c)); [destruct A4 as (x & X1 & ->), B4 as (y & Y1 & ->); congruence|congruence]. } subst. congruence.
Qed.
Lemma ex_ok par proper full zs rms s R0 R1 : length zs <> 1%nat ->
  traverse (fun t => fst (field_nominal full (ex_sens proper par zs rms) t s)) (inds (ex_sens proper par zs rms)) = Ok R0 -> forallb (fits (ex_sens proper par zs rms)) R0 = true ->
  traverse (fun t => fst (field_zern full (ex_sens proper par zs rms) t s)) (inds_zern (ex_sens proper par zs rms)) = Ok R1 -> forallb (fits (ex_sens proper par zs rms)) R1 = true ->
  exists M s', calc_zern_sens full (ex_sens proper par zs rms) s = (Ok M, s').
Proof.
  intros N A1 A2 A3 A4. destruct (ex_zone proper par zs rms 0 1) as (m1 & Z1 & _), (ex_zone proper par zs rms 5 6) as (m2 & Z2 & _).
  assert (G : exists M, fst (calc_zern_sens full (ex_sens proper par zs rms) s) = Ok M).
  { assert (SM : exists M, sens_mat (ex_sens proper par zs rms) (de_array (inds_zern (ex_sens proper par zs rms)) R1 (e0_array (inds (ex_sens proper par zs rms)) R0)) [m1; m2] = Ok M).
    { unfold sens_mat, squeezed. cbn [s_ne s_nx s_zern ex_sens Nat.eqb orb]. destruct (Nat.eqb_spec (length zs) 1); [contradiction|]. cbn [andb]. eauto. }
    destruct SM as (M & SM). exists M. apply calc_iff; [intros _; cbn; lia|]. exists [m1; m2], R0, R1. split; [|split].
    - cbn [s_rsens ex_sens traverse]. fold (ex_sens proper par zs rms). rewrite Z1. cbn [rbind]. now rewrite Z2.
    - intros _. cbn [s_map s_zern ex_sens]. clear. induction zs as [|x t IH]; [now exists []|]. destruct IH as (q & IH). cbn [traverse rbind]. rewrite IH. cbn [rbind]. eauto.
    - auto. }
  destruct G as (M & G). destruct (calc_zern_sens full (ex_sens proper par zs rms) s) as [q s']. cbn [fst] in G. subst. eauto.
Qed.
Theorem C95_example : forall par, ordinary ex_full /\ exists M s', calc_zern_sens ex_full (ex_sens false par [2%Z; 3%Z] (1 / 2)) ex_state = (Ok M, s') /\
  nth 0 (nth 1 M []) None = Some 4 /\ nth 1 (nth 1 M []) None = None.
Proof.
  intros par. split.
  { intros s1 s2 si wi H _ _ _. unfold ex_full. destruct (H si wi) as (A & B & D). cbv zeta. rewrite <- A, <- B.
    destruct (Nat.eqb_spec (frows (z_E s1 si wi)) 0); [reflexivity|]. destruct (Nat.eqb_spec (fcols (z_E s1 si wi)) 0); [reflexivity|]. cbn [orb]. now rewrite D by lia. }
  set (c := ex_sens false par [2%Z; 3%Z] (1 / 2)). destruct (ex_ok par false ex_full [2%Z; 3%Z] (1 / 2) ex_state
    [const2 (RtoC 1)] [const2 (Cmult (RtoC 1) (cis (2 * PI / 1 * (1 / 2) * 1))); const2 (Cmult (RtoC 1) (cis (2 * PI / 1 * (1 / 2) * 1)))]) as (M & s' & H);
    [easy|reflexivity|reflexivity|reflexivity|reflexivity|].
  exists M, s'. split; [exact H|]. destruct (ex_zone false par [2%Z; 3%Z] (1 / 2) 0 1) as (m1 & Z1 & Y1), (ex_zone false par [2%Z; 3%Z] (1 / 2) 5 6) as (m2 & Z2 & Y2).
  assert (X := ex_masks m1 m2 false par [2%Z; 3%Z] (1 / 2) Y1 Y2). cbv zeta in X. fold c in X, Z1, Z2, H.
  assert (V : forall ia r, nth_error (s_rsens c) ia = Some r -> exists m D, annulus c r m /\ (forall i j, (i < 2)%nat -> (j < 2)%nat -> D i j = 4) /\ nth ia (nth 1 M []) None = mean_over c m D).
  { intros ia r HR. destruct (C95_value ex_full c ex_state M s' 1 ia 3%Z r [0%Z] H eq_refl eq_refl ltac:(discriminate) ltac:(discriminate) eq_refl HR) as (m & q & D & A1 & A2 & A3 & A4).
    exists m, (fun i j => (0 + (0 + D 0%nat 0%nat i j) / INR 1) / INR 1). split; [exact A1|]. split; [|exact A4]. intros i j Hi Hj.
    destruct (A3 0%nat 0%nat 0%Z 0%Z 0%Z eq_refl eq_refl) as (s0 & s1 & E0 & E1 & (B1 & _) & (D1 & D2 & D3 & D4 & _) & F0 & F1 & VV). rewrite VV. injection A2 as <-.
    unfold ex_full in F0, F1. cbv zeta in F0, F1. rewrite B1 in F0. rewrite D2, D3 in F1. cbn [ex_state z_E frows fcols fpx Nat.eqb orb] in F0, F1. injection F0 as <-. injection F1 as <-. cbn [const2 fpx].
    rewrite D4; [|reflexivity|reflexivity|cbn; lia|cbn; lia]. cbn [fpx ex_state z_E s_rms s_wvl c ex_sens INR]. replace (2 * PI * (1 / 2 * 1) / 1) with PI by field. unfold cis. rewrite cos_PI, sin_PI. unfold abs2, Cminus, Cplus, Copp, Cmult, RtoC. cbn [fst snd]. field. }
  split.
  - destruct (V 0%nat (0, 1) eq_refl) as (m & D & A1 & A2 & ->). assert (EQ := annulus_fun c (0, 1) m m1 A1 (zone_annulus c _ _ Z1)).
    replace (mean_over c m D) with (mean_over c m1 D); [now apply X|]. unfold mean_over, count_of, total_of. cbn [s_ne s_nx c ex_sens rsum]. now rewrite !EQ.
  - destruct (V 1%nat (5, 6) eq_refl) as (m & D & A1 & A2 & ->). assert (EQ := annulus_fun c (5, 6) m m2 A1 (zone_annulus c _ _ Z2)).
    replace (mean_over c m D) with (mean_over c m2 D); [now apply X|]. unfold mean_over, count_of, total_of. cbn [s_ne s_nx c ex_sens rsum]. now rewrite !EQ.
Qed.
(* a PROPER model that reads mp.full.zval: 1 in the first call, 0 in the second *)
Theorem C95_proper_example : reads_zval ex_zval /\ exists M s' M2 s2, calc_zern_sens ex_zval (ex_sens true false [5%Z; 4%Z] 1) ex_state = (Ok M, s') /\
  calc_zern_sens ex_zval (ex_sens true false [5%Z; 4%Z] 1) s' = (Ok M2, s2) /\ nth 0 (nth 1 M []) None = Some 1 /\ nth 0 (nth 1 M2 []) None = Some 0.
Proof.
  split. { intros s1 s2 si wi _ _ H _. unfold ex_zval. now rewrite H. }
  set (c := ex_sens true false [5%Z; 4%Z] 1).
  destruct (ex_ok false true ex_zval [5%Z; 4%Z] 1 ex_state [const2 (RtoC 0)] [const2 (RtoC 0); const2 (RtoC (0 + 1))]) as (M & s' & H); [easy|reflexivity|reflexivity|reflexivity|reflexivity|].
  fold c in H. destruct (zval_left _ _ _ _ _ [5%Z] 4%Z [4%Z] [0] [0%Z] H eq_refl eq_refl eq_refl ltac:(discriminate) ltac:(discriminate) eq_refl eq_refl ltac:(now left)) as (v & V1 & V2). injection V1 as <-.
  destruct (C95_restored _ _ _ _ _ H) as (A & B & _). assert (HI : z_ind s' = Some ([4%Z], [0])) by (destruct B as [B|[B _]]; [exact B|discriminate]).
  destruct (ex_ok false true ex_zval [5%Z; 4%Z] 1 s' [const2 (RtoC (0 + 1))] [const2 (RtoC 0); const2 (RtoC (0 + 1))]) as (M2 & s2 & H2); [easy| |reflexivity| |reflexivity|].
  { cbn. unfold field_nominal, ex_zval. cbn. rewrite V2. reflexivity. }
  { cbn. unfold field_zern, disturb, ex_zval. cbn. rewrite HI. reflexivity. }
  fold c in H2. exists M, s', M2, s2. split; [exact H|]. split; [exact H2|].
  destruct (ex_zone true false [5%Z; 4%Z] 1 0 1) as (m1 & Z1 & Y1), (ex_zone true false [5%Z; 4%Z] 1 5 6) as (m2 & Z2 & Y2).
  assert (X := ex_masks m1 m2 true false [5%Z; 4%Z] 1 Y1 Y2). cbv zeta in X. fold c in X, Z1, Z2.
  assert (Q : forall s M s' w, calc_zern_sens ex_zval c s = (Ok M, s') -> z_ind s = Some ([4%Z], [0]) -> (match z_val s with Some (v :: _) => v | _ => 0 end) = w -> nth 0 (nth 1 M []) None = Some ((1 - w) * (1 - w))).
  { clear -X Z1. intros s M s' w H HI HW.
    destruct (sens_core ex_zval c s M s' 1 0 4%Z (0, 1) [0%Z] H eq_refl ltac:(discriminate) ltac:(discriminate) eq_refl eq_refl) as (m & D & A1 & A3 & ->).
    assert (EQ := annulus_fun c (0, 1) m m1 A1 (zone_annulus c _ _ Z1)).
    match goal with |- mean_over c m ?d = _ => replace (mean_over c m d) with (mean_over c m1 d) by (unfold mean_over, count_of, total_of; cbn [s_ne s_nx c ex_sens rsum]; now rewrite !EQ) end.
    apply X. intros i j Hi Hj. cbn [length c ex_sens s_lam rsum INR].
    destruct (A3 0%nat 0%nat 0%Z 0%Z 0%Z eq_refl eq_refl) as (s0 & s1 & E0 & E1 & (_ & _ & B3 & _) & Q & F0 & F1 & VV). rewrite VV.
    unfold disturb, dind in Q. rewrite HI in Q. cbn in Q. injection Q as <-. unfold ex_zval in F0, F1. rewrite B3, HW in F0. injection F0 as <-. injection F1 as <-. cbn [const2 fpx].
    unfold abs2, Cminus, Cplus, Copp, RtoC. cbn [fst snd]. field. }
  split; [rewrite (Q _ _ _ 0 H eq_refl eq_refl); f_equal; ring|]. rewrite (Q _ _ _ (0 + 1) H2 HI); [f_equal; ring|]. now rewrite V2.
Qed.
