(* C74, continued: the optical constants themselves, and which layer gets which index. *)
From Verif Require Import Base RBase StrBase CBase PropModel OptModel ThinModel ThinProofs2 FilmModel FilmSpec FilmProofs FilmProofs2 FilmProps.
From Coq Require Import Sorted.
Open Scope R_scope.

Lemma sqrt_between a b x : 0 <= a -> 0 <= b -> a * a <= x <= b * b -> a <= sqrt x <= b.
Proof.
  intros Ha Hb (H1 & H2). split.
  - rewrite <- (sqrt_square a Ha). now apply sqrt_le_1_alt.
  - rewrite <- (sqrt_square b Hb). now apply sqrt_le_1_alt.
Qed.

(* Published refractive indices at the helium d line (587.6 nm): fused silica 1.4585, N-BK7 1.5168;
   PMGI 1.5400 at 600 nm. *)
Theorem C74_reference_indices : forall tb,
  (exists n, substrate_index "fs" (5876 / 10000) = Ok n /\ 14584 / 10000 <= n <= 14585 / 10000) /\
  (exists n, substrate_index "N-BK7" (5876 / 10000) = Ok n /\ 15167 / 10000 <= n <= 15168 / 10000) /\
  (exists n, dielectric_index tb "PMGI" (6 / 10) 600 = Ok (n, 0) /\ 15399 / 10000 <= n <= 15401 / 10000).
Proof.
  intros tb. split; [|split].
  - eexists. split; [unfold substrate_index; cbn [str_in existsb upper upper_ascii]; reflexivity|].
    apply sqrt_between; [lra|lra|]. lra.
  - eexists. split; [unfold substrate_index; cbn [str_in existsb upper upper_ascii]; reflexivity|].
    apply sqrt_between; [lra|lra|]. lra.
  - eexists. split; [unfold dielectric_index; cbn [str_in existsb lower lower_ascii]; reflexivity|]. lra.
Qed.

(* Normal dispersion: from 0.2 to 2 microns every transparent material's index strictly falls with wavelength. *)
Lemma term_dec B C a b : 0 < B -> 0 < C -> a < b -> 0 < a -> (C < a \/ b < C) -> B * b / (b - C) < B * a / (a - C).
Proof.
  intros HB HC Hab Ha H.
  assert (E : forall x, x <> C -> B * x / (x - C) = B + B * C / (x - C)) by (intros x Hx; field; lra).
  rewrite !E by (destruct H; lra). assert (BC : 0 < B * C) by nra.
  apply Rplus_lt_compat_l. unfold Rdiv. apply Rmult_lt_compat_l; [assumption|]. destruct H as [H|H].
  - apply Rinv_lt_contravar; [nra|lra].
  - apply Ropp_lt_cancel. rewrite <- !Rinv_opp. apply Rinv_lt_contravar; [nra|lra].
Qed.
Theorem C74_normal_dispersion tb um um' : 2 / 10 <= um -> um < um' -> um' <= 2 ->
  (forall s n n', substrate_index s um = Ok n -> substrate_index s um' = Ok n' -> n' < n) /\
  (forall s nm nm' n n' k k', lower s = "pmgi"%string -> dielectric_index tb s um nm = Ok (n, k) -> dielectric_index tb s um' nm' = Ok (n', k') -> n' < n).
Proof.
  intros H1 H2 H3. split.
  - intros s n n' E E'. unfold substrate_index in *. set (l := um * um) in *. set (l' := um' * um') in *.
    assert (L : 4 / 100 <= l /\ l < l' /\ l' <= 4) by (unfold l, l'; nra). destruct L as (L1 & L2 & L3).
    pose proof (sub_good s um' n' ltac:(lra)) as G. unfold substrate_index in G. fold l' in G.
    destruct (str_in (upper s) ["FS"; _]%string); [|destruct (str_in (upper s) _); [|discriminate]].
    + specialize (G E'). injection E as <-. injection E' as <-.
      apply sqrt_lt_1_alt. split.
      { apply Rnot_lt_le. intros Q. rewrite sqrt_neg_0 in G by lra. lra. }
      pose proof (term_dec (683740494 / 1000000000) (460352869 / 100000000000) l l' ltac:(lra) ltac:(lra) L2 ltac:(lra) ltac:(lra)).
      pose proof (term_dec (420323613 / 1000000000) (133968856 / 10000000000) l l' ltac:(lra) ltac:(lra) L2 ltac:(lra) ltac:(lra)).
      pose proof (term_dec (58502748 / 100000000) (644932732 / 10000000) l l' ltac:(lra) ltac:(lra) L2 ltac:(lra) ltac:(lra)). lra.
    + specialize (G E'). injection E as <-. injection E' as <-.
      apply sqrt_lt_1_alt. split.
      { apply Rnot_lt_le. intros Q. rewrite sqrt_neg_0 in G by lra. lra. }
      pose proof (term_dec (103961212 / 100000000) (600069867 / 100000000000) l l' ltac:(lra) ltac:(lra) L2 ltac:(lra) ltac:(lra)).
      pose proof (term_dec (231792344 / 1000000000) (200179144 / 10000000000) l l' ltac:(lra) ltac:(lra) L2 ltac:(lra) ltac:(lra)).
      pose proof (term_dec (101046945 / 100000000) (103560653 / 1000000) l l' ltac:(lra) ltac:(lra) L2 ltac:(lra) ltac:(lra)). lra.
  - intros s nm nm' n n' k k' Hs E E'. unfold dielectric_index in *. rewrite Hs in *. cbn [str_in existsb String.eqb] in *.
    change (String.eqb "pmgi" "pmgi") with true in *. cbn [orb] in *. injection E as <- <-. injection E' as <- <-.
    set (l := um * um) in *. set (l' := um' * um') in *.
    assert (L : 4 / 100 <= l /\ l < l') by (unfold l, l'; nra). destruct L as (L1 & L2).
    assert (I1 : / l' < / l) by (apply Rinv_lt_contravar; nra).
    replace (l * um * um) with (l * l) by (unfold l; ring). replace (l' * um' * um') with (l' * l') by (unfold l'; ring).
    assert (I2 : / (l' * l') < / (l * l)) .
    { clearbody l l'. clear - L1 L2. apply Rinv_lt_contravar; [|nra]. repeat apply Rmult_lt_0_compat; lra. }
    unfold Rdiv in *. lra.
Qed.

(* A tabulated wavelength gives the tabulated value. *)
Lemma interp_first x : forall xs fs f, Forall (fun y => x < y) xs -> length xs = length fs -> np_interp x (x :: xs) (f :: fs) = f.
Proof.
  intros [|y xs] [|g fs] f H L; try discriminate; [reflexivity|]. cbn [np_interp].
  destruct (Rlt_dec x x); [lra|]. inversion H as [|? ? H1 H2]; subst. destruct (Rlt_dec x y); [|lra].
  field. lra.
Qed.
Lemma interp_node (t : list (R * R * R)) (g : R -> R) (h : R * R * R -> R) w n k : StronglySorted Rlt (map g (col1 t)) -> In (w, n, k) t ->
  np_interp (g w) (map g (col1 t)) (map h t) = h (w, n, k).
Proof.
  induction t as [|r t IH]; intros S Hin; [contradiction|].
  cbn [col1 map] in *. fold (col1 t) in *. inversion S as [|? ? S' F]; subst. destruct Hin as [->|Hin].
  - cbn [fst]. apply interp_first; [exact F|]. unfold col1. now rewrite !map_length.
  - specialize (IH S' Hin). assert (Hlt : g (fst (fst r)) < g w).
    { rewrite Forall_forall in F. apply F. apply in_map. unfold col1. apply (in_map (fun z => fst (fst z))) in Hin. exact Hin. }
    destruct t as [|r2 t]; [contradiction|]. cbn [col1 map] in *. fold (col1 t) in *. rewrite WinProofs.interp_cons.
    destruct (Rlt_dec (g w) (g (fst (fst r)))); [lra|].
    destruct (Rlt_dec (g w) (g (fst (fst r2)))) as [Q|Q]; [|exact IH].
    destruct Hin as [->|Hin]; [cbn [fst] in Q; lra|]. inversion S' as [|? ? S'' F2]; subst. rewrite Forall_forall in F2.
    apply (in_map (fun z => fst (fst z))) in Hin. cbn [fst] in Hin. apply (in_map g), F2 in Hin. lra.
Qed.
Lemma row_node t w n k : StronglySorted Rlt (col1 t) -> In (w, n, k) t -> row_index t w = (n, k).
Proof.
  intros S Hin. unfold row_index, col2, col3.
  pose proof (interp_node t (fun x => x) (fun r => snd (fst r)) w n k) as A. pose proof (interp_node t (fun x => x) snd w n k) as B.
  rewrite map_id in A, B. now rewrite (A S Hin), (B S Hin).
Qed.
Lemma ti_sorted : StronglySorted Rlt (col1 ti_rows).
Proof. unfold ti_rows, col1. cbn [map fst]. repeat (constructor; [|repeat (constructor; [lra|]); constructor]). constructor. Qed.

(* The stack under one pixel, for a single polarization: air, the gap up to the reference plane, the dielectric, the metal, the titanium under it, the substrate;
   an absorbing layer has index n - i k with n and k read from its table at a tabulated wavelength. *)
Theorem C74_layers tb a dni dpm m : (ti_pol a = 0 \/ ti_pol a = 1)%Z -> calc_trans tb a [dni] [dpm] = Ok m ->
  exists n_diel n_metal n_ti n_sub o,
    let dti := if Rlt_dec dni (1 / 10000000000) then 0 else ti_tTi a in
    solver [RtoC 1; RtoC 1; n_diel; n_metal; n_ti; RtoC n_sub] [ti_d0 a - dpm - dni - dti; dpm; dni; dti] (ti_aoi a * (PI / 180)) (ti_lam a) (Z.eqb (ti_pol a) 1) = Ok o /\
    m = [[if ti_opd a then (tf_tt o, tf_rr o) else (Cconj (tf_tt o), Cconj (tf_rr o))]] /\
    substrate_index (ti_sub a) (ti_lam a * 1000000) = Ok n_sub /\
    (forall n k, StronglySorted Rlt (map (fun r => fst (fst r)) (ni_rows tb)) -> In (ti_lam a * 1000000000, n, k) (ni_rows tb) -> n_metal = (n, - k)) /\
    (ti_lam a * 1000000000 = 549 -> n_ti = (254 / 100, - (343 / 100))) /\ (ti_lam a * 1000000000 = 821 -> n_ti = (321 / 100, - (401 / 100))) /\
    (forall n k um, lower (ti_diel a) = "mgf2"%string -> StronglySorted Rlt (map (fun r => fst (fst r)) (mgf2_rows tb)) -> ti_lam a * 1000000 = um -> In (um, n, k) (mgf2_rows tb) -> n_diel = (n, - k)) /\
    (lower (ti_diel a) = "pmgi"%string -> snd n_diel = 0).
Proof.
  intros P H. unfold calc_trans in H. destruct (Rle_dec (ti_lam a) 0) as [|Q1]; [discriminate|]. destruct (Rlt_dec (ti_aoi a) 0) as [|Q2]; [discriminate|]. destruct (Rlt_dec (ti_tTi a) 0) as [|Q3]; [discriminate|].
  destruct (substrate_index (ti_sub a) (ti_lam a * 1000000)) as [ns|] eqn:ES; [|discriminate]. cbn [rbind] in H.
  destruct (dielectric_index tb (ti_diel a) (ti_lam a * 1000000) (ti_lam a * 1000000000)) as [nd|] eqn:ED; [|discriminate]. cbn [rbind] in H.
  destruct (metal_index tb (ti_metal a) (ti_lam a * 1000000000)) as [nm|] eqn:EM; [|discriminate]. cbn [rbind mapr] in H.
  destruct (trans_entry _ _ _ _ _ _ _ _ _ _ _ _) as [e|] eqn:EE; [|discriminate]. cbn [rbind] in H. injection H as <-.
  unfold trans_entry, ti_under in EE.
  assert (E2 : Z.eqb (ti_pol a) 2 = false) by (destruct P as [-> | ->]; reflexivity).
  assert (E01 : (Z.eqb (ti_pol a) 0 || Z.eqb (ti_pol a) 1)%bool = true) by (destruct P as [-> | ->]; reflexivity).
  rewrite E2, E01 in EE.
  destruct (solver _ _ _ _ _) as [o|] eqn:EO; [|discriminate]. cbn [rbind] in EE.
  exists (absorbing nd), (absorbing nm), (absorbing (row_index ti_rows (ti_lam a * 1000000000))), ns, o. cbv zeta.
  split; [exact EO|]. split; [now injection EE as <-|]. split; [reflexivity|].
  split; [|split; [|split; [|split]]].
  - intros n k S Hin. unfold metal_index in EM. destruct (str_in _ _); [|discriminate]. injection EM as <-.
    now rewrite (row_node _ _ n k S Hin).
  - intros ->. rewrite (row_node ti_rows 549 (254 / 100) (343 / 100)); [reflexivity|exact ti_sorted|]. unfold ti_rows. cbn [In]. tauto.
  - intros ->. rewrite (row_node ti_rows 821 (321 / 100) (401 / 100)); [reflexivity|exact ti_sorted|]. unfold ti_rows. cbn [In]. tauto.
  - intros n k um Hd S Eu Hin. unfold dielectric_index in ED. rewrite Hd in ED.
    change (str_in "mgf2" ["pmgi"]%string) with false in ED. change (str_in "mgf2" ["mgf2"]%string) with true in ED. cbv zeta iota in ED.
    injection ED as <-. replace (ti_lam a * 1000000000) with ((fun w => w * 1000) um) by (rewrite <- Eu; ring). unfold col2, col3.
    assert (S' : StronglySorted Rlt (map (fun w => w * 1000) (col1 (mgf2_rows tb)))).
    { clear - S. unfold col1. induction (mgf2_rows tb) as [|r t IH]; cbn [map] in *; [constructor|].
      inversion S as [|? ? S1 F]; subst. constructor; [auto|]. rewrite Forall_forall in *. intros x Hx.
      apply in_map_iff in Hx as (y & <- & Hy). specialize (F y Hy). lra. }
    rewrite (interp_node _ (fun w => w * 1000) (fun r => snd (fst r)) um n k S' Hin), (interp_node _ (fun w => w * 1000) snd um n k S' Hin). reflexivity.
  - intros Hd. unfold dielectric_index in ED. rewrite Hd in ED. change (str_in "pmgi" ["pmgi"]%string) with true in ED. cbv iota in ED.
    injection ED as <-. unfold absorbing. cbn [fst snd]. lra.
Qed.
