(* C106: reading wavefronts, and multiplying, dividing and adding to them *)
From Coquelicot Require Import Coquelicot.
From Verif Require Import Base StrBase RBase UtilModel CBase PropModel PropProofs OptModel PrpModel PrpProofs PrpProofs5 EstModel EstProofs2 MaskProofs ApModel ApSpec ApProofs3 AccModel AccSpec.
Open Scope R_scope.
Lemma ipl_sq (f : C -> C -> C) n (A B : field C) : frows A = n -> fcols A = n -> frows B = n -> fcols B = n -> exists P, ipl f A B = Ok P /\ frows P = n /\ fcols P = n /\ forall i j, (i < n)%nat -> (j < n)%nat -> fpx P i j = f (fpx A i j) (fpx B i j).
Proof.
  intros A1 A2 B1 B2. unfold ipl, bop. rewrite A1, A2, B1, B2, bdim_same. cbn [rbind frows fcols]. rewrite Nat.eqb_refl. cbn [andb]. eexists. split; [reflexivity|]. split; [reflexivity|]. split; [reflexivity|].
  intros i j Hi Hj. cbn [fpx]. now rewrite !bix_in.
Qed.
(* any of the operations, pixel by pixel in the centred wavefront; arrays on even grids *)
Definition op_spec (run : wavefront -> operand -> res wavefront) (f : C -> C -> C) (ok : operand -> Prop) : Prop :=
  forall w v, square_w w -> (1 <= w_n w)%nat -> fits (w_n w) v -> ok v -> (match v with Arr _ => Nat.even (w_n w) = true | _ => True end) ->
    exists w', run w v = Ok w' /\ square_w w' /\ same_but_array w w' /\ forall i j, (i < w_n w)%nat -> (j < w_n w)%nat -> centred w' i j = f (centred w i j) (at_pixel v i j).
Lemma arr_op (f : C -> C -> C) w (a P : field C) : square_w w -> (1 <= w_n w)%nat -> frows a = w_n w -> fcols a = w_n w -> Nat.even (w_n w) = true ->
  frows P = w_n w -> fcols P = w_n w -> (forall i j, (i < w_n w)%nat -> (j < w_n w)%nat -> fpx P i j = f (fpx (w_arr w) i j) (fpx (shift_center a) i j)) ->
  square_w (set_arr w P) /\ same_but_array w (set_arr w P) /\ forall i j, (i < w_n w)%nat -> (j < w_n w)%nat -> centred (set_arr w P) i j = f (centred w i j) (fpx a i j).
Proof.
  intros [S1 S2] N A1 A2 EV P1 P2 V. split; [split; assumption|]. split; [reflexivity|]. intros i j Hi Hj. unfold centred. cbn [shift_center roll2 set_arr w_arr frows fcols fpx]. rewrite P1, P2, S1, S2.
  rewrite V by (apply roll_lt; lia). cbn [shift_center roll2 frows fcols fpx]. rewrite A1, A2, !roll_twice_even by auto. reflexivity.
Qed.
Lemma num_op (f : C -> C -> C) w c : square_w w -> (1 <= w_n w)%nat ->
  square_w (set_arr w (fmap (fun z => f z c) (w_arr w))) /\ same_but_array w (set_arr w (fmap (fun z => f z c) (w_arr w))) /\ forall i j, centred (set_arr w (fmap (fun z => f z c) (w_arr w))) i j = f (centred w i j) c.
Proof. intros [S1 S2] N. split; [split; assumption|]. split; [reflexivity|]. intros i j. reflexivity. Qed.
(* each multiplies, divides or adds what it is given, pixel by pixel with the centre at the middle; nothing else changes *)
Theorem C106_operations : op_spec multiply_by Cmult (fun v => match v with Cpx _ => False | _ => True end) /\ op_spec divide_by Cdiv (fun v => match v with Cpx _ => False | _ => True end) /\ op_spec add_to Cplus (fun _ => True).
Proof.
  split; [|split]; intros w v S N F K EV; destruct v as [x|c|a]; try contradiction; cbn [at_pixel multiply_by divide_by add_to].
  all: try (eexists; split; [reflexivity|]; match goal with |- context [fun z => Cmult z ?c] => destruct (num_op Cmult w c S N) as (A & B & V) | |- context [fun z => Cdiv z ?c] => destruct (num_op Cdiv w c S N) as (A & B & V) | |- context [fun z => Cplus z ?c] => destruct (num_op Cplus w c S N) as (A & B & V) end; split; [exact A|]; split; [exact B|]; intros; apply V).
  all: destruct F as [F1 F2]; pose proof S as [S1 S2].
  - destruct (imul_sq (w_n w) (w_arr w) (shift_center a)) as (P & E & [P1 P2] & V); [split; assumption|split; assumption|]. unfold prop_multiply. rewrite E. cbn [rbind]. eexists. split; [reflexivity|]. now apply (arr_op Cmult).
  - destruct (ipl_sq Cdiv (w_n w) (w_arr w) (shift_center a)) as (P & E & P1 & P2 & V); try assumption. rewrite E. cbn [rbind]. eexists. split; [reflexivity|]. now apply (arr_op Cdiv).
  - destruct (ipl_sq Cplus (w_n w) (w_arr w) (shift_center a)) as (P & E & P1 & P2 & V); try assumption. rewrite E. cbn [rbind]. eexists. split; [reflexivity|]. now apply (arr_op Cplus).
Qed.
Print Assumptions C106_operations.
Lemma shift_nz n (f : field C) i j : frows f = n -> fcols f = n -> (forall i j, (i < n)%nat -> (j < n)%nat -> fpx f i j <> RtoC 0) -> (i < n)%nat -> (j < n)%nat -> fpx (shift_center f) i j <> RtoC 0.
Proof. intros A B N Hi Hj. cbn [shift_center roll2 fpx]. rewrite A, B. apply N; apply roll_lt; lia. Qed.
(* dividing undoes multiplying, and the other way round; grids of any size *)
Theorem C106_divide_undoes w v : square_w w -> nowhere_zero (w_n w) v ->
  (exists w1 w2, multiply_by w v = Ok w1 /\ divide_by w1 v = Ok w2 /\ same_but_array w w2 /\ square_w w2 /\ forall i j, (i < w_n w)%nat -> (j < w_n w)%nat -> fpx (w_arr w2) i j = fpx (w_arr w) i j) /\
  (exists w1 w2, divide_by w v = Ok w1 /\ multiply_by w1 v = Ok w2 /\ same_but_array w w2 /\ square_w w2 /\ forall i j, (i < w_n w)%nat -> (j < w_n w)%nat -> fpx (w_arr w2) i j = fpx (w_arr w) i j).
Proof.
  intros S NZ. pose proof S as [S1 S2]. assert (CD : forall z c : C, c <> RtoC 0 -> Cdiv (Cmult z c) c = z /\ Cmult (Cdiv z c) c = z) by (intros z c H; split; field; exact H).
  destruct v as [x|c|a]; [|contradiction|]; cbn [nowhere_zero multiply_by divide_by] in *.
  - assert (X : RtoC x <> RtoC 0) by (intros E; apply NZ; injection E; auto). split; do 2 eexists; (split; [reflexivity|]); (split; [reflexivity|]); (split; [reflexivity|]); (split; [split; assumption|]); intros i j _ _; cbn [set_arr w_arr fmap fpx]; now apply CD.
  - destruct NZ as (F1 & F2 & NZ). pose proof (fun i j => shift_nz (w_n w) a i j F1 F2 NZ) as Z. split.
    + destruct (imul_sq (w_n w) (w_arr w) (shift_center a)) as (P & E & [P1 P2] & V); [split; assumption|split; assumption|]. unfold prop_multiply. rewrite E. cbn [rbind]. exists (set_arr w P).
      destruct (ipl_sq Cdiv (w_n w) P (shift_center a)) as (Q & E2 & Q1 & Q2 & V2); try assumption. cbn [set_arr w_arr]. rewrite E2. cbn [rbind]. eexists. do 3 (split; [reflexivity|]). split; [split; assumption|]. intros i j Hi Hj. cbn [set_arr w_arr]. rewrite V2, V by assumption. apply CD. auto.
    + destruct (ipl_sq Cdiv (w_n w) (w_arr w) (shift_center a)) as (P & E & P1 & P2 & V); try assumption. rewrite E. cbn [rbind]. exists (set_arr w P).
      destruct (imul_sq (w_n w) P (shift_center a)) as (Q & E2 & [Q1 Q2] & V2); [split; assumption|split; assumption|]. unfold prop_multiply. cbn [set_arr w_arr]. rewrite E2. cbn [rbind]. eexists. do 3 (split; [reflexivity|]). split; [split; assumption|]. intros i j Hi Hj. cbn [set_arr w_arr]. rewrite V2, V by assumption. apply CD. auto.
Qed.
Print Assumptions C106_divide_undoes.
(* amplitude and phase are the polar form of the wavefront as prop_get_wavefront gives it *)
Theorem C106_polar w i j : fpx (get_wavefront w) i j = Cmult (RtoC (fpx (get_amplitude w) i j)) (cis (fpx (get_phase w) i j)) /\ 0 <= fpx (get_amplitude w) i j /\ - PI < fpx (get_phase w) i j <= PI.
Proof.
  unfold get_wavefront, get_amplitude, get_phase. cbn [shift_center roll2 frows fcols fpx]. set (z := fpx (w_arr w) _ _). split; [|split; [apply Cmod_ge_0|apply atan2_range]].
  destruct z as [x y]. cbn [fst snd]. destruct (atan2_polar0 x y) as [A B]. unfold Cmod. cbn [fst snd]. replace (x ^ 2 + y ^ 2) with (x * x + y * y) by ring. unfold cis, Cmult, RtoC. cbn [fst snd]. f_equal; [rewrite Rmult_0_l, Rminus_0_r|rewrite Rmult_0_l, Rplus_0_r]; symmetry; assumption.
Qed.
Print Assumptions C106_polar.
(* even grids: adding what prop_get_wavefront gives of another wavefront gives the sum; odd grids: the one added is a row and a column off (refuted) *)
Theorem C106_sum w u : square_w w -> square_w u -> w_n u = w_n w -> (1 <= w_n w)%nat -> Nat.even (w_n w) = true ->
  exists w', add_to w (Arr (get_wavefront u)) = Ok w' /\ same_but_array w w' /\ forall i j, (i < w_n w)%nat -> (j < w_n w)%nat -> centred w' i j = Cplus (centred w i j) (centred u i j).
Proof.
  intros S [U1 U2] NU N EV. rewrite NU in *. destruct (proj2 (proj2 C106_operations) w (Arr (get_wavefront u)) S N) as (w' & E & _ & B & V); [split; assumption|exact Logic.I|exact EV|]. exists w'. split; [exact E|]. split; [exact B|]. exact V.
Qed.
Print Assumptions C106_sum.
Theorem C106_odd_sum_refuted w u : square_w w -> square_w u -> w_n u = w_n w -> Nat.odd (w_n w) = true ->
  exists w', add_to w (Arr (get_wavefront u)) = Ok w' /\ forall i j, (i < w_n w)%nat -> (j < w_n w)%nat -> centred w' i j = Cplus (centred w i j) (centred u ((i + 1) mod w_n w) ((j + 1) mod w_n w)).
Proof.
  intros [S1 S2] [U1 U2] NU OD. rewrite NU in *. destruct (ipl_sq Cplus (w_n w) (w_arr w) (shift_center (get_wavefront u))) as (P & E & P1 & P2 & V); try assumption.
  cbn [add_to]. rewrite E. cbn [rbind]. eexists. split; [reflexivity|]. intros i j Hi Hj. unfold centred. cbn [shift_center roll2 set_arr w_arr frows fcols fpx]. rewrite P1, P2, S1, S2, U1, U2.
  rewrite V by (apply roll_lt; lia). cbn [get_wavefront shift_center roll2 frows fcols fpx]. rewrite U1, U2. f_equal. rewrite !roll_twice_odd by (try assumption; apply roll_lt; lia).
  assert (RO : forall i, (i < w_n w)%nat -> ((roll_ix (w_n w) (half (w_n w)) i + 1) mod w_n w)%nat = roll_ix (w_n w) (half (w_n w)) ((i + 1) mod w_n w)).
  { intros t T. rewrite <- (roll_twice_odd (w_n w) (roll_ix (w_n w) (half (w_n w)) t)) by (try assumption; apply roll_lt; lia). rewrite (roll_twice_odd (w_n w) t) by assumption. reflexivity. }
  now rewrite !RO by assumption.
Qed.
Print Assumptions C106_odd_sum_refuted.
(* complex numbers can be added but not multiplied or divided by *)
Theorem C106_complex w c : multiply_by w (Cpx c) = Raise TypeError /\ divide_by w (Cpx c) = Raise TypeError /\ exists w', add_to w (Cpx c) = Ok w'.
Proof. do 2 (split; [reflexivity|]). eexists. reflexivity. Qed.
Print Assumptions C106_complex.
(* units: radians times the focal length are metres, half a turn has 180 * 3600 seconds of arc; the beam samples the focal ratio's cut-off twice at the Nyquist sampling *)
Theorem C106_units w diam : w_fratio w * diam <> 0 -> get_sampling_radians w diam * (w_fratio w * diam) = get_sampling w /\ get_sampling_arcsec w diam * PI = get_sampling_radians w diam * (180 * 3600) /\
  (forall l, l <> 0 -> 2 * get_nyquistsampling w l = l * w_fratio w) /\ 2 * get_nyquistsampling w 0 = w_lam w * w_fratio w.
Proof.
  intros N. pose proof PI_RGT_0. unfold get_sampling_radians, get_sampling_arcsec, get_nyquistsampling. split; [now field; split; intros Z; apply N; rewrite Z; ring|]. split; [field; repeat split; try lra; intros Z; apply N; rewrite Z; ring|]. split.
  - intros l L. destruct (Req_EM_T l 0); [contradiction|]. field.
  - destruct (Req_EM_T 0 0); [field|lra].
Qed.
Print Assumptions C106_units.
(* NORM: the map of radii is 1 where the map in metres is the beam radius *)
Theorem C106_radius w i j : get_beamradius w <> 0 -> fpx (radius_map w true) i j * get_beamradius w = fpx (radius_map w false) i j /\ fpx (radius_map w false) i j = fpx (prop_radius w) i j /\ (fpx (radius_map w true) i j = 1 <-> fpx (radius_map w false) i j = get_beamradius w).
Proof.
  intros N. unfold radius_map. cbn [fpx]. assert (X : forall s, s * (get_sampling w / get_beamradius w) * get_beamradius w = s * get_sampling w) by (intros; field; exact N). split; [apply X|]. split; [reflexivity|].
  rewrite <- X. set (a := sqrt _ * _). split; intros E; [rewrite E; ring|]. apply Rmult_eq_reg_r with (get_beamradius w); [lra|exact N].
Qed.
Print Assumptions C106_radius.
(* moving by the distance to focus ends at the waist; distances below 1e-12 are not moved *)
Theorem C106_to_focus po w tp w' : 0 < w_zray w -> prop_propagate po w (get_distancetofocus w) tp = Ok w' -> w_zw0 w' = w_zw0 w /\ w_w0 w' = w_w0 w /\ Rabs (get_distancetofocus w') < / 1000000000000 /\
  (/ 1000000000000 <= Rabs (get_distancetofocus w) -> get_distancetofocus w' = 0 /\ get_refradius w' = 0 /\ get_beamradius w' = w_w0 w).
Proof.
  intros ZR E. set (d := get_distancetofocus w) in *. assert (T : 0 < / 1000000000000) by (apply Rinv_0_lt_compat; lra).
  assert (PT : forall v v' dz, prop_ptp po v dz = Ok v' -> w_zw0 v' = w_zw0 v /\ w_w0 v' = w_w0 v /\ ((Rabs dz < / 1000000000000 /\ v' = v) \/ (/ 1000000000000 <= Rabs dz /\ w_z v' = w_z v + dz))).
  { intros v v' dz F. unfold prop_ptp in F. destruct (Rlt_dec _ _) as [L|L]; [injection F as <-; auto|]. destruct (negb (w_planar v)); [discriminate|]. injection F as <-. cbn. split; [reflexivity|]. split; [reflexivity|]. right. split; [lra|reflexivity]. }
  assert (G : w_zw0 w' = w_zw0 w /\ w_w0 w' = w_w0 w /\ ((Rabs d < / 1000000000000 /\ w_z w' = w_z w) \/ w_z w' = w_zw0 w)).
  { unfold prop_propagate in E. cbv zeta in E. unfold d, get_distancetofocus in E. replace (w_z w + (w_zw0 w - w_z w)) with (w_zw0 w) in E by ring.
    assert (NI : inside_at w (w_zw0 w) = true). { unfold inside_at. destruct (Rlt_dec _ _) as [|N]; [reflexivity|]. exfalso. apply N. rewrite Rminus_eq_0, Rabs_R0. lra. }
    rewrite NI in E. cbn [orb] in E. destruct (w_inside w).
    - destruct (PT _ _ _ E) as (A & B & [[L ->]|[L Z]]); cbn [set_type w_zw0 w_w0 w_z] in *; split; try assumption; split; try assumption; [left; split; [exact L|reflexivity]|right; rewrite Z; ring].
    - destruct (prop_stw po (set_type w true) (w_zw0 w - w_z w)) as [a|] eqn:F; [|discriminate]. cbn [rbind] in E. rewrite Rminus_eq_0 in E. destruct (PT _ _ _ E) as (A & B & [[L ->]|[L Z]]); [|rewrite Rabs_R0 in L; lra].
      unfold prop_stw in F. destruct (w_planar (set_type w true)).
      + destruct (PT _ _ _ F) as (A' & B' & [[L' ->]|[L' Z']]); cbn [set_type w_zw0 w_w0 w_z] in *; split; try assumption; split; try assumption; [left; split; [exact L'|reflexivity]|right; rewrite Z'; ring].
      + cbv zeta in F. injection F as <-. cbn [moved set_type w_zw0 w_w0 w_z]. split; [reflexivity|]. split; [reflexivity|]. right. destruct (Req_EM_T _ 0); ring. }
  destruct G as (G1 & G2 & G3). split; [exact G1|]. split; [exact G2|]. assert (D' : get_distancetofocus w' = w_zw0 w - w_z w') by (unfold get_distancetofocus; now rewrite G1). split.
  - rewrite D'. destruct G3 as [[L ->]| ->]; [exact L|]. rewrite Rminus_eq_0, Rabs_R0. exact T.
  - intros L. destruct G3 as [[L' _]|Z]; [lra|]. rewrite D', Z. split; [ring|]. unfold get_refradius, get_beamradius. rewrite G1, G2, Z, Rminus_eq_0. split; [reflexivity|].
    replace (1 + (w_lam w' * 0 / (PI * w_w0 w ^ 2)) ^ 2) with 1 by (unfold Rdiv; ring). rewrite sqrt_1. ring.
Qed.
Print Assumptions C106_to_focus.
(* cases: a factor of 2, an array 2 but at one pixel; a converging wavefront with its waist 3 away *)
Theorem C106_example : exists w f, square_w w /\ w_n w = 4%nat /\ nowhere_zero 4 (Flt 2) /\ nowhere_zero 4 (Arr f) /\ fpx f 1 2 <> fpx f 2 2 /\ 0 < w_zray w /\ get_distancetofocus w = 3 /\
  (exists w', prop_propagate false w (get_distancetofocus w) false = Ok w' /\ get_beamradius w' = 1) /\ exists w', divide_by w (Flt 2) = Ok w' /\ fpx (get_amplitude w') 1 1 = 1 / 2.
Proof.
  set (w := mkw (mkf 4 4 (fun _ _ => RtoC 1)) 1 1 false false 0 3 1 1 1 4). set (f := mkf 4 4 (fun i j => if Nat.eqb i 1 then RtoC 3 else RtoC 2)).
  assert (D : get_distancetofocus w = 3) by (unfold get_distancetofocus; cbn; ring). exists w, f. split; [split; reflexivity|]. split; [reflexivity|]. split; [cbn; lra|]. split.
  { split; [reflexivity|]. split; [reflexivity|]. intros i j _ _. cbn [f fpx]. destruct (Nat.eqb i 1); intros E; injection E; lra. }
  split; [cbn; intros E; injection E; lra|]. split; [cbn; lra|]. split; [exact D|]. split.
  - assert (X : exists w', prop_propagate false w (get_distancetofocus w) false = Ok w').
    { rewrite D. unfold prop_propagate. cbv zeta. assert (NI : inside_at w (w_z w + 3) = true). { unfold inside_at. destruct (Rlt_dec _ _) as [|N]; [reflexivity|]. exfalso. apply N. cbn. replace (3 - (0 + 3)) with 0 by ring. rewrite Rabs_R0. lra. }
      rewrite NI. cbn [orb w w_inside]. unfold prop_stw at 1. cbn [set_type w w_planar]. cbv zeta. cbn [rbind]. unfold prop_ptp. match goal with |- exists w', (if Rlt_dec (Rabs ?x) _ then _ else _) = _ => replace x with 0 by (cbn; ring) end. rewrite Rabs_R0. destruct (Rlt_dec 0 _) as [|N]; [eexists; reflexivity|]. exfalso. apply N. apply Rinv_0_lt_compat. lra. }
    destruct X as (w' & E). exists w'. split; [exact E|]. destruct (C106_to_focus false w false w') as (_ & _ & _ & G); [cbn; lra|exact E|]. destruct G as (_ & _ & ->); [|reflexivity]. rewrite D, (Rabs_pos_eq 3) by lra. apply Rle_trans with (/ 1); [apply Rinv_le_contravar; lra|rewrite Rinv_1; lra].
  - eexists. split; [reflexivity|]. unfold get_amplitude. cbn [shift_center roll2 frows fcols fpx set_arr w_arr fmap w]. replace (Cdiv (RtoC 1) (RtoC 2)) with (RtoC (1 / 2)). 2: { unfold RtoC, Cdiv, Cinv, Cmult. cbn. f_equal; field. } rewrite Cmod_R. apply Rabs_pos_eq. lra.
Qed.
Print Assumptions C106_example.
