(* C85: Zernike maps *)
From Verif Require Import Base RBase StrBase CBase UtilModel PropModel OptModel EstModel PrpModel ZrnModel ZrnSpec ZrnProofs4 ZrnProofs5 ZrnProofs6 ZrnProofs7 ZrnProofs8.
From Verif Require PrpProps PrpProofs5.
From Flocq Require Core.Raux.
Open Scope R_scope.
(* pixel coordinate in units of the radius *)
Definition coord (n : nat) (pitch off : R) (k : nat) : R := (INR k - INR (n / 2) + off) * pitch.
(* d is the n x n map of the modes nums with coefficients vals, on pixels with the given pitch *)
Definition is_map (Z : nat -> R -> R -> R) (nums : list nat) (vals : list R) (n : nat) (pitch off : R) (d : field R) : Prop :=
  frows d = n /\ fcols d = n /\ forall i j r t, 0 <= r -> coord n pitch off j = r * cos t -> coord n pitch off i = r * sin t -> fpx d i j = combo (fun k => Z k r t) nums vals.
(* Noll's polynomials *)
Definition noll_modes (Z : nat -> R -> R -> R) : Prop := forall k n m r t, noll k n m -> Z k r t = zernike n m (Nat.even k) r t.
Definition radius_of (w : wavefront) (radius : option R) : R := match radius with Some q => q | None => get_beamradius w end.
Definition grid (w : wavefront) : Prop := (1 <= w_n w)%nat /\ frows (w_arr w) = w_n w /\ fcols (w_arr w) = w_n w.
(* the complex field was multiplied by the amplitude or the phase of the map *)
Definition applied (w w' : wavefront) (amp : bool) (d : field R) : Prop :=
  frows (get_wavefront w') = w_n w /\ fcols (get_wavefront w') = w_n w /\
  forall i j, (i < w_n w)%nat -> (j < w_n w)%nat -> fpx (get_wavefront w') i j =
    Cmult (fpx (get_wavefront w) i j) (if amp then RtoC (fpx d i j) else cis (2 * PI / w_lam w * fpx d i j)).
Lemma apply_applied w na amp d : grid w -> frows d = w_n w -> fcols d = w_n w -> exists w', zapply w na amp d = Ok w' /\
  (na = true -> w' = w) /\ (na = false -> Nat.even (w_n w) = true -> applied w w' amp d).
Proof.
  intros (N & A1 & A2) D1 D2. destruct (apply_ok w na amp d (w_n w) N A1 A2 D1 D2) as (w' & H & T & F). exists w'. split; auto. split; auto. intros Hna Ev. destruct (F Hna) as (_ & R1 & R2 & V).
  unfold applied, get_wavefront, shift_center, roll2. cbn [frows fcols fpx]. rewrite R1, R2, A1, A2. split; auto. split; auto. intros i j I J.
  rewrite V by (apply PropProofs.roll_lt; lia). rewrite !PrpProofs5.half_even2 by auto. reflexivity.
Qed.
(* prop_zernikes, clear pupil *)
Theorem C85_map Z w nums vals radius no_apply amp : noll_modes Z -> grid w -> nums <> [] -> (forall k, In k nums -> 1 <= k <= 276)%nat -> length vals = length nums -> radius_of w radius <> 0 ->
  exists d w', prop_zernikes w (Array nums) vals 0 radius no_apply amp = Ok (d, w') /\
    is_map Z nums vals (w_n w) (get_sampling w / radius_of w radius) 0 d /\
    (no_apply = true -> w' = w) /\ (no_apply = false -> Nat.even (w_n w) = true -> applied w w' amp d).
Proof.
  intros HZ G NE K L _. unfold prop_zernikes. fold (radius_of w radius). rewrite check_clear by auto. cbn [zlist].
  destruct (zmap_ok (w_n w) (fun i j => zpixel true 0 nums vals ((INR j - INR (w_n w / 2)) * get_sampling w / radius_of w radius) ((INR i - INR (w_n w / 2)) * get_sampling w / radius_of w radius)) (fun i j => pixval Z nums vals ((INR j - INR (w_n w / 2)) * get_sampling w / radius_of w radius) ((INR i - INR (w_n w / 2)) * get_sampling w / radius_of w radius))) as (d & D & D1 & D2 & DV); [apply G|intros; now apply pix_clear|].
  rewrite D. cbn [rbind]. destruct (apply_applied w no_apply amp d G D1 D2) as (w' & H & T & F). rewrite H. exists d, w'. split; auto. split; [|auto]. split; auto. split; auto. intros i j r t P X Y. rewrite DV.
  unfold coord in X, Y. rewrite Rplus_0_r in X, Y. unfold Rdiv in *. rewrite !Rmult_assoc, X, Y. now apply pixval_clear.
Qed.
(* prop_zernikes, obscured pupil *)
Theorem C85_obscured_map Z w nums vals eps radius no_apply amp : (forall k r t, (1 <= k <= 22)%nat -> zobs k eps r t = Some (Z k r t)) -> eps <> 0 -> grid w -> nums <> [] -> (forall k, In k nums -> 1 <= k <= 22)%nat -> length vals = length nums -> radius_of w radius <> 0 ->
  exists d w', prop_zernikes w (Array nums) vals eps radius no_apply amp = Ok (d, w') /\
    is_map Z nums vals (w_n w) (get_sampling w / radius_of w radius) 0 d /\
    (no_apply = true -> w' = w) /\ (no_apply = false -> Nat.even (w_n w) = true -> applied w w' amp d).
Proof.
  intros HZ EN G NE K L _. unfold prop_zernikes. fold (radius_of w radius). rewrite check_obs by (auto; intros; now apply K). cbn [zlist].
  destruct (zmap_ok (w_n w) (fun i j => zpixel true eps nums vals ((INR j - INR (w_n w / 2)) * get_sampling w / radius_of w radius) ((INR i - INR (w_n w / 2)) * get_sampling w / radius_of w radius)) (fun i j => pixval Z nums vals ((INR j - INR (w_n w / 2)) * get_sampling w / radius_of w radius) ((INR i - INR (w_n w / 2)) * get_sampling w / radius_of w radius))) as (d & D & D1 & D2 & DV); [apply G|intros; now apply pix_obs|].
  rewrite D. cbn [rbind]. destruct (apply_applied w no_apply amp d G D1 D2) as (w' & H & T & F). rewrite H. exists d, w'. split; auto. split; [|auto]. split; auto. split; auto. intros i j r t P X Y. rewrite DV.
  unfold coord in X, Y. rewrite Rplus_0_r in X, Y. unfold Rdiv in *. rewrite !Rmult_assoc, X, Y. apply (pixval_obs Z eps); auto.
Qed.
(* a number above 22 with an obscuration is refused, and an empty array *)
Theorem C85_refused w nums vals eps radius no_apply amp : nums = [] \/ (eps <> 0 /\ exists k, In k nums /\ (22 < k)%nat) ->
  prop_zernikes w (Array nums) vals eps radius no_apply amp = Raise ValueError /\
  forall c, propcustom_zernikes w (Array nums) vals eps radius no_apply amp c = Raise ValueError.
Proof.
  intros H. assert (X : zcheck eps (Array nums) (w_n w) = Some ValueError).
  { unfold zcheck. destruct H as [->|(E & k & I & L)]; auto. destruct nums as [|k0 nums]; [destruct I|]. destruct (Req_EM_T eps 0); [contradiction|]. cbn [zlist]. apply list_max_in in I. destruct (Nat.ltb_spec 22 (list_max (k0 :: nums))); [auto|lia]. }
  split; [unfold prop_zernikes; now rewrite X|]. intros c. unfold propcustom_zernikes. cbn [zlist]. now rewrite X.
Qed.
(* a single number, which the documentation allows, never works *)
Theorem C85_scalar_refused w k vals eps radius no_apply amp : (1 <= w_n w)%nat ->
  exists x, prop_zernikes w (Scalar k) vals eps radius no_apply amp = Raise x /\ (x = IndexError \/ x = TypeError \/ x = ValueError) /\
  forall c, (c = None \/ c = Some "pixel"%string \/ c = Some "interpixel"%string) -> propcustom_zernikes w (Scalar k) vals eps radius no_apply amp c = Raise x.
Proof.
  intros N. destruct (zcheck eps (Scalar k) (w_n w)) as [x|] eqn:X.
  - exists x. split; [unfold prop_zernikes; now rewrite X|]. split.
    + unfold zcheck in X. destruct (if Req_EM_T eps 0 then false else Nat.ltb 22 (list_max (zlist (Scalar k)))); [injection X as <-; auto|]. destruct (Nat.eqb (w_n w) 0); [discriminate|]. destruct (Req_EM_T eps 0); injection X as <-; auto.
    + intros c Hc. unfold propcustom_zernikes. cbn [zlist]. unfold zcheck at 1. cbn [zlist]. unfold zcheck in X. cbn [zlist] in X.
      destruct (if Req_EM_T eps 0 then false else Nat.ltb 22 (list_max [k])) eqn:B; [now injection X as <-|].
      assert (CK : (match c with Some s => if str_in s ["pixel"%string; "interpixel"%string] then Ok tt else Raise ValueError | None => Ok tt end) = Ok tt) by (destruct Hc as [->|[->| ->]]; reflexivity). rewrite CK. cbn [rbind]. unfold zcheck. cbn [zlist]. rewrite B. destruct (Nat.eqb (w_n w) 0); [discriminate|]. destruct (Req_EM_T eps 0); now injection X as <-.
  - exfalso. unfold zcheck in X. destruct (if Req_EM_T eps 0 then false else Nat.ltb 22 (list_max (zlist (Scalar k)))); [discriminate|]. destruct (Nat.eqb_spec (w_n w) 0); [lia|]. destruct (Req_EM_T eps 0); discriminate.
Qed.
(* propcustom_zernikes *)
Definition shift_of (centering : option string) : R := match centering with Some s => if String.eqb s "interpixel" then 1 / 2 else 0 | None => 0 end.
Definition valid_centering (centering : option string) : Prop := match centering with Some s => s = "pixel"%string \/ s = "interpixel"%string | None => True end.
Lemma centering_ok c dx : valid_centering c ->
  (match c with Some s => if str_in s ["pixel"%string; "interpixel"%string] then Ok tt else Raise ValueError | None => Ok tt end) = Ok tt /\
  (match c with Some s => if contains "interpixel" s then dx / 2 else 0 | None => 0 end) = shift_of c * dx.
Proof.
  destruct c as [s|]; cbn [valid_centering shift_of]; [intros [->| ->]|intros _]; (split; [reflexivity|]); cbn; try (unfold shift_of; cbn); lra.
Qed.
Theorem C85_custom_map Z w nums vals radius no_apply amp c : noll_modes Z -> grid w -> nums <> [] -> (forall k, In k nums -> 1 <= k <= 276)%nat -> length vals = length nums -> radius_of w radius <> 0 -> valid_centering c ->
  exists d w', propcustom_zernikes w (Array nums) vals 0 radius no_apply amp c = Ok (d, w') /\
    is_map Z nums vals (w_n w) (get_sampling w / radius_of w radius) (shift_of c) d /\
    (no_apply = true -> w' = w) /\ (no_apply = false -> Nat.even (w_n w) = true -> applied w w' amp d).
Proof.
  intros HZ G NE K L _ VC. unfold propcustom_zernikes. fold (radius_of w radius). cbn [zlist]. rewrite check_clear by auto. destruct (centering_ok c (get_sampling w / radius_of w radius) VC) as (-> & ->). cbn [rbind].
  set (dx := get_sampling w / radius_of w radius). set (cc := fun k => (INR k - INR (w_n w / 2)) * dx + shift_of c * dx).
  destruct (zmap_ok (w_n w) (fun i j => zpixel false 0 nums vals (cc j) (cc i)) (fun i j => pixval Z nums vals (cc j) (cc i))) as (d & D & D1 & D2 & DV); [apply G|intros; now apply pix_clear|].
  unfold cc in D at 1 2. rewrite D. cbn [rbind]. destruct (apply_applied w no_apply amp d G D1 D2) as (w' & H & T & F). rewrite H. exists d, w'. split; auto. split; [|auto]. split; auto. split; auto. intros i j r t P X Y. rewrite DV.
  assert (E : forall k, cc k = coord (w_n w) dx (shift_of c) k) by (intros; unfold cc, coord; ring). rewrite !E, X, Y. now apply pixval_clear.
Qed.
(* with an obscuration only the last mode is in the map *)
Theorem C85_custom_last_mode Z w nums k vals v eps radius no_apply amp c : (forall k r t, (1 <= k <= 22)%nat -> zobs k eps r t = Some (Z k r t)) -> eps <> 0 -> grid w -> (forall q, In q (nums ++ [k]) -> 1 <= q <= 22)%nat -> length vals = length nums -> radius_of w radius <> 0 -> valid_centering c ->
  exists d w', propcustom_zernikes w (Array (nums ++ [k])) (vals ++ [v]) eps radius no_apply amp c = Ok (d, w') /\
    is_map Z [k] [v] (w_n w) (get_sampling w / radius_of w radius) (shift_of c) d.
Proof.
  intros HZ EN G K L _ VC. unfold propcustom_zernikes. fold (radius_of w radius). cbn [zlist]. assert (NE : nums ++ [k] <> []) by (destruct nums; discriminate). rewrite check_obs by (auto; intros; now apply K). destruct (centering_ok c (get_sampling w / radius_of w radius) VC) as (-> & ->). cbn [rbind].
  set (dx := get_sampling w / radius_of w radius). set (cc := fun k => (INR k - INR (w_n w / 2)) * dx + shift_of c * dx).
  assert (Kk : (1 <= k <= 22)%nat) by (apply K, in_or_app; right; left; auto).
  destruct (zmap_ok (w_n w) (fun i j => zpixel false eps (nums ++ [k]) (vals ++ [v]) (cc j) (cc i)) (fun i j => pixval Z [k] [v] (cc j) (cc i))) as (d & D & D1 & D2 & DV); [apply G|intros; now apply pix_last|].
  unfold cc in D at 1 2. rewrite D. cbn [rbind]. destruct (apply_applied w no_apply amp d G D1 D2) as (w' & H & T & F). rewrite H. exists d, w'. split; auto. split; auto. split; auto. intros i j r t P X Y. rewrite DV.
  assert (E : forall k, cc k = coord (w_n w) dx (shift_of c) k) by (intros; unfold cc, coord; ring). rewrite !E, X, Y. apply (pixval_obs Z eps); auto. intros q [<-|[]]; auto.
Qed.
(* the cube of normalised maps *)
Lemma zmap_size_ok Nbeam c : 1 <= Nbeam -> valid_centering (Some c) ->
  let N := zmap_size Nbeam c in (1 <= N)%nat /\ Nat.even N = true /\ (if String.eqb c "interpixel" then Nbeam <= INR N < Nbeam + 2 else Nbeam + 1 <= INR N < Nbeam + 3).
Proof.
  intros B V N. assert (X : forall x, 1 <= x -> (1 <= Z.to_nat (ceil_even x))%nat /\ Nat.even (Z.to_nat (ceil_even x)) = true /\ x <= INR (Z.to_nat (ceil_even x)) < x + 2).
  { intros x Hx. unfold ceil_even. assert (C : / 2 * x <= IZR (Zceil (/ 2 * x)) < / 2 * x + 1) by (split; [apply Flocq.Core.Raux.Zceil_ub|apply Flocq.Core.Raux.Zceil_lb]).
    set (q := Zceil (/ 2 * x)) in *. assert (Q : (0 < q)%Z) by (apply lt_IZR; lra). assert (E : INR (Z.to_nat (2 * q)) = 2 * IZR q) by (rewrite INR_IZR_INZ, Z2Nat.id by lia; rewrite mult_IZR; reflexivity). rewrite E. split; [lia|]. split; [|lra].
    replace (Z.to_nat (2 * q)) with (2 * Z.to_nat q)%nat by lia. now rewrite Nat.even_mul. }
  unfold N, zmap_size. destruct V as [->| ->].
  - change (contains "interpixel" "pixel") with false. change (String.eqb "pixel" "interpixel") with false. cbv iota. destruct (X (Nbeam + 1)) as (A & E & L); [lra|]. split; auto. split; auto. lra.
  - change (contains "interpixel" "interpixel") with true. change (String.eqb "interpixel" "interpixel") with true. cbv iota. destruct (X Nbeam) as (A & E & L); [lra|]. auto.
Qed.
Lemma zcube_ok Z w c : noll_modes Z -> grid w -> get_beamradius w <> 0 -> valid_centering (Some c) -> forall inds, (forall k, In k inds -> 1 <= k <= 276)%nat ->
  exists cube, zcube w c inds = Ok cube /\ length cube = length inds /\ forall q k, nth_error inds q = Some k -> exists d, nth_error cube q = Some d /\ is_map Z [k] [1] (w_n w) (get_sampling w / get_beamradius w) (shift_of (Some c)) d.
Proof.
  intros HZ G RN V. induction inds as [|k inds IH]; intros K; cbn [zcube].
  - exists []. split; auto. split; auto. intros [|q] k H; discriminate H.
  - destruct (C85_custom_map Z w [k] [1] None true false (Some c)) as (d & w' & H & M & _); auto; [discriminate|intros q [<-|[]]; apply K; left; auto|]. rewrite H. cbn [rbind]. destruct IH as (cube & HC & L & F); [intros; apply K; right; auto|]. rewrite HC. cbn [rbind fst].
    exists (d :: cube). split; auto. split; [cbn [length]; congruence|]. intros [|q] k' E; cbn [nth_error] in *; [injection E as <-; eauto|eauto].
Qed.
Theorem C85_norm_maps Z Nbeam centering inds : noll_modes Z -> 1 <= Nbeam -> valid_centering (Some centering) -> (forall k, In k (zlist inds) -> 1 <= k <= 276)%nat ->
  exists N cube, gen_norm_zern_maps Nbeam centering inds = Ok cube /\ length cube = length (zlist inds) /\ Nat.even N = true /\
    (if String.eqb centering "interpixel" then Nbeam <= INR N < Nbeam + 2 else Nbeam + 1 <= INR N < Nbeam + 3) /\
    forall q k, nth_error (zlist inds) q = Some k -> exists d, nth_error cube q = Some d /\ is_map Z [k] [1] N (2 * Nbeam / INR N ^ 2) (shift_of (Some centering)) d.
Proof.
  intros HZ B V K. destruct (zmap_size_ok Nbeam centering B V) as (N1 & Ev & Rg). set (N := zmap_size Nbeam centering) in *. exists N. assert (P : 0 < INR N) by (apply lt_0_INR; lia).
  destruct (PrpProps.C79_begin 1 (/ 1000000) N (INR N / Nbeam)) as (w & W & Wn & _ & _ & _ & Sm & Br & _ & R1 & R2 & _); [lra|lra|auto|apply Rdiv_lt_0_compat; lra|].
  assert (G : grid w) by (unfold grid; rewrite Wn; auto).
  destruct (zcube_ok Z w centering HZ G ltac:(rewrite Br; lra) V (zlist inds) K) as (cube & HC & L & F). exists cube.
  assert (Pt : get_sampling w / get_beamradius w = 2 * Nbeam / INR N ^ 2).
  { rewrite Br. assert (S : get_sampling w = Nbeam / INR N ^ 2) by (apply (Rmult_eq_reg_r (INR N * (INR N / Nbeam))); [rewrite Sm; field; lra|apply Rgt_not_eq, Rmult_lt_0_compat; [lra|apply Rdiv_lt_0_compat; lra]]). rewrite S. field. lra. }
  split.
  { unfold gen_norm_zern_maps. assert (CK : str_in centering ["pixel"%string; "interpixel"%string] = true) by (destruct V as [->| ->]; reflexivity). rewrite CK. cbn [negb]. destruct (Req_EM_T Nbeam 0); [lra|]. fold N. rewrite W. cbn [rbind]. exact HC. }
  split; auto. split; auto. split; auto. intros q k E. destruct (F q k E) as (d & D & M). exists d. split; auto. rewrite Wn, Pt in M. auto.
Qed.
(* the beam edge, Nbeam/2 pixels from the centre, is not at radius 1 in the maps unless the map is exactly as wide as the beam *)
Theorem C85_norm_maps_scale Nbeam N : 1 <= Nbeam -> Nbeam <= N -> (2 * Nbeam / N ^ 2) * (Nbeam / 2) = (Nbeam / N) ^ 2 /\ ((2 * Nbeam / N ^ 2) * (Nbeam / 2) = 1 <-> N = Nbeam).
Proof.
  intros B L. assert (E : (2 * Nbeam / N ^ 2) * (Nbeam / 2) = (Nbeam / N) ^ 2) by (field; lra). split; auto. rewrite E. split.
  - intros H. assert (X : Nbeam ^ 2 = N ^ 2) by (apply (Rmult_eq_reg_r (/ N ^ 2)); [rewrite Rinv_r by (apply pow_nonzero; lra); rewrite <- H; field; lra|apply Rinv_neq_0_compat, pow_nonzero; lra]). nra.
  - intros <-. field. lra.
Qed.
(* Example: defocus on a 4 x 4 grid; the documented diameter is 3 pixels *)
Theorem C85_example : exists N cube d, gen_norm_zern_maps 3 "pixel" (Scalar 4) = Ok cube /\ nth_error cube 0 = Some d /\ INR N = 4 /\ frows d = N /\ fpx d 2 3 = sqrt 3 * (2 * (3 / 8) ^ 2 - 1) /\ 3 / 8 <> 2 / 3.
Proof.
  pose (Z := fun k r t => match nth_error (prop_noll_zernikes k) (k - 1) with Some e => zval e r t | None => 0 end).
  assert (HZ : noll_modes Z).
  { intros k n m r t N. unfold Z. assert (J : (1 <= k)%nat) by (destruct N as (q & Q & E & _); lia). destruct (noll_ok k k ltac:(lia)) as (n' & m' & h & N' & H & e & E & V). rewrite E, V. destruct (noll_unique _ _ _ _ _ N N') as (-> & ->). auto. }
  destruct (C85_norm_maps Z 3 "pixel" (Scalar 4) HZ) as (N & cube & H & L & Ev & Rg & F); [lra|left; auto|intros k [<-|[]]; lia|].
  assert (N4 : N = 4%nat). { change (String.eqb "pixel" "interpixel") with false in Rg. cbv iota in Rg. apply Nat.even_spec in Ev. destruct Ev as (q & ->). rewrite mult_INR in Rg. cbn [INR] in Rg. assert (A : (2 <= q)%nat) by (apply INR_le; cbn [INR]; lra). assert (A' : (q < 3)%nat) by (apply INR_lt; cbn [INR]; lra). lia. }
  destruct (F 0%nat 4%nat eq_refl) as (d & D & (M1 & M2 & M)). exists N, cube, d. split; auto. split; auto. split; [rewrite N4; cbn [INR]; lra|]. split; auto. split; [|lra].
  rewrite (M 2%nat 3%nat (3 / 8) 0); [|lra| |].
  - cbn [combo]. rewrite (HZ 4%nat 2%nat 0%nat) by (exists 0%nat; vm_compute; repeat split; lia). unfold zernike, radial. cbn [Nat.eqb Nat.sub Nat.add Nat.div Nat.divmod fst rsum Nat.mul Factorial.fact]. simpl INR. replace (1 + 1 + 1) with 3 by ring. field.
  - rewrite cos_0, N4. unfold coord, shift_of. cbn [String.eqb Ascii.eqb Bool.eqb]. change (4 / 2)%nat with 2%nat. simpl INR. field.
  - rewrite sin_0, N4. unfold coord, shift_of. cbn [String.eqb Ascii.eqb Bool.eqb]. change (4 / 2)%nat with 2%nat. simpl INR. field.
Qed.
(* Example: the two functions differ on two obscured modes *)
Theorem C85_custom_last_mode_example : forall w radius, grid w -> w_n w = 4%nat -> radius_of w radius = get_sampling w -> get_sampling w <> 0 ->
  exists d w1 d' w2, prop_zernikes w (Array [1; 4]%nat) [1; 1] (1/2) radius true false = Ok (d, w1) /\ propcustom_zernikes w (Array [1; 4]%nat) [1; 1] (1/2) radius true false None = Ok (d', w2) /\ forall i j, (i < 4)%nat -> (j < 4)%nat -> fpx d i j = 1 + fpx d' i j.
Proof.
  intros w radius G N4 RS SN. pose (Z := fun k r t => match zobs k (1/2) r t with Some z => z | None => 0 end).
  assert (HZ : forall k r t, (1 <= k <= 22)%nat -> zobs k (1/2) r t = Some (Z k r t)) by (intros; unfold Z; rewrite zobs_split by auto; reflexivity).
  destruct (C85_obscured_map Z w [1; 4]%nat [1; 1] (1/2) radius true false HZ) as (d & w1 & H1 & (M1 & M2 & M) & _); [lra|auto|discriminate|intros k [<-|[<-|[]]]; lia|reflexivity|congruence|].
  destruct (C85_custom_last_mode Z w [1]%nat 4%nat [1] 1 (1/2) radius true false None HZ) as (d' & w2 & H2 & (M1' & M2' & M')); [lra|auto|intros k [<-|[<-|[]]]; lia|reflexivity|congruence|exact I|].
  exists d, w1, d', w2. split; auto. split; auto. intros i j I J. destruct (polar_of (coord (w_n w) (get_sampling w / radius_of w radius) 0 j) (coord (w_n w) (get_sampling w / radius_of w radius) 0 i)) as (r & t & P & X & Y).
  rewrite (M i j r t P X Y). unfold shift_of in M'. rewrite (M' i j r t P X Y). cbn [combo]. unfold Z at 1. unfold zobs at 1. ring.
Qed.
