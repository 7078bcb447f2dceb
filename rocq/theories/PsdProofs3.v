From Verif Require Import Base StrBase RBase CtrlModel UtilModel DmSurfModel CubModel DmcModel CBase PropModel PropProofs OptModel PrpModel PrpSpec PrpProofs PrpProofs5 ThpProofs ErrModel ErrSpec PsdModel PsdSpec PsdProofs PsdProofs2.
Open Scope R_scope.
(* what the map does to the field *)
Definition factor (k : pkeys) (lam z : R) : C := match p_amp k with Some _ => RtoC z | None => cis ((if p_mirror k then 4 else 2) * PI / lam * z) end.
Definition source (ip : interpolator) (w : wavefront) (amp b c : R) (k : pkeys) (u : nat -> nat -> R) (file : option (option mapfile)) : res (field R) :=
  match file with Some (Some f) => readmap ip w f 0 0 None None None | _ => Ok (new_map (w_n w) (get_sampling w) amp b c k u) end.
Lemma roll_onto n s i : (i < n)%nat -> exists j, (j < n)%nat /\ roll_ix n s j = i.
Proof.
  intros H. exists (roll_ix n (- s) i). split; [apply roll_lt; lia|]. rewrite roll_roll by lia. replace (s + - s)%Z with 0%Z by lia. now apply roll_0.
Qed.
Lemma finish ip w amp b c k u file d : square_wf w -> (1 <= w_n w)%nat -> source ip w amp b c k u file = Ok d -> frows d = w_n w -> fcols d = w_n w ->
  exists m w' o a, prop_psd_errormap ip w amp b c k u file = Ok (m, w', o) /\ frows m = w_n w /\ fcols m = w_n w /\ square_wf w' /\ w_n w' = w_n w /\
    (forall i j, (i < w_n w)%nat -> (j < w_n w)%nat -> fpx m i j = fpx d (roll_ix (w_n w) (half (w_n w)) i) (roll_ix (w_n w) (half (w_n w)) j) + a) /\
    match p_amp k with None => a = 0 | Some A => (forall i j, (i < w_n w)%nat -> (j < w_n w)%nat -> fpx m i j <= A) /\ exists i j, (i < w_n w)%nat /\ (j < w_n w)%nat /\ fpx m i j = A end /\
    (forall i j, (i < w_n w)%nat -> (j < w_n w)%nat -> fpx (get_wavefront w') i j = if p_noapply k then fpx (get_wavefront w) i j else Cmult (fpx (get_wavefront w) i j) (factor k (w_lam w) (fpx m i j))) /\
    (p_noapply k = true -> w' = set_arr w (w_arr w)) /\ w_dx w' = w_dx w /\
    o = match file with Some None => Some (mkmap (match p_amp k with Some _ => "amplitude"%string | None => if p_mirror k then "mirror surface"%string else "wavefront"%string end) None (Some (w_dx w)) (Z.of_nat (w_n w / 2)) (Z.of_nat (w_n w / 2)) (to_arr m)) | _ => None end.
Proof.
  intros [S1 S2] N SRC D1 D2. set (n := w_n w) in *.
  assert (APP : forall (d' : field R) (fac : R -> C), frows d' = n -> fcols d' = n -> exists E, (if p_noapply k then Ok (w_arr w) else imul (w_arr w) (mkf (frows d') (fcols d') (fun i j => fac (fpx d' i j)))) = Ok E /\ sq n E /\
     (p_noapply k = true -> E = w_arr w) /\ forall i j, (i < n)%nat -> (j < n)%nat -> fpx E i j = if p_noapply k then fpx (w_arr w) i j else Cmult (fpx (w_arr w) i j) (fac (fpx d' i j))).
  { intros d' fac F1 F2. rewrite F1, F2. destruct (p_noapply k).
    - exists (w_arr w). repeat split; auto.
    - destruct (imul_sq n (w_arr w) (mkf n n (fun i j => fac (fpx d' i j)))) as (E & H1 & H2 & H3); [split; auto|split; reflexivity|]. exists E. split; [exact H1|]. split; [exact H2|]. split; [discriminate|]. exact H3. }
  unfold prop_psd_errormap. fold n. cbv zeta. change (match file with Some (Some f) => readmap ip w f 0 0 None None None | _ => Ok (new_map n (get_sampling w) amp b c k u) end) with (source ip w amp b c k u file). rewrite SRC. cbn [rbind].
  unfold factor. destruct (p_amp k) as [A|].
  - destruct (np_max_exists d) as [M EM]; [lia|lia|]. rewrite EM. cbn [rbind]. apply np_max_spec in EM. destruct EM as ((i0 & j0 & I0 & J0 & E0) & L). rewrite D1 in *. rewrite D2 in *.
    destruct (APP (mkf n n (fun i j => fpx d i j + (A - M))) RtoC eq_refl eq_refl) as (E & HE & [E1 E2] & NA & VE). cbn [frows fcols fpx] in HE. cbn [frows fcols fpx]. rewrite HE. cbn [rbind].
    eexists. eexists. eexists. exists (A - M). split; [reflexivity|]. split; [reflexivity|]. split; [reflexivity|]. split; [split; assumption|]. split; [reflexivity|]. split; [intros i j Hi Hj; reflexivity|]. split; [|split; [|split; [|split; reflexivity]]].
    + unfold shift_center, roll2. cbn [frows fcols fpx]. split.
      * intros i j Hi Hj. pose proof (L (roll_ix n (half n) i) (roll_ix n (half n) j) ltac:(apply roll_lt; lia) ltac:(apply roll_lt; lia)). lra.
      * destruct (roll_onto n (half n) i0 I0) as (i1 & I1 & R1). destruct (roll_onto n (half n) j0 J0) as (j1 & J1 & R2). exists i1, j1. split; [exact I1|]. split; [exact J1|]. rewrite R1, R2, E0. ring.
    + intros i j Hi Hj. unfold get_wavefront, shift_center, roll2. cbn [fpx frows fcols w_arr set_arr]. rewrite E1, E2, S1, S2. rewrite VE by (apply roll_lt; lia). reflexivity.
    + intros NP. now rewrite (NA NP).
  - assert (X : exists lab, (lab = (if p_mirror k then "mirror surface"%string else "wavefront"%string)) /\ exists E, sq n E /\ (p_noapply k = true -> E = w_arr w) /\
      (if p_mirror k then do E <- (if p_noapply k then Ok (w_arr w) else imul (w_arr w) (mkf (frows d) (fcols d) (fun i j => cis (4 * PI / w_lam w * fpx d i j)))); Ok (d, E, "mirror surface"%string)
       else do E <- (if p_noapply k then Ok (w_arr w) else imul (w_arr w) (mkf (frows d) (fcols d) (fun i j => cis (2 * PI / w_lam w * fpx d i j)))); Ok (d, E, "wavefront"%string)) = Ok (d, E, lab) /\
      forall i j, (i < n)%nat -> (j < n)%nat -> fpx E i j = if p_noapply k then fpx (w_arr w) i j else Cmult (fpx (w_arr w) i j) (cis ((if p_mirror k then 4 else 2) * PI / w_lam w * fpx d i j))).
    { destruct (p_mirror k).
      - destruct (APP d (fun z => cis (4 * PI / w_lam w * z)) D1 D2) as (E & HE & SE & NA & VE). eexists. split; [reflexivity|]. exists E. split; [exact SE|]. split; [exact NA|]. rewrite HE. cbn [rbind]. split; [reflexivity|exact VE].
      - destruct (APP d (fun z => cis (2 * PI / w_lam w * z)) D1 D2) as (E & HE & SE & NA & VE). eexists. split; [reflexivity|]. exists E. split; [exact SE|]. split; [exact NA|]. rewrite HE. cbn [rbind]. split; [reflexivity|exact VE]. }
    destruct X as (lab & LAB & E & [E1 E2] & NA & HE & VE). rewrite HE. cbn [rbind]. cbv iota beta.
    eexists. eexists. eexists. exists 0. split; [reflexivity|]. split; [exact D1|]. split; [exact D2|]. split; [split; assumption|]. split; [reflexivity|].
    unfold shift_center, roll2. cbn [frows fcols fpx]. rewrite D1, D2.
    split; [intros i j Hi Hj; ring|]. split; [reflexivity|]. split; [|split; [|split; [reflexivity|rewrite LAB; reflexivity]]].
    + intros i j Hi Hj. unfold get_wavefront, shift_center, roll2. cbn [fpx frows fcols w_arr set_arr]. rewrite E1, E2, S1, S2. rewrite VE by (apply roll_lt; lia). reflexivity.
    + intros NP. now rewrite (NA NP).
Qed.
Lemma fresh_source ip w amp b c k u file : fresh file -> source ip w amp b c k u file = Ok (new_map (w_n w) (w_dx w) amp b c k u).
Proof. intros F. unfold source. destruct file as [[f|]|]; [destruct F|reflexivity|reflexivity]. Qed.
