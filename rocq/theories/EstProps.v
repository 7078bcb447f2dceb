(* Property theorems C31 (probing leaves the configuration alone), C32 (probe pairs) and C33 (batch estimate). *)
From Verif Require Import Base RBase DmSurfModel EstModel EstSpec EstProofs EstProofs2 EstProofs3.
Open Scope Z_scope.

(* ---------------- C31 ---------------- *)
(* After a normal return the list of DMs in use, and the command of every DM in use for control or probing, are what
   they were. *)
Theorem C31_restores : forall V vadd zero1 zero2 Img image gen which Npairs Nsbp stars Nact1 Nact2 (s s' : pst V),
  which = 1 \/ which = 2 -> which = 1 \/ Nact1 = Nact2 ->
  pairwise_probing V vadd zero1 zero2 Img image gen which Npairs Nsbp stars false Nact1 Nact2 s = (s', Ok tt) ->
  p_ind s' = p_ind s /\ p_islist s' = false /\
  (In 1 (p_ind s) \/ which = 1 -> p_v1 s' = p_v1 s) /\ (In 2 (p_ind s) \/ which = 2 -> p_v2 s' = p_v2 s).
Proof.
  intros V vadd zero1 zero2 Img image gen which Npairs Nsbp stars Nact1 Nact2 s s' Hw Hs E.
  destruct (probing_result V vadd zero1 zero2 Img image gen which Npairs Nsbp stars Nact1 Nact2 Hw Hs s s' E) as (A & B & C & D & _).
  assert (U : forall k, In k (p_ind s) \/ which = k -> in_use which (p_ind s) k = true).
  { intros k [Hk|<-]; unfold in_use.
    - apply orb_true_iff. left. apply existsb_exists. exists k. split; [exact Hk|apply Z.eqb_refl].
    - rewrite Z.eqb_refl. apply orb_true_r. }
  split; [exact B|]. split; [exact A|]. split; intros H.
  - rewrite C. unfold nominal1_of. now rewrite (U 1 H).
  - rewrite D. unfold nominal2_of. now rewrite (U 2 H).
Qed.
Print Assumptions C31_restores.

(* What is done in between: for each star and sub-band one unprobed exposure, one exposure per probe (the probe added
   to the entry command of the probing DM, the other DM at its entry command), then the model evaluated at the same
   commands. *)
Theorem C31_sequence : forall V vadd zero1 zero2 Img image gen which Npairs Nsbp stars Nact1 Nact2 (s s' : pst V),
  which = 1 \/ which = 2 -> which = 1 \/ Nact1 = Nact2 ->
  pairwise_probing V vadd zero1 zero2 Img image gen which Npairs Nsbp stars false Nact1 Nact2 s = (s', Ok tt) ->
  let nom1 := if existsb (Z.eqb 1) (p_ind s) || (1 =? which) then p_v1 s else zero1 in
  let nom2 := if existsb (Z.eqb 2) (p_ind s) || (2 =? which) then p_v2 s else zero2 in
  exists lg, blocks V vadd Img image gen which Npairs nom1 nom2 (list_prod (seq 0 stars) (seq 0 Nsbp)) (p_log s) lg /\
    p_log s' = p_log s ++ lg.
Proof.
  intros V vadd zero1 zero2 Img image gen which Npairs Nsbp stars Nact1 Nact2 s s' Hw Hs E.
  destruct (probing_result V vadd zero1 zero2 Img image gen which Npairs Nsbp stars Nact1 Nact2 Hw Hs s s' E) as (_ & _ & _ & _ & H).
  exact H.
Qed.
Print Assumptions C31_sequence.

(* It returns normally whenever every probe can be generated. *)
Theorem C31_succeeds : forall V vadd zero1 zero2 Img image gen which Npairs Nsbp stars Nact1 Nact2 (s : pst V),
  which = 1 \/ which = 2 -> which = 1 \/ Nact1 = Nact2 ->
  (forall star I0 i, exists c, gen star I0 i = Ok c) -> (0 < stars)%nat -> (0 < Nsbp)%nat ->
  exists s', pairwise_probing V vadd zero1 zero2 Img image gen which Npairs Nsbp stars false Nact1 Nact2 s = (s', Ok tt).
Proof. intros. now apply probing_succeeds. Qed.
Print Assumptions C31_succeeds.

(* A DM outside the control set that is not the probing DM is flattened and stays flat. *)
Theorem C31_other_dm_zeroed : forall V vadd zero1 zero2 Img image gen Npairs Nsbp stars Nact1 Nact2 (s s' : pst V),
  pairwise_probing V vadd zero1 zero2 Img image gen 1 Npairs Nsbp stars false Nact1 Nact2 s = (s', Ok tt) ->
  ~ In 2 (p_ind s) -> p_v2 s' = zero2.
Proof.
  intros V vadd zero1 zero2 Img image gen Npairs Nsbp stars Nact1 Nact2 s s' E H2.
  destruct (probing_result V vadd zero1 zero2 Img image gen 1 Npairs Nsbp stars Nact1 Nact2 (or_introl eq_refl) (or_introl eq_refl) s s' E)
    as (_ & _ & _ & D & _).
  rewrite D. unfold nominal2_of, in_use. replace (existsb (Z.eqb 2) (p_ind s)) with false; [reflexivity|].
  symmetry. apply not_true_iff_false. intros T. apply existsb_exists in T. destruct T as (x & Hx & Ex). apply Z.eqb_eq in Ex. now subst.
Qed.
Print Assumptions C31_other_dm_zeroed.
(* concrete instance: commands are integers; DM1 only in use, DM2 at 7 *)
Definition pp_ex (gen : nat -> Z -> nat -> res Z) (s : pst Z) : pst Z * res unit :=
  pairwise_probing Z Z.add 0 0 Z (fun t _ v1 v2 => 100 * v1 + v2) gen 1 2 1 1 false 34 34 s.
Theorem C31_every_dm_restored_refuted : exists gen (s s' : pst Z), p_ind s = [1] /\ pp_ex gen s = (s', Ok tt) /\ p_v2 s = 7 /\ p_v2 s' = 0.
Proof.
  exists (fun _ _ i => Ok (Z.of_nat i)), (mkpst [1] false 5 7 []).
  eexists. split; [reflexivity|]. split; [vm_compute; reflexivity|]. split; reflexivity.
Qed.
Example C31_ex : exists s', pp_ex (fun _ _ i => Ok (Z.of_nat i)) (mkpst [1; 2] false 5 7 []) = (s', Ok tt) /\
  p_ind s' = [1; 2] /\ p_v1 s' = 5 /\ p_v2 s' = 7 /\ nth_error (p_log s') 3 = Some (Exposure 0 7 7).
Proof. eexists. split; [vm_compute; reflexivity|]. repeat split. Qed.

(* If the first probe cannot be generated (e.g. region centred on the star) the exception leaves the probing DM
   appended to the list of DMs in use. *)
Theorem C31_exception_leaves_dm_list : forall V vadd zero1 zero2 Img image gen which Npairs Nsbp stars Nact1 Nact2 (s : pst V) e,
  which = 1 \/ which = 2 -> (0 < Npairs)%nat -> (0 < Nsbp)%nat -> (0 < stars)%nat ->
  (forall star I0 i, gen star I0 i = Raise e) ->
  exists s', pairwise_probing V vadd zero1 zero2 Img image gen which Npairs Nsbp stars false Nact1 Nact2 s = (s', Raise e) /\
    p_ind s' = p_ind s ++ [which].
Proof.
  intros V vadd zero1 zero2 Img image gen which Npairs Nsbp stars Nact1 Nact2 s e Hw H1 H2 H3 Hg.
  rewrite prologue by exact Hw.
  destruct stars as [|st]; [clear -H3; lia|]. destruct Nsbp as [|nb]; [clear -H2; lia|]. destruct Npairs as [|np]; [clear -H1; lia|].
  cbn [seq mfor]. unfold mbind at 1. cbn [mfor]. unfold mbind at 1.
  unfold subband. unfold mbind at 1, set_v1 at 1. unfold mbind at 1, set_v2 at 1. unfold mbind at 1, expose at 1.
  unfold mbind at 1. replace (2 * S np)%nat with (S (S (2 * np))) by (clear; lia).
  cbn [seq mfor]. unfold mbind at 1, probe_one at 1, mbind at 1, lift. rewrite Hg.
  eexists. split; [reflexivity|]. reflexivity.
Qed.
Print Assumptions C31_exception_leaves_dm_list.
(* Probing with DM2 when the two DMs have different numbers of actuators always fails, also leaving the list altered. *)
Theorem C31_unequal_dms_fail : forall V vadd zero1 zero2 Img image gen Npairs Nsbp stars Nact1 Nact2 (s : pst V),
  Nact1 <> Nact2 -> (0 < Npairs)%nat -> (0 < Nsbp)%nat -> (0 < stars)%nat ->
  exists s' e, pairwise_probing V vadd zero1 zero2 Img image gen 2 Npairs Nsbp stars false Nact1 Nact2 s = (s', Raise e).
Proof.
  intros V vadd zero1 zero2 Img image gen Npairs Nsbp stars Nact1 Nact2 s Hn H1 H2 H3.
  rewrite prologue by now right.
  destruct stars as [|st]; [clear -H3; lia|]. destruct Nsbp as [|nb]; [clear -H2; lia|].
  cbn [seq mfor]. unfold mbind at 1. cbn [mfor]. unfold mbind at 1.
  unfold subband at 1. unfold mbind at 1, set_v1 at 1. unfold mbind at 1, set_v2 at 1. unfold mbind at 1, expose at 1.
  unfold mbind at 1. destruct (mfor V (seq 0 (2 * Npairs)) _ _) as [s1 [r|e]]; [|eexists; eexists; reflexivity].
  rewrite (proj2 (Z.eqb_neq Nact1 Nact2) Hn). destruct (Nat.eqb_spec Npairs 0) as [E|_]; [clear -E H1; lia|].
  unfold mbind at 1. cbn. eexists. eexists. reflexivity.
Qed.
Print Assumptions C31_unequal_dms_fail.
(* Any probe schedule makes the estimation raise TypeError before anything is done. *)
Theorem C31_schedule_unusable : forall V vadd zero1 zero2 Img image gen which Npairs Nsbp stars Nact1 Nact2 (s : pst V),
  pairwise_probing V vadd zero1 zero2 Img image gen which Npairs Nsbp stars true Nact1 Nact2 s = (s, Raise TypeError).
Proof. reflexivity. Qed.

(* ---------------- C32 ---------------- *)
Open Scope R_scope.
(* The phases: pair k uses k*pi/N and k*pi/N + pi. *)
Theorem C32_phases : forall Npairs k, (k < Npairs)%nat ->
  probePhase Npairs (2 * k) = INR k * PI / INR Npairs /\
  probePhase Npairs (2 * k + 1) = INR k * PI / INR Npairs + PI.
Proof. exact probePhase_pair. Qed.
Print Assumptions C32_phases.
(* Both probes of a pair have their phase discontinuity on the same axis. *)
Theorem C32_pair_same_axis : forall o Itr k, bad_axis_y o Itr (2 * k) = bad_axis_y o Itr (2 * k + 1).
Proof.
  intros [| |] Itr k; [reflexivity|reflexivity|]. unfold bad_axis_y.
  rewrite Nat2Z.inj_add, Nat2Z.inj_mul. change (Z.of_nat 2) with 2%Z. change (Z.of_nat 1) with 1%Z.
  assert (C : ((2 * Z.of_nat k + 1) mod 4 = 1 /\ (2 * Z.of_nat k + 1 + 1) mod 4 = 2)%Z \/
              ((2 * Z.of_nat k + 1) mod 4 = 3 /\ (2 * Z.of_nat k + 1 + 1) mod 4 = 0)%Z).
  { generalize (Z.of_nat k). intros z. Z.to_euclidean_division_equations. lia. }
  destruct C as [[-> ->]|[-> ->]]; reflexivity.
Qed.
Print Assumptions C32_pair_same_axis.
Theorem C32_axis_alternates : forall Itr k,
  bad_axis_y AxAlt Itr (2 * k + 2) = negb (bad_axis_y AxAlt Itr (2 * k)) /\
  bad_axis_y AxAlt (Itr + 1) (2 * k) = negb (bad_axis_y AxAlt Itr (2 * k)).
Proof.
  intros Itr k. unfold bad_axis_y. rewrite Nat2Z.inj_add, Nat2Z.inj_mul. change (Z.of_nat 2) with 2%Z.
  assert (C : ((2 * Z.of_nat k + 1) mod 4 = 1 /\ (2 * Z.of_nat k + 2 + 1) mod 4 = 3)%Z \/
              ((2 * Z.of_nat k + 1) mod 4 = 3 /\ (2 * Z.of_nat k + 2 + 1) mod 4 = 1)%Z).
  { generalize (Z.of_nat k). intros z. Z.to_euclidean_division_equations. lia. }
  assert (D : (Itr mod 2 = 0 /\ (Itr + 1) mod 2 = 1)%Z \/ (Itr mod 2 = 1 /\ (Itr + 1) mod 2 = 0)%Z).
  { Z.to_euclidean_division_equations. lia. }
  destruct C as [[-> ->]|[-> ->]]; destruct D as [[-> ->]|[-> ->]]; split; reflexivity.
Qed.
Print Assumptions C32_axis_alternates.

(* The surface fit used for the probes: [fit h] is the voltage map whose heights solve the linear system of C51. *)
Definition lsq_fit (N : Z) (inf : arr R) (VtoH : Z -> Z -> R) (fit : (Z -> Z -> R) -> Z -> Z -> R) : Prop :=
  (forall i j, VtoH i j <> 0) /\
  (forall h, is_lsq_fit N N inf (mkarr N N h) (mkarr N N (fun i j => fit h i j * VtoH i j))).
(* the system has at most one solution *)
Definition regular (N : Z) (inf : arr R) : Prop :=
  forall x, is_lsq_fit N N inf (mkarr N N (fun _ _ => 0)) x -> forall i j, (0 <= i < N)%Z -> (0 <= j < N)%Z -> px x i j = 0.
Lemma fit_opposite N inf VtoH fit h g : (0 < N)%Z -> lsq_fit N inf VtoH fit -> regular N inf ->
  (forall i j, g i j = - h i j) -> forall i j, (0 <= i < N)%Z -> (0 <= j < N)%Z -> fit g i j = - fit h i j.
Proof.
  intros HN [Hv Hf] Hr Hg i j Hi Hj.
  assert (E : px (mkarr N N (fun i j => fit h i j * VtoH i j + fit g i j * VtoH i j)) i j = 0).
  { apply Hr; auto. intros k Hk. pose proof (Hf h k Hk) as A. pose proof (Hf g k Hk) as B. cbn [px] in *.
    transitivity (h (k / N)%Z (k mod N)%Z + g (k / N)%Z (k mod N)%Z); [|rewrite Hg; ring].
    rewrite <- A, <- B, <- rsum_plus. apply rsum_ext. intros p _. ring. }
  cbn [px] in E. apply Rmult_eq_reg_r with (VtoH i j); [|apply Hv]. lra.
Qed.
Theorem C32_square_pairs_opposite : forall N inf VtoH fit lambda0 xo yo rot gain Inorm radius o Itr Npairs k,
  (0 < N)%Z -> lsq_fit N inf VtoH fit -> regular N inf -> (k < Npairs)%nat ->
  forall i j, (0 <= i < N)%Z -> (0 <= j < N)%Z ->
  let cmd n := gen_square fit N lambda0 xo yo rot gain Inorm radius (bad_axis_y o Itr n) (probePhase Npairs n) in
  cmd (2 * k + 1)%nat i j = - cmd (2 * k)%nat i j.
Proof.
  intros N inf VtoH fit lambda0 xo yo rot gain Inorm radius o Itr Npairs k HN Hf Hr Hk i j Hi Hj cmd. unfold cmd, gen_square.
  destruct (probePhase_pair Npairs k Hk) as [-> ->]. rewrite <- (C32_pair_same_axis o Itr k).
  rewrite (fit_opposite N inf VtoH fit (height_map N xo yo rot (square_height lambda0 Inorm radius N (bad_axis_y o Itr (2 * k)) (INR k * PI / INR Npairs))) _ HN Hf Hr) with (2 := Hi) (3 := Hj).
  - ring.
  - intros a b. unfold height_map. destruct (rotate _ _ _) as [X Y]. apply square_opposite.
Qed.
Print Assumptions C32_square_pairs_opposite.
Theorem C32_rect_pairs_opposite : forall N inf VtoH fit lambda0 xo yo rot gain Inorm D spacing xi eta w h Npairs k c1 c2,
  (0 < N)%Z -> lsq_fit N inf VtoH fit -> regular N inf -> (k < Npairs)%nat ->
  let cmd n := gen_rect fit N lambda0 xo yo rot gain Inorm D spacing xi eta w h (probePhase Npairs n) in
  cmd (2 * k)%nat = Ok c1 -> cmd (2 * k + 1)%nat = Ok c2 ->
  forall i j, (0 <= i < N)%Z -> (0 <= j < N)%Z -> c2 i j = - c1 i j.
Proof.
  intros N inf VtoH fit lambda0 xo yo rot gain Inorm D spacing xi eta w h Npairs k c1 c2 HN Hf Hr Hk cmd. unfold cmd, gen_rect.
  destruct (probePhase_pair Npairs k Hk) as [-> ->].
  set (kk := IZR N / (D / spacing)).
  assert (G : forall i j, (0 <= i < N)%Z -> (0 <= j < N)%Z ->
    gain * fit (height_map N xo yo rot (rect_height lambda0 Inorm (xi * kk) (eta * kk) (w * kk) (h * kk) (INR k * PI / INR Npairs + PI))) i j =
    - (gain * fit (height_map N xo yo rot (rect_height lambda0 Inorm (xi * kk) (eta * kk) (w * kk) (h * kk) (INR k * PI / INR Npairs))) i j)).
  { intros i j Hi Hj. rewrite (fit_opposite N inf VtoH fit (height_map N xo yo rot (rect_height lambda0 Inorm (xi * kk) (eta * kk) (w * kk) (h * kk) (INR k * PI / INR Npairs))) _ HN Hf Hr) with (2 := Hi) (3 := Hj).
    - ring.
    - intros a b. unfold height_map. destruct (rotate _ _ _) as [X Y]. apply rect_opposite. }
  destruct (Req_EM_T xi 0); [destruct (Req_EM_T eta 0); [discriminate|]|];
    intros [= <-] [= <-] i j Hi Hj; now apply G.
Qed.
Print Assumptions C32_rect_pairs_opposite.
(* The rectangular probe is refused exactly when its region is centred on the star. *)
Theorem C32_rect_error : forall fit N lambda0 xo yo rot gain Inorm D spacing xi eta w h phase,
  gen_rect fit N lambda0 xo yo rot gain Inorm D spacing xi eta w h phase = Raise ValueError <-> xi = 0 /\ eta = 0.
Proof.
  intros. unfold gen_rect. destruct (Req_EM_T xi 0) as [E|E]; [destruct (Req_EM_T eta 0) as [F|F]|]; split; try discriminate; try tauto.
Qed.
Print Assumptions C32_rect_error.
(* The rotation option turns the probe about the probe's centre by the stated angle, and 0 leaves it alone. *)
Theorem C32_rotation : forall rot x y, (rot_eps < Rabs rot ->
   rotate rot x y = (x * cos (rot * PI / 180) + y * sin (rot * PI / 180), y * cos (rot * PI / 180) - x * sin (rot * PI / 180))) /\
   rotate 0 x y = (x, y).
Proof.
  intros rot x y. split; [apply rotate_is_rotation|]. unfold rotate. rewrite Rabs_R0.
  destruct (Rlt_dec rot_eps 0) as [H|]; [|reflexivity]. exfalso. unfold rot_eps in H. lra.
Qed.
Print Assumptions C32_rotation.
(* The hypotheses on the fit: actuators that do not couple. *)
Definition inf_unit : arr R := mkarr 1 1 (fun _ _ => 1).
Lemma inf_unit_row N j x : (0 < N)%Z -> (0 <= j < N * N)%Z ->
  rsum (Z.to_nat (N * N)) (fun p => prefilter N N inf_unit j (Z.of_nat p) * px x (Z.of_nat p / N)%Z (Z.of_nat p mod N)%Z)
  = px x (j / N)%Z (j mod N)%Z.
Proof.
  intros HN Hj.
  assert (P : forall p, (p < Z.to_nat (N * N))%nat -> prefilter N N inf_unit j (Z.of_nat p) = if (Z.of_nat p =? j)%Z then 1 else 0).
  { intros p Hp. unfold prefilter, convolve, inf_unit. cbn [nr nc px]. change (Z.to_nat 1) with 1%nat. cbn [rsum].
    assert (E : (Z.of_nat p = N * (Z.of_nat p / N) + Z.of_nat p mod N)%Z) by (apply Z.div_mod; lia).
    assert (0 <= Z.of_nat p mod N < N)%Z by (apply Z.mod_pos_bound; lia).
    assert (0 <= Z.of_nat p / N < N)%Z by (split; [apply Z.div_pos; lia|apply Z.div_lt_upper_bound; nia]).
    unfold get0. cbn [nr nc px]. change (1 / 2)%Z with 0%Z. change (Z.of_nat 0) with 0%Z.
    replace (Z.of_nat p / N + 0 - 0)%Z with (Z.of_nat p / N)%Z by lia. replace (Z.of_nat p mod N + 0 - 0)%Z with (Z.of_nat p mod N)%Z by lia.
    replace ((0 <=? Z.of_nat p / N) && (Z.of_nat p / N <? N) && (0 <=? Z.of_nat p mod N) && (Z.of_nat p mod N <? N))%Z with true
      by (symmetry; rewrite !andb_true_iff, !Z.leb_le, !Z.ltb_lt; lia).
    destruct (Z.eqb_spec (Z.of_nat p / N * N + Z.of_nat p mod N) j) as [F|F]; destruct (Z.eqb_spec (Z.of_nat p) j) as [G|G]; try lia; try ring. }
  rewrite (rsum_single _ (Z.to_nat j)).
  - rewrite P by lia. rewrite Z2Nat.id by lia. rewrite Z.eqb_refl. ring.
  - lia.
  - intros i Hi Hne. rewrite P by exact Hi. destruct (Z.eqb_spec (Z.of_nat i) j) as [F|F]; [lia|ring].
Qed.
Example C32_ex : lsq_fit 34 inf_unit (fun _ _ => 2) (fun h i j => h i j / 2) /\ regular 34 inf_unit.
Proof.
  split.
  - split; [intros; lra|]. intros h j Hj. rewrite inf_unit_row by lia. cbn [px]. field.
  - intros x Hx i j Hi Hj.
    pose proof (Hx (i * 34 + j)%Z) as A. rewrite inf_unit_row in A by lia.
    replace ((i * 34 + j) / 34)%Z with i in A by (apply Z.div_unique with j; lia).
    replace ((i * 34 + j) mod 34)%Z with j in A by (apply Z.mod_unique with i; lia).
    apply A. lia.
Qed.

(* ---------------- C33 ---------------- *)
(* Whatever the measurements, the batch estimate is the shortest least-squares solution over the pairs that moved the
   intensity (zero with fewer than two of them), unless it is brighter than the threshold, when it is zero. *)
Theorem C33_least_squares : forall Ithreshold I0 pairs,
  let g := filter (fun p => if Rlt_dec 0 (amp I0 p) then true else false) pairs in
  let rows := map (fun p => ((amp I0 p * cos (m_phase p), amp I0 p * sin (m_phase p)), (m_plus p - m_minus p) / 4)) g in
  (length g < 2)%nat /\ Eest Ithreshold I0 pairs = (0, 0) \/
  (2 <= length g)%nat /\ exists x, least_squares_min_norm rows x /\
    Eest Ithreshold I0 pairs = (if Rlt_dec Ithreshold (norm2 x) then (0, 0) else x).
Proof.
  intros T I0 pairs g rows. unfold Eest, Epix. fold (good I0). change (filter (good I0) pairs) with g.
  destruct (Nat.ltb_spec (length g) 2) as [H|H].
  - left. split; [exact H|]. destruct (Rlt_dec T (0 * 0 + 0 * 0)); reflexivity.
  - right. split; [exact H|]. change (map (fun p => (hrow I0 p, zmeas p)) g) with rows.
    exists (pinv_apply rows). split; [apply pinv_least_squares|]. unfold norm2.
    destruct (pinv_apply rows) as [x y]. cbn [fst snd]. replace (x ^ 2 + y ^ 2) with (x * x + y * y) by ring. reflexivity.
Qed.
Print Assumptions C33_least_squares.

(* Exact measurements with two probe fields of different direction: the field and the incoherent light are recovered
   exactly (field not brighter than the threshold). *)
Theorem C33_exact_recovery : forall Ithreshold E Iinc (l : list ((R * R) * pairm)),
  (forall d p, In (d, p) l -> exact_pair E Iinc d p) ->
  (exists d p e q, In (d, p) l /\ In (e, q) l /\ ~ collinear d e) ->
  fst E ^ 2 + snd E ^ 2 <= Ithreshold ->
  let I0 := fst E ^ 2 + snd E ^ 2 + Iinc in
  Eest Ithreshold I0 (map snd l) = E /\ IincoEst Ithreshold I0 (map snd l) = Iinc.
Proof.
  intros T E Iinc l Hx Hc HT I0.
  assert (EI : I0 = I0_of E Iinc) by (unfold I0, I0_of, intensity_with; cbn [fst snd]; ring).
  assert (A : Eest T I0 (map snd l) = E).
  { unfold Eest. rewrite EI, (epix_exact E Iinc l Hx Hc). destruct E as [x y]. cbn [fst snd] in *.
    destruct (Rlt_dec T (x * x + y * y)); [exfalso; nra|reflexivity]. }
  split; [exact A|]. unfold IincoEst. rewrite A. destruct E as [x y]. unfold I0. cbn [fst snd]. ring.
Qed.
Print Assumptions C33_exact_recovery.
(* A pair that does not move the field at that pixel (shadow of the probe) does no harm: it is left out. *)
Theorem C33_dark_probe_ignored : forall E Iinc p, exact_pair E Iinc (0, 0) p ->
  let I0 := fst E ^ 2 + snd E ^ 2 + Iinc in
  forall T l l', Eest T I0 (l ++ p :: l')%list = Eest T I0 (l ++ l')%list.
Proof.
  intros E Iinc p H I0 T l l'.
  assert (EI : I0 = I0_of E Iinc) by (unfold I0, I0_of, intensity_with; cbn [fst snd]; ring).
  unfold Eest, Epix. rewrite !filter_app. cbn [filter].
  replace (good I0 p) with false; [reflexivity|]. symmetry. apply not_true_iff_false. rewrite EI. intros G.
  now apply (exact_good E Iinc (0, 0) p H) in G.
Qed.
Print Assumptions C33_dark_probe_ignored.
(* Probe fields that are all collinear: only the component along them is recovered, and the rest is reported as
   incoherent. *)
Definition coll_pair : pairm := mkpair ((1 + 1) ^ 2 + 4) ((1 - 1) ^ 2 + 4) (atan2 0 2).
Theorem C33_collinear_refuted : exists E Iinc (l : list ((R * R) * pairm)), (2 <= length l)%nat /\
  (forall d p, In (d, p) l -> d <> (0, 0) /\ exact_pair E Iinc d p) /\
  let I0 := fst E ^ 2 + snd E ^ 2 + Iinc in
  Eest 1000 I0 (map snd l) <> E /\ IincoEst 1000 I0 (map snd l) <> Iinc.
Proof.
  exists (1, 2), 0, [((1, 0), coll_pair); ((1, 0), coll_pair)]. split; [cbn; lia|].
  assert (X : exact_pair (1, 2) 0 (1, 0) coll_pair).
  { unfold exact_pair, coll_pair, intensity_with. cbn [m_plus m_minus m_phase fst snd]. split; [ring|]. split; [ring|].
    exists (2, 0), (0, 0), 2. split; [unfold model_phase; cbn [fst snd]; f_equal; ring|]. cbn [fst snd]. lra. }
  split.
  - intros d p Hi. assert (Hp : (d, p) = ((1, 0), coll_pair)) by (destruct Hi as [Hi|[Hi|[]]]; congruence).
    injection Hp as -> ->. split; [intros Q; injection Q; lra|exact X].
  - cbn [map snd fst]. set (I0 := 1 ^ 2 + 2 ^ 2 + 0).
    assert (EI : I0 = I0_of (1, 2) 0) by (unfold I0, I0_of, intensity_with; cbn [fst snd]; ring).
    assert (N : (1, 0) <> (0, 0) :> R * R) by (intros Q; injection Q; lra).
    assert (G : good I0 coll_pair = true) by (rewrite EI; now apply (exact_good (1, 2) 0 (1, 0))).
    assert (R : hrow I0 coll_pair = (1, 0)) by (rewrite EI; now apply exact_row).
    assert (Z : zmeas coll_pair = 1) by (rewrite (exact_z _ _ _ _ X); cbn; ring).
    assert (V : Epix I0 [coll_pair; coll_pair] = (1, 0)).
    { unfold Epix. cbn [filter]. rewrite G. cbn [length Nat.ltb Nat.leb map]. rewrite R, Z.
      unfold pinv_apply, sum2. cbn [map rsuml]. destruct (Req_EM_T _ 0) as [_|D]; [|exfalso; apply D; ring].
      destruct (Req_EM_T _ 0) as [D|_]; [exfalso; lra|]. f_equal; field. }
    assert (V2 : Eest 1000 I0 [coll_pair; coll_pair] = (1, 0)).
    { unfold Eest. rewrite V. destruct (Rlt_dec 1000 (1 * 1 + 0 * 0)); [lra|reflexivity]. }
    rewrite V2. split; [intros Q; injection Q; lra|]. unfold IincoEst. rewrite V2. unfold I0. lra.
Qed.
Print Assumptions C33_collinear_refuted.
(* The hypotheses of C33_exact_recovery, met by two perpendicular probes. *)
Example C33_ex : exists l, (forall d p, In (d, p) l -> exact_pair (3, 4) 5 d p) /\
  (exists d p e q, In (d, p) l /\ In (e, q) l /\ ~ collinear d e).
Proof.
  exists [((1, 0), mkpair (4 ^ 2 + 4 ^ 2 + 5) (2 ^ 2 + 4 ^ 2 + 5) (atan2 0 2)); ((0, 1), mkpair (3 ^ 2 + 5 ^ 2 + 5) (3 ^ 2 + 3 ^ 2 + 5) (atan2 2 0))].
  split.
  - intros d p [[= <- <-]|[[= <- <-]|[]]]; unfold exact_pair, intensity_with; cbn [m_plus m_minus m_phase fst snd].
    + split; [ring|]. split; [ring|]. exists (2, 0), (0, 0), 2. unfold model_phase. cbn [fst snd]. split; [f_equal; ring|]. lra.
    + split; [ring|]. split; [ring|]. exists (0, 2), (0, 0), 2. unfold model_phase. cbn [fst snd]. split; [f_equal; ring|]. lra.
  - eexists (1, 0), _, (0, 1), _. split; [now left|]. split; [right; left; reflexivity|]. unfold collinear. cbn. lra.
Qed.
