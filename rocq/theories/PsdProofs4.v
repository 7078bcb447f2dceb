From Verif Require Import Base StrBase RBase CtrlModel UtilModel DmSurfModel CubModel DmcModel CBase PropModel PropProofs OptModel PrpModel PrpSpec PrpProofs PrpProofs5 ErrModel ErrSpec PsdModel PsdSpec PsdProofs PsdProofs2 PsdProofs3.
Open Scope R_scope.
(* two by two, all phases 0 *)
Lemma ph2 u j : (u < 2)%nat -> (j < 2)%nat -> ph (-1) 2 u j = RtoC (if (Nat.eqb u 1 && Nat.eqb j 1)%bool then -1 else 1).
Proof.
  intros U J. destruct u as [|[|u]], j as [|[|j]]; try lia; unfold ph, cis; cbn [Nat.eqb andb INR]; unfold RtoC.
  1,2,3: replace (-1 * (2 * PI) * _ * _ / _) with 0 by (unfold Rdiv; ring); now rewrite cos_0, sin_0.
  replace (-1 * (2 * PI) * 1 * 1 / (1 + 1)) with (- PI) by field. now rewrite cos_neg, sin_neg, cos_PI, sin_PI, Ropp_0.
Qed.
Lemma phase0 x : Cmult (RtoC x) (cis (2 * PI * (1 / 2) - PI)) = RtoC x.
Proof. replace (2 * PI * (1 / 2) - PI) with 0 by field. rewrite cis_0. ring. Qed.
Section Two.
Variables (s amp b c : R) (k : pkeys).
Let dk := 1 / (INR 2 * s).
Let A := fun i j => sqrt (psd2d 2 dk amp b c k i j * cutoff 2 dk k i j) / dk.
Lemma centre2 : A 1 1 = 0.
Proof. unfold A, psd2d. cbn. rewrite Rmult_0_l, sqrt_0. unfold Rdiv. ring. Qed.
Lemma raw2 i j : s <> 0 -> (i < 2)%nat -> (j < 2)%nat ->
  raw_map 2 s amp b c k (fun _ _ => 1 / 2) i j = / (16 * s ^ 2) * ((if Nat.eqb j 1 then -1 else 1) * A 1 0 + (if Nat.eqb i 1 then -1 else 1) * A 0 1 + (if Nat.eqb i 1 then -1 else 1) * (if Nat.eqb j 1 then -1 else 1) * A 0 0).
Proof.
  intros S I' J. rewrite raw_dft by (auto; lia). f_equal; [simpl; f_equal; ring|].
  unfold dft2. cbn [csum]. rewrite !ph2 by lia. unfold spectrum. cbn [fpx]. fold dk. rewrite !phase0.
  change (roll_ix 2 (half 2) 0) with 1%nat. change (roll_ix 2 (half 2) 1) with 0%nat. fold (A 1 1) (A 1 0) (A 0 1) (A 0 0). rewrite centre2.
  destruct i as [|[|i]], j as [|[|j]]; try lia; cbn; ring.
Qed.
Lemma std2 : 0 < s -> np_std 2 (raw_map 2 s amp b c k (fun _ _ => 1 / 2)) = / (16 * s ^ 2) * sqrt (A 1 0 ^ 2 + A 0 1 ^ 2 + A 0 0 ^ 2).
Proof.
  intros S. assert (K : 0 < / (16 * s ^ 2)) by (apply Rinv_0_lt_compat; nra). pose proof (pow2_ge_0 (A 1 0)) as X. pose proof (pow2_ge_0 (A 0 1)) as Y. pose proof (pow2_ge_0 (A 0 0)) as Z.
  apply (rms_unique 2 (raw_map 2 s amp b c k (fun _ _ => 1 / 2))); [lia|apply std_rms; lia|]. split; [apply Rmult_le_pos; [lra|apply sqrt_pos]|].
  assert (M : mean2 2 (raw_map 2 s amp b c k (fun _ _ => 1 / 2)) = 0).
  { unfold mean2, sum2. cbn [rsum]. rewrite !raw2 by (try lia; lra). cbn [Nat.eqb]. unfold Rdiv. ring. }
  rewrite M. unfold sum2. cbn [rsum]. rewrite !raw2 by (try lia; lra). cbn [Nat.eqb]. set (q := / (16 * s ^ 2)) in *. set (r := sqrt _). assert (R : r * r = A 1 0 ^ 2 + A 0 1 ^ 2 + A 0 0 ^ 2) by (unfold r; apply sqrt_sqrt; lra).
  replace (INR (2 * 2)) with 4 by (simpl; ring). replace (q * r * (q * r) * 4) with (4 * (q * q) * (r * r)) by ring. rewrite R. ring.
Qed.
Lemma map2 i j : 0 < s -> 0 < A 0 0 -> (i < 2)%nat -> (j < 2)%nat -> fpx (new_map 2 s amp b c k (fun _ _ => 1 / 2)) i j =
  ((if Nat.eqb j 1 then -1 else 1) * A 1 0 + (if Nat.eqb i 1 then -1 else 1) * A 0 1 + (if Nat.eqb i 1 then -1 else 1) * (if Nat.eqb j 1 then -1 else 1) * A 0 0) * (target 2 s amp b c k / sqrt (A 1 0 ^ 2 + A 0 1 ^ 2 + A 0 0 ^ 2)).
Proof.
  intros S Z I' J. rewrite new_map_eq. cbn [fpx]. rewrite raw2 by (try lia; lra). rewrite std2 by lra.
  assert (0 < sqrt (A 1 0 ^ 2 + A 0 1 ^ 2 + A 0 0 ^ 2)) by (apply sqrt_lt_R0; pose proof (pow2_ge_0 (A 1 0)); pose proof (pow2_ge_0 (A 0 1)); nra). field. lra.
Qed.
Lemma not_uniform2 m : 0 < s -> 0 < A 0 0 -> 0 <= A 1 0 -> 0 < target 2 s amp b c k ->
  (forall i j, (i < 2)%nat -> (j < 2)%nat -> m i j = fpx (new_map 2 s amp b c k (fun _ _ => 1 / 2)) (roll_ix 2 (half 2) i) (roll_ix 2 (half 2) j)) -> ~ uniform 2 m.
Proof.
  intros S Z X T V U. pose proof (U 1%nat 1%nat 1%nat 0%nat ltac:(lia) ltac:(lia) ltac:(lia) ltac:(lia)) as E. rewrite !V in E by lia.
  change (roll_ix 2 (half 2) 0) with 1%nat in E. change (roll_ix 2 (half 2) 1) with 0%nat in E. rewrite !map2 in E by (try lia; assumption). cbn [Nat.eqb] in E.
  set (g := target 2 s amp b c k / _) in E. assert (G : 0 < g).
  { unfold g. apply Rdiv_lt_0_compat; [exact T|]. apply sqrt_lt_R0. pose proof (pow2_ge_0 (A 1 0)). pose proof (pow2_ge_0 (A 0 1)). nra. }
  nra.
Qed.
End Two.
(* the quarter turn *)
Lemma kpsd_quarter n dk i j : kpsd n dk (angle (Some 90)) 0 i j = sqrt (2 * (IZR (off n i) * IZR (off n i))) * dk.
Proof.
  unfold kpsd, yk, xk, angle. replace (90 * PI / 180) with (PI / 2) by field. rewrite Ropp_0, cos_neg, sin_neg, cos_PI2, sin_PI2, cos_0, <- !off_R. f_equal. f_equal. ring.
Qed.
(* odd sizes: the sum of a map *)
Lemma dft2_00 n x : dft2 1 n n (fun i j => RtoC (x i j)) 0 0 = RtoC (sum2 n x).
Proof.
  unfold dft2, sum2. rewrite RtoC_rsum. apply csum_ext. intros i _. rewrite RtoC_rsum. apply csum_ext. intros j _. unfold ph. replace (1 * (2 * PI) * INR 0 * INR i / INR n) with 0 by (simpl (INR 0); unfold Rdiv; ring).
  replace (1 * (2 * PI) * INR 0 * INR j / INR n) with 0 by (simpl (INR 0); unfold Rdiv; ring). rewrite cis_0. ring.
Qed.
Lemma raw_sum n s amp b c k u : (1 <= n)%nat -> s <> 0 ->
  sum2 n (raw_map n s amp b c k u) = / (INR n ^ 2 * s ^ 2) * fst (fpx (spectrum n (1 / (INR n * s)) amp b c k u) (roll_ix n (half n) 0) (roll_ix n (half n) 0)).
Proof.
  intros N S. assert (E : forall x y, RtoC x = RtoC y -> x = y) by (intros x y H; now injection H). apply E. rewrite <- dft2_00.
  rewrite (dft2_ext0 1 n n _ (fun i j => RtoC (/ (INR n ^ 4 * s ^ 2) * fst (dft2 (-1) n n (fun a e => fpx (spectrum n (1 / (INR n * s)) amp b c k u) (roll_ix n (half n) a) (roll_ix n (half n) e)) i j)))) by (intros; rewrite raw_dft by assumption; reflexivity).
  rewrite back by lia. rewrite !Nat.sub_0_r, Nat.mod_same by lia. set (z := fpx _ _ _). assert (INR n <> 0) by (apply not_0_INR; lia).
  apply injective_projections; unfold Cmult, Cplus, Cconj, RtoC; cbn; field; auto.
Qed.
