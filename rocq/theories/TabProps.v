(* C75: tables of complex transmission kept in files (thinfilm.gen_complex_trans_table). *)
From Flocq Require Import Core.Raux.
From Verif Require ResampProps.
From Verif Require Import Base RBase StrBase CBase PropModel OptModel DiffModel ThinModel ThinSpec FilmModel FilmSpec FilmProofs FilmProofs2 FilmProps TabModel.
Open Scope R_scope.
(* two requests write and read the same files *)
Definition same_compact_file (r r' : tabreq) : Prop := forall refl, name_of r None refl = name_of r' None refl.
Definition same_full_file (r r' : tabreq) : Prop := tr_Nwp r = tr_Nwp r' /\ forall refl, name_of r (Some (tr_Nwp r)) refl = name_of r' (Some (tr_Nwp r')) refl.
Lemma name_inv r o b n : name_of r o b = Ok n -> fn_full n = o /\ fn_refl n = b /\ forall o' b', name_of r o' b' = Ok (mkfn (fn_sub n) (fn_tTi n) (fn_metal n) (fn_m0 n) (fn_m1 n) (fn_dm n) (fn_diel n) (fn_d0 n) (fn_d1 n) (fn_dd n) (fn_lam n) (fn_bw n) (fn_Nsbp n) (fn_aoi n) o' b').
Proof.
  unfold name_of. destruct (np_min (tr_metals r)); [|discriminate]. cbn [rbind]. destruct (np_max (tr_metals r)); [|discriminate]. cbn [rbind]. destruct (np_min (tr_diels r)); [|discriminate]. cbn [rbind]. destruct (np_max (tr_diels r)); [|discriminate]. cbn [rbind].
  intros H. injection H as <-. cbn. auto.
Qed.
Lemma same_any r r' o b n : name_of r o b = Ok n -> name_of r' o b = Ok n -> forall o' b', name_of r o' b' = name_of r' o' b'.
Proof. intros H H' o' b'. apply name_inv in H. apply name_inv in H'. destruct H as (_ & _ & ->), H' as (_ & _ & ->). reflexivity. Qed.
Lemma np_nil {x} r o b : name_of r o b = Raise x -> forall o' b', name_of r o' b' = Raise x.
Proof.
  unfold name_of. destruct (np_min (tr_metals r)); cbn [rbind]; [|auto]. destruct (np_max (tr_metals r)); cbn [rbind]; [|auto]. destruct (np_min (tr_diels r)); cbn [rbind]; [|auto]. destruct (np_max (tr_diels r)); cbn [rbind]; [discriminate|auto].
Qed.
(* every complete file holds a table that some request of that very name computed *)
Definition honest (tb : tables) (f : fs) : Prop := forall n t, f n = Some (Whole t) ->
  match fn_full n with
  | None => exists r, name_of r None (fn_refl n) = Ok n /\ compute_compact tb r (fn_refl n) = Ok t
  | Some 1%nat => exists r, name_of r (Some 1%nat) (fn_refl n) = Ok n /\ compute_compact tb r (fn_refl n) = Ok t
  | Some w => exists r, tr_Nwp r = w /\ name_of r (Some w) (fn_refl n) = Ok n /\ compute_full tb r (fn_refl n) = Ok t
  end.
Lemma get_table_cases a b cmp c : get_table a b cmp = Ok c -> (b = Some (Whole (fst c))) \/ (a = None /\ cmp = Ok (fst c)).
Proof.
  unfold get_table. destruct a as [x|]; cbn [isfile].
  - destruct b as [[|t]|]; try discriminate. cbn. intros H. injection H as <-. now left.
  - destruct cmp as [t|]; [|discriminate]. cbn. intros H. injection H as <-. right. auto.
Qed.
Lemma reach_honest tb f : reach tb f -> honest tb f.
Proof.
  induction 1 as [|f n H IH|f n H IH|f r refl n t H IH E1 E2|f r refl n t H IH E1 E2 E3|f r refl n nc g1 g2 c H IH H1 IH1 H2 IH2 E1 E2 E3 E4]; intros m t0 HT.
  - discriminate.
  - destruct (fname_eq_dec m n); [discriminate|now apply IH].
  - unfold put in HT. destruct (fname_eq_dec m n); [discriminate|now apply IH].
  - unfold put in HT. destruct (fname_eq_dec m n) as [->|]; [|now apply IH]. injection HT as <-. destruct (name_inv _ _ _ _ E1) as (F1 & F2 & _). rewrite F1, F2. eauto.
  - unfold put in HT. destruct (fname_eq_dec m n) as [->|]; [|now apply IH]. injection HT as <-. destruct (name_inv _ _ _ _ E1) as (F1 & F2 & _). rewrite F1, F2. destruct (tr_Nwp r) as [|[|k]] eqn:W; [|congruence|]; eauto 6.
  - unfold put in HT. destruct (fname_eq_dec m n) as [->|]; [|now apply IH]. injection HT as <-. destruct (name_inv _ _ _ _ E1) as (F1 & F2 & F3). rewrite F1, F2. rewrite E2 in *. apply get_table_cases in E4. destruct E4 as [E4|[_ E4]]; [|eauto].
    apply IH2 in E4. destruct (name_inv _ _ _ _ E3) as (G1 & G2 & G3). rewrite G1, G2 in E4. destruct E4 as (r0 & R1 & R2). exists r0. split; [|exact R2]. rewrite <- E1. exact (same_any _ _ _ _ _ R1 E3 _ _).
Qed.
(* Whatever other processes did before and do during the call, whichever were killed at whatever moment: the tables returned are ones that a request with the same file name computed *)
Theorem C75_provenance tb r refl f1 f2 f3 f4 c f : reach tb f1 -> reach tb f2 -> reach tb f3 -> reach tb f4 -> gen_tables tb r refl f1 f2 f3 f4 = Ok (c, f) ->
  (exists r0, same_compact_file r0 r /\ compute_compact tb r0 refl = Ok c) /\
  (tr_Nwp r = 1%nat -> exists r0, same_compact_file r0 r /\ compute_compact tb r0 refl = Ok f) /\
  (tr_Nwp r <> 1%nat -> exists r0, same_full_file r0 r /\ compute_full tb r0 refl = Ok f).
Proof.
  intros R1 R2 R3 R4. unfold gen_tables. destruct (name_of r None refl) as [nc|] eqn:N1; [|discriminate]. cbn [rbind]. destruct (name_of r (Some (tr_Nwp r)) refl) as [nf|] eqn:N2; [|discriminate]. cbn [rbind].
  destruct (get_table (f1 nc) (f2 nc) (compute_compact tb r refl)) as [c0|] eqn:G1; [|discriminate]. cbn [rbind]. destruct (get_table (f3 nf) (f4 nf) _) as [f0|] eqn:G2; [|discriminate]. cbn [rbind]. intros H. injection H as <- <-.
  destruct (name_inv _ _ _ _ N1) as (A1 & A2 & _). destruct (name_inv _ _ _ _ N2) as (B1 & B2 & _).
  assert (HC : exists r0, same_compact_file r0 r /\ compute_compact tb r0 refl = Ok (fst c0)).
  { apply get_table_cases in G1. destruct G1 as [G1|[_ G1]]; [|exists r; split; [intros ?; reflexivity|exact G1]]. apply (reach_honest tb f2 R2) in G1. rewrite A1, A2 in G1. destruct G1 as (r0 & X1 & X2). exists r0. split; [|exact X2]. intros b. exact (same_any _ _ _ _ _ X1 N1 _ _). }
  split; [exact HC|]. split.
  - intros W. rewrite W in *. cbn [Nat.eqb] in G2. apply get_table_cases in G2. destruct G2 as [G2|[_ G2]]; [|injection G2 as <-; exact HC]. apply (reach_honest tb f4 R4) in G2. rewrite B1, B2 in G2. destruct G2 as (r0 & X1 & X2). exists r0. split; [|exact X2]. intros b. exact (same_any _ _ _ _ _ X1 N2 _ _).
  - intros W. rewrite (proj2 (Nat.eqb_neq _ _) W) in G2. apply get_table_cases in G2. destruct G2 as [G2|[_ G2]]; [|exists r; split; [split; [reflexivity|intros ?; reflexivity]|exact G2]]. apply (reach_honest tb f4 R4) in G2. rewrite B1, B2 in G2.
    assert (X : exists r0, tr_Nwp r0 = tr_Nwp r /\ name_of r0 (Some (tr_Nwp r)) refl = Ok nf /\ compute_full tb r0 refl = Ok (fst f0)) by (destruct (tr_Nwp r) as [|[|k]]; [exact G2|congruence|exact G2]).
    destruct X as (r0 & X0 & X1 & X2). exists r0. split; [|exact X2]. split; [exact X0|]. intros b. rewrite X0. exact (same_any _ _ _ _ _ X1 N2 _ _).
Qed.
(* one process alone is an instance *)
Lemma run_gen tb r refl f c x g : run_alone tb r refl f = Ok (c, x, g) -> exists f3, gen_tables tb r refl f f f3 f3 = Ok (c, x).
Proof.
  unfold run_alone, gen_tables. destruct (name_of r None refl) as [nc|]; [|discriminate]. cbn [rbind]. destruct (name_of r (Some (tr_Nwp r)) refl) as [nf|]; [|discriminate]. cbn [rbind].
  destruct (get_table (f nc) (f nc) (compute_compact tb r refl)) as [c0|]; [|discriminate]. cbn [rbind]. intros H. exists (saved f nc c0). destruct (get_table (saved f nc c0 nf) _ _) as [f0|]; [|discriminate]. cbn [rbind] in *. injection H as <- <- _. reflexivity.
Qed.
(* the files one process leaves are reachable too, at every moment it could be killed *)
Theorem C75_histories tb r refl f c x g : reach tb f -> run_alone tb r refl f = Ok (c, x, g) -> reach tb g.
Proof.
  intros RF. unfold run_alone. destruct (name_of r None refl) as [nc|] eqn:N1; [|discriminate]. cbn [rbind]. destruct (name_of r (Some (tr_Nwp r)) refl) as [nf|] eqn:N2; [|discriminate]. cbn [rbind].
  destruct (get_table (f nc) (f nc) (compute_compact tb r refl)) as [c0|] eqn:G1; [|discriminate]. cbn [rbind].
  assert (RG : reach tb (saved f nc c0)).
  { unfold saved. destruct (snd c0) eqn:S; [|exact RF]. apply (r_compact tb f r refl); auto. unfold get_table in G1. destruct (isfile (f nc)).
    - destruct (np_load (f nc)); [|discriminate]. cbn in G1. injection G1 as <-. discriminate.
    - destruct (compute_compact tb r refl); [|discriminate]. cbn in G1. injection G1 as <-. reflexivity. }
  destruct (get_table (saved f nc c0 nf) (saved f nc c0 nf) _) as [f0|] eqn:G2; [|discriminate]. cbn [rbind]. intros H. injection H as _ _ <-. unfold saved at 1. destruct (snd f0) eqn:S; [|exact RG].
  unfold get_table in G2. destruct (isfile (saved f nc c0 nf)).
  - destruct (np_load _); [|discriminate]. cbn in G2. injection G2 as <-. discriminate.
  - destruct (Nat.eqb_spec (tr_Nwp r) 1) as [W|W].
    + cbn in G2. injection G2 as <-. cbn [fst]. apply (r_copy tb (saved f nc c0) r refl nf nc f f c0); auto.
    + destruct (compute_full tb r refl) as [t|] eqn:CF; [|discriminate]. cbn in G2. injection G2 as <-. cbn [fst]. now apply (r_full tb (saved f nc c0) r refl).
Qed.
Lemma put_same f n x : put f n x n = Some x. Proof. unfold put. destruct (fname_eq_dec n n); congruence. Qed.
Lemma put_other f n x m : m <> n -> put f n x m = f m. Proof. unfold put. destruct (fname_eq_dec m n); congruence. Qed.
(* No file under either name: both tables are computed from the request; with one wavelength per subband the full table is the compact one *)
Theorem C75_first_call tb r refl f nc nf : name_of r None refl = Ok nc -> name_of r (Some (tr_Nwp r)) refl = Ok nf -> f nc = None -> f nf = None ->
  forall c, compute_compact tb r refl = Ok c -> forall x, (if Nat.eqb (tr_Nwp r) 1 then Ok c else compute_full tb r refl) = Ok x ->
  exists g, run_alone tb r refl f = Ok (c, x, g) /\ g nc = Some (Whole c) /\ g nf = Some (Whole x) /\ forall n, n <> nc -> n <> nf -> g n = f n.
Proof.
  intros N1 N2 F1 F2 c C1 x C2. destruct (name_inv _ _ _ _ N1) as (A1 & _). destruct (name_inv _ _ _ _ N2) as (B1 & _). assert (D : nc <> nf) by congruence.
  unfold run_alone. rewrite N1, N2. cbn [rbind]. unfold get_table at 1. rewrite F1. cbn [isfile]. rewrite C1. cbn [rbind fst]. unfold saved at 1 2. cbn [snd fst]. rewrite put_other by congruence. rewrite F2. unfold get_table. cbn [isfile].
  replace (if Nat.eqb (tr_Nwp r) 1 then Ok c else compute_full tb r refl) with (Ok x). cbn [rbind fst]. eexists. split; [reflexivity|]. unfold saved. cbn [snd fst]. rewrite put_same. rewrite put_other by congruence. rewrite put_same. split; [reflexivity|split; [reflexivity|]]. intros n H1 H2. rewrite !put_other by congruence. reflexivity.
Qed.
(* Later calls whose names agree get the tables of the first call, whatever else differs between the requests, and change no file *)
Theorem C75_later_calls tb r r' refl f c x g : run_alone tb r refl f = Ok (c, x, g) -> same_compact_file r' r -> same_full_file r' r -> run_alone tb r' refl g = Ok (c, x, g).
Proof.
  intros H SC [SW SF]. unfold run_alone in *. rewrite (SC refl), (SF refl). destruct (name_of r None refl) as [nc|] eqn:N1; [|discriminate]. cbn [rbind] in *. destruct (name_of r (Some (tr_Nwp r)) refl) as [nf|] eqn:N2; [|discriminate]. cbn [rbind] in *.
  destruct (name_inv _ _ _ _ N1) as (A1 & _). destruct (name_inv _ _ _ _ N2) as (B1 & _). assert (D : nc <> nf) by congruence.
  destruct (get_table (f nc) (f nc) (compute_compact tb r refl)) as [c0|] eqn:G1; [|discriminate]. cbn [rbind] in *. set (g1 := saved f nc c0) in *.
  destruct (get_table (g1 nf) (g1 nf) _) as [f0|] eqn:G2; [|discriminate]. cbn [rbind] in *. injection H as <- <- <-.
  assert (P1 : g1 nc = Some (Whole (fst c0))).
  { unfold g1, saved. destruct (snd c0) eqn:S; [now rewrite put_same|]. apply get_table_cases in G1 as G1'. destruct G1' as [G1'|[F0 _]]; [exact G1'|]. unfold get_table in G1. rewrite F0 in G1. cbn [isfile] in G1. destruct (compute_compact tb r refl); [|discriminate]. cbn in G1. injection G1 as <-. discriminate. }
  assert (P2 : saved g1 nf f0 nf = Some (Whole (fst f0))).
  { unfold saved. destruct (snd f0) eqn:S; [now rewrite put_same|]. apply get_table_cases in G2 as G2'. destruct G2' as [G2'|[F0 Y]]; [exact G2'|]. unfold get_table in G2. rewrite F0 in G2. cbn [isfile] in G2. rewrite Y in G2. cbn [rbind] in G2. assert (Z1 : (fst f0, true) = f0) by congruence. rewrite <- Z1 in S. discriminate S. }
  assert (P3 : saved g1 nf f0 nc = Some (Whole (fst c0))). { unfold saved. destruct (snd f0); [rewrite put_other by congruence|]; exact P1. }
  set (G := saved g1 nf f0) in *. clearbody G. unfold get_table at 1. rewrite P3. cbn [isfile np_load rbind fst]. change (saved G nc (fst c0, false)) with G. unfold get_table. rewrite P2. reflexivity.
Qed.
(* A half-written file is never repaired: every call with that name fails, and leaves the file as it is *)
Theorem C75_torn_forever tb r refl f nc : name_of r None refl = Ok nc -> f nc = Some Torn -> (forall f2 f3 f4, f2 nc = Some Torn -> gen_tables tb r refl f f2 f3 f4 = Raise ValueError) /\ run_alone tb r refl f = Raise ValueError.
Proof.
  intros N1 F. destruct (name_inv _ _ _ _ N1) as (_ & _ & N). split.
  - intros f2 f3 f4 F2. unfold gen_tables. rewrite N1, N. cbn [rbind]. unfold get_table. rewrite F, F2. reflexivity.
  - unfold run_alone. rewrite N1, N. cbn [rbind]. unfold get_table. rewrite F. reflexivity.
Qed.
Lemma nround_same x y : nround x = nround y -> Rabs (x - y) <= 1.
Proof. intros H. pose proof (ResampProps.nround_near x) as A. pose proof (ResampProps.nround_near y) as B. rewrite H in A. apply Rabs_le_inv in A, B. apply Rabs_le. lra. Qed.
Lemma pctd_same x y : 0 <= x -> 0 <= y -> pctd x = pctd y -> Rabs (x - y) < 1.
Proof. intros Hx Hy. unfold pctd. destruct (Rle_dec 0 x); [|lra]. destruct (Rle_dec 0 y); [|lra]. intros H. pose proof (base_Int_part x) as A. pose proof (base_Int_part y) as B. rewrite H in A. apply Rabs_def1; lra. Qed.
(* Two requests share a file only if they agree in the materials and in the number of sub-bands, and up to one unit of the last printed
   digit in every number written in the name: titanium and thickness limits (0.1 nm), thickness steps (0.01 nm), wavelength (1 nm),
   bandwidth (0.1 per cent), angle (0.1 degree).  (Thicknesses in nm, wavelengths in m.) *)
Theorem C75_name_tells r r' o b n : name_of r o b = Ok n -> name_of r' o b = Ok n -> 0 <= tr_lam0 r -> 0 <= tr_lam0 r' ->
  tr_sub r = tr_sub r' /\ tr_metal r = tr_metal r' /\ tr_diel r = tr_diel r' /\ tr_Nsbp r = tr_Nsbp r' /\
  Rabs (tr_tTi r - tr_tTi r') <= 1/10 /\ Rabs (tr_dmetal r - tr_dmetal r') <= 1/100 /\ Rabs (tr_ddiel r - tr_ddiel r') <= 1/100 /\
  Rabs (tr_lam0 r - tr_lam0 r') < 1/1000000000 /\ Rabs (tr_bw r - tr_bw r') <= 1/1000 /\ Rabs (tr_aoi r - tr_aoi r') <= 1/10 /\
  (forall lo lo', np_min (tr_metals r) = Ok lo -> np_min (tr_metals r') = Ok lo' -> Rabs (lo - lo') <= 1/10) /\ (forall hi hi', np_max (tr_metals r) = Ok hi -> np_max (tr_metals r') = Ok hi' -> Rabs (hi - hi') <= 1/10) /\
  (forall lo lo', np_min (tr_diels r) = Ok lo -> np_min (tr_diels r') = Ok lo' -> Rabs (lo - lo') <= 1/10) /\ (forall hi hi', np_max (tr_diels r) = Ok hi -> np_max (tr_diels r') = Ok hi' -> Rabs (hi - hi') <= 1/10).
Proof.
  intros H H' L L'. unfold name_of in H, H'.
  destruct (np_min (tr_metals r)) as [m0|]; [|discriminate]. cbn [rbind] in H. destruct (np_max (tr_metals r)) as [m1|]; [|discriminate]. cbn [rbind] in H. destruct (np_min (tr_diels r)) as [d0|]; [|discriminate]. cbn [rbind] in H. destruct (np_max (tr_diels r)) as [d1|]; [|discriminate]. cbn [rbind] in H.
  destruct (np_min (tr_metals r')) as [m0'|]; [|discriminate]. cbn [rbind] in H'. destruct (np_max (tr_metals r')) as [m1'|]; [|discriminate]. cbn [rbind] in H'. destruct (np_min (tr_diels r')) as [d0'|]; [|discriminate]. cbn [rbind] in H'. destruct (np_max (tr_diels r')) as [d1'|]; [|discriminate]. cbn [rbind] in H'.
  rewrite <- H in H'. clear H. injection H' as E1 E2 E3 E4 E5 E6 E7 E8 E9 E10 E11 E12 E13 E14. unfold pct1, pct2 in *.
  assert (D : forall k x y, 0 < k -> Rabs (k * x - k * y) <= 1 -> Rabs (x - y) <= 1 / k).
  { intros k x y Hk A. apply Rabs_le_inv in A. apply Rabs_le. assert (1 / k * k = 1) by (field; lra). split; apply (Rmult_le_reg_r k); auto; nra. }
  repeat match goal with |- _ /\ _ => split end; try (symmetry; assumption).
  - apply D; [lra|]. apply nround_same. auto.
  - apply D; [lra|]. apply nround_same. auto.
  - apply D; [lra|]. apply nround_same. auto.
  - assert (A : Rabs (1000000000 * tr_lam0 r - 1000000000 * tr_lam0 r') < 1) by (apply pctd_same; [lra|lra|auto]). apply Rabs_def2 in A. apply Rabs_def1; lra.
  - assert (A : Rabs (10 * (100 * tr_bw r) - 10 * (100 * tr_bw r')) <= 1) by (apply nround_same; auto). apply Rabs_le_inv in A. apply Rabs_le. lra.
  - apply D; [lra|]. apply nround_same. auto.
  - intros lo lo' A A'. injection A as <-. injection A' as <-. apply D; [lra|]. apply nround_same. auto.
  - intros lo lo' A A'. injection A as <-. injection A' as <-. apply D; [lra|]. apply nround_same. auto.
  - intros lo lo' A A'. injection A as <-. injection A' as <-. apply D; [lra|]. apply nround_same. auto.
  - intros lo lo' A A'. injection A as <-. injection A' as <-. apply D; [lra|]. apply nround_same. auto.
Qed.

(* What the name does not see: the reference height, the wavelength below one nanometre, the thicknesses between the ends *)
Definition with_d0fac r x := mktr (tr_sub r) (tr_tTi r) (tr_metal r) (tr_metals r) (tr_dmetal r) (tr_diel r) (tr_diels r) (tr_ddiel r) (tr_lam0 r) (tr_bw r) (tr_Nsbp r) (tr_Nwp r) (tr_aoi r) x (tr_centers r) (tr_lambdas r).
Definition with_lam0 r x cs ls := mktr (tr_sub r) (tr_tTi r) (tr_metal r) (tr_metals r) (tr_dmetal r) (tr_diel r) (tr_diels r) (tr_ddiel r) x (tr_bw r) (tr_Nsbp r) (tr_Nwp r) (tr_aoi r) (tr_d0fac r) cs ls.
Definition with_metals r ms := mktr (tr_sub r) (tr_tTi r) (tr_metal r) ms (tr_dmetal r) (tr_diel r) (tr_diels r) (tr_ddiel r) (tr_lam0 r) (tr_bw r) (tr_Nsbp r) (tr_Nwp r) (tr_aoi r) (tr_d0fac r) (tr_centers r) (tr_lambdas r).
Lemma trunc_in n x : IZR n <= x < IZR n + 1 -> (0 <= n)%Z -> pctd x = n.
Proof. intros H N. apply IZR_le in N. unfold pctd. destruct (Rle_dec 0 x) as [Q|Q]; [|lra]. destruct (base_Int_part x) as [A B]. assert (A1 : (n < Int_part x + 1)%Z) by (apply lt_IZR; rewrite plus_IZR; lra). assert (B1 : (Int_part x < n + 1)%Z) by (apply lt_IZR; rewrite plus_IZR; lra). lia. Qed.
Theorem C75_name_blind r : (forall x, same_compact_file (with_d0fac r x) r /\ same_full_file (with_d0fac r x) r) /\
  (forall n x cs ls, (0 <= n)%Z -> IZR n <= 1000000000 * tr_lam0 r < IZR n + 1 -> IZR n <= 1000000000 * x < IZR n + 1 -> same_compact_file (with_lam0 r x cs ls) r /\ same_full_file (with_lam0 r x cs ls) r) /\
  (forall ms, np_min ms = np_min (tr_metals r) -> np_max ms = np_max (tr_metals r) -> same_compact_file (with_metals r ms) r /\ same_full_file (with_metals r ms) r).
Proof.
  split; [|split].
  - intros x. split; [intros b; reflexivity|split; [reflexivity|intros b; reflexivity]].
  - intros n x cs ls N H1 H2. split; [intros b|split; [reflexivity|intros b]]; unfold name_of; cbn [tr_sub tr_tTi tr_metal tr_metals tr_dmetal tr_diel tr_diels tr_ddiel tr_lam0 tr_bw tr_Nsbp tr_Nwp tr_aoi with_lam0]; rewrite (trunc_in n _ H1 N), (trunc_in n _ H2 N); reflexivity.
  - intros ms H1 H2. split; [intros b|split; [reflexivity|intros b]]; unfold name_of; cbn [tr_sub tr_tTi tr_metal tr_metals tr_dmetal tr_diel tr_diels tr_ddiel tr_lam0 tr_bw tr_Nsbp tr_Nwp tr_aoi with_metals]; rewrite H1, H2; reflexivity.
Qed.
Lemma one_slice_ok tb r refl lam s : one_slice tb r refl lam = Ok s -> length s = length (tr_diels r) /\ forall row, In row s -> length row = length (tr_metals r).
Proof.
  unfold one_slice. destruct (calc_trans _ _ _ _) as [m|] eqn:E; [|discriminate]. cbn [rbind]. intros H. injection H as <-. unfold calc_trans in E. destruct (Rle_dec _ 0); [discriminate|]. destruct (Rlt_dec _ 0); [discriminate|]. destruct (Rlt_dec _ 0); [discriminate|].
  destruct (substrate_index _ _); [|discriminate]. cbn [rbind] in E. destruct (dielectric_index _ _ _ _); [|discriminate]. cbn [rbind] in E. destruct (metal_index _ _ _); [|discriminate]. cbn [rbind] in E.
  split; [rewrite map_length, (mapr_len _ _ _ E), map_length; reflexivity|]. intros row HR. apply in_map_iff in HR. destruct HR as (row0 & <- & HR). destruct (mapr_in _ _ _ _ E HR) as (x & _ & Ex). rewrite map_length, (mapr_len _ _ _ Ex), map_length. reflexivity.
Qed.
(* the compact table: slice si belongs to the centre of subband si *)
Theorem C75_compact_slices tb r refl t : compute_compact tb r refl = Ok t -> length t = tr_Nsbp r /\ forall si, (si < tr_Nsbp r)%nat -> (si < length (tr_centers r))%nat /\ one_slice tb r refl (nth si (tr_centers r) 0) = Ok (nth si t nil).
Proof.
  unfold compute_compact. intros H. split; [rewrite (mapr_len _ _ _ H), seq_length; reflexivity|]. intros si Hs. pose proof (mapr_nth _ _ _ 0%nat nil si H) as E. rewrite seq_length in E. specialize (E Hs). rewrite seq_nth in E by exact Hs. cbn [plus] in E.
  destruct (nth_error (tr_centers r) si) as [lam|] eqn:L; [|discriminate]. split; [apply nth_error_Some; congruence|]. rewrite (nth_error_nth _ _ 0 L). exact E.
Qed.
(* the full table: as many slices as subbands times wavelengths, but filled only for the distinct wavelengths; the slices behind them are zero, an opaque mask *)
Theorem C75_full_slices tb r refl t : compute_full tb r refl = Ok t -> (length (tr_lambdas r) <= tr_Nsbp r * tr_Nwp r)%nat /\ (length t = tr_Nsbp r * tr_Nwp r)%nat /\ (forall li, (li < length (tr_lambdas r))%nat -> one_slice tb r refl (nth li (tr_lambdas r) 0) = Ok (nth li t nil)) /\ (forall li, (length (tr_lambdas r) <= li < tr_Nsbp r * tr_Nwp r)%nat -> nth li t nil = zero_slice r).
Proof.
  unfold compute_full. match goal with |- rbind ?m _ = _ -> _ => destruct m as [s|] eqn:E; [|discriminate] end. cbn [rbind]. intros H. injection H as <-. pose proof (mapr_len _ _ _ E) as L. rewrite seq_length in L.
  assert (A : forall li, (li < length (tr_lambdas r))%nat -> (li < tr_Nsbp r * tr_Nwp r)%nat /\ one_slice tb r refl (nth li (tr_lambdas r) 0) = Ok (nth li s nil)).
  { intros li Hl. pose proof (mapr_nth _ _ _ 0%nat nil li E) as X. rewrite seq_length in X. specialize (X Hl). rewrite seq_nth in X by exact Hl. cbn [plus] in X. destruct (Nat.ltb_spec li (tr_Nsbp r * tr_Nwp r)) as [Q|Q]; [split; assumption|]. destruct (one_slice tb r refl (nth li (tr_lambdas r) 0)); discriminate. }
  assert (B : (length (tr_lambdas r) <= tr_Nsbp r * tr_Nwp r)%nat). { destruct (length (tr_lambdas r)) as [|k] eqn:Q; [lia|]. destruct (A k); lia. }
  split; [exact B|]. split; [rewrite app_length, repeat_length; lia|]. split.
  - intros li Hl. rewrite app_nth1 by lia. now apply A.
  - intros li Hl. rewrite app_nth2 by lia. rewrite (nth_indep _ nil (zero_slice r)) by (rewrite repeat_length; lia). apply nth_repeat.
Qed.
(* A table found in a file although the reference height has been changed by a factor of delta wavelengths: it is the right one but for one phase, the same for all thicknesses and all wavelengths (twice that in reflection) *)
Theorem C75_stale_reference tb r refl x lam s : absorber (ni_rows tb) -> absorber (mgf2_rows tb) -> optical lam -> 0 <= tr_aoi r < 90 -> (forall t, In t (tr_metals r) -> 0 <= t) -> (forall t, In t (tr_diels r) -> 0 <= t) ->
  one_slice tb r refl lam = Ok s -> let phase := 2 * PI * (x - tr_d0fac r) * Rabs (cos (tr_aoi r * (PI / 180))) in
  exists s', one_slice tb (with_d0fac r x) refl lam = Ok s' /\ forall j i, (j < length (tr_diels r))%nat -> (i < length (tr_metals r))%nat ->
    nth i (nth j s' nil) (RtoC 0) = Cmult (cis (if refl then 2 * phase else phase)) (nth i (nth j s nil) (RtoC 0)).
Proof.
  intros A1 A2 O H90 P1 P2 H phase. unfold one_slice in *. cbn [with_d0fac tr_sub tr_tTi tr_metal tr_metals tr_dmetal tr_diel tr_diels tr_ddiel tr_lam0 tr_bw tr_Nsbp tr_Nwp tr_aoi tr_d0fac].
  set (ms := map (fun t => 1 / 1000000000 * t) (tr_metals r)) in *. set (ds := map (fun t => 1 / 1000000000 * t) (tr_diels r)) in *.
  destruct (calc_trans _ _ ms ds) as [m|] eqn:E; [|discriminate]. cbn [rbind] in H. injection H as <-.
  assert (Pm : forall y, In y ms -> 0 <= y) by (intros y Hy; apply in_map_iff in Hy; destruct Hy as (t & <- & Ht); specialize (P1 t Ht); lra).
  assert (Pd : forall y, In y ds -> 0 <= y) by (intros y Hy; apply in_map_iff in Hy; destruct Hy as (t & <- & Ht); specialize (P2 t Ht); lra).
  assert (L : 0 < lam) by (destruct O; lra).
  set (a := mkti _ _ _ lam (tr_aoi r) _ _ _ _) in E.
  assert (LM : forall j i (Hj : (j < length ds)%nat) (Hi : (i < length ms)%nat), exists t rr, nth i (nth j m nil) (RtoC 0, RtoC 0) = (t, rr)) by (intros; destruct (nth i (nth j m nil) (RtoC 0, RtoC 0)); eauto).
  pose proof (fun j i t rr => C74_reference_plane tb a ms ds m (lam * (x - tr_d0fac r)) j i t rr A1 A2 O H90 Pm Pd E) as RP. cbv zeta in RP. cbn [ti_sub ti_metal ti_diel ti_lam ti_aoi ti_tTi ti_d0 ti_pol ti_opd a] in RP. replace (lam * tr_d0fac r + lam * (x - tr_d0fac r)) with (lam * x) in RP by ring.
  destruct (RP 0%nat 0%nat (RtoC 0) (RtoC 0)) as (m' & Em & _). rewrite Em. cbn [rbind]. eexists. split; [reflexivity|]. intros j i Hj Hi.
  assert (Hj' : (j < length ds)%nat) by (unfold ds; rewrite map_length; exact Hj). assert (Hi' : (i < length ms)%nat) by (unfold ms; rewrite map_length; exact Hi).
  destruct (LM j i Hj' Hi') as (t & rr & Q). destruct (RP j i t rr) as (m2 & Em2 & F). rewrite Em in Em2. injection Em2 as <-. specialize (F Hj' Hi' Q).
  assert (G : forall (mm : list (list (C * C))) v, nth i (nth j mm nil) (RtoC 0, RtoC 0) = v -> nth i (nth j (map (map (if refl then snd else fst)) mm) nil) (RtoC 0) = (if refl then snd else fst) v).
  { intros mm v Hv. change (@nil C) with (map (if refl then @snd C C else @fst C C) nil). rewrite map_nth. replace (RtoC 0) with ((if refl then @snd C C else @fst C C) (RtoC 0, RtoC 0)) by now destruct refl. rewrite map_nth. now rewrite Hv. }
  rewrite (G m' _ F), (G m _ Q). unfold phase, normal_k. destruct refl; cbn [fst snd]; f_equal; f_equal; field; lra.
Qed.
(* concrete requests: 575.0 nm and 575.9 nm, different reference heights and different centre wavelengths share their files, so the second is served the first one's table *)
Definition req575 (l d : R) : tabreq := mktr "FS" 3 "Ni" [95; 100; 105] 5 "PMGI" [0; 1; 2] 1 (l / 1000000000) (1/10) 1 1 0 d [l / 1000000000] [l / 1000000000].
Example C75_example tb : same_compact_file (req575 (5759/10) 5) (req575 575 4) /\ same_full_file (req575 (5759/10) 5) (req575 575 4) /\ tr_centers (req575 (5759/10) 5) <> tr_centers (req575 575 4) /\ exists c, compute_compact tb (req575 575 4) false = Ok c.
Proof.
  assert (S : forall o b, name_of (req575 (5759/10) 5) o b = name_of (req575 575 4) o b).
  { intros o b. unfold name_of. cbn [req575 tr_sub tr_tTi tr_metal tr_metals tr_dmetal tr_diel tr_diels tr_ddiel tr_lam0 tr_bw tr_Nsbp tr_Nwp tr_aoi tr_d0fac tr_centers tr_lambdas]. rewrite (trunc_in 575 (1000000000 * (5759 / 10 / 1000000000))) by (lra || lia). rewrite (trunc_in 575 (1000000000 * (575 / 1000000000))) by (lra || lia). reflexivity. }
  split; [intros b; apply S|]. split; [split; [reflexivity|intros b; apply S]|]. split; [cbn; intros H; injection H as H; lra|].
  unfold compute_compact. cbn [tr_Nsbp req575 seq tr_centers]. apply mapr_all. intros si [<-|[]]. cbn [nth_error]. unfold one_slice.
  destruct (C74_table_shape tb (mkti "FS" "Ni" "PMGI" (575 / 1000000000) 0 (1 / 1000000000 * 3) (575 / 1000000000 * 4) 2 false) (map (fun t => 1 / 1000000000 * t) [95; 100; 105]) (map (fun t => 1 / 1000000000 * t) [0; 1; 2])) as (m & E & _).
  - unfold in_range. cbn. lra.
  - unfold known, substrate_known, dielectric_known, metal_known. vm_compute. tauto.
  - cbn. tauto.
  - cbn [req575 tr_sub tr_tTi tr_metal tr_metals tr_dmetal tr_diel tr_diels tr_ddiel tr_lam0 tr_bw tr_Nsbp tr_Nwp tr_aoi tr_d0fac]. rewrite E. cbn [rbind]. eauto.
Qed.
