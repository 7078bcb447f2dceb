(* Proofs for C83: the list of equations *)
From Coq Require Import Factorial.
From Coquelicot Require Import Coquelicot.
From Verif Require Import Base RBase StrBase CBase ZrnModel ZrnSpec ZrnProofs.
Open Scope R_scope.
(* ---- numbering ---- *)
Lemma even_mod n : (n mod 2 = if Nat.even n then 0 else 1)%nat.
Proof. rewrite Nat.bit0_mod || idtac. rewrite <- Nat.bit0_mod, Nat.bit0_odd, <- Nat.negb_even. now destruct (Nat.even n). Qed.
(* the value of m for the mode k of row n *)
Definition mth (n k : nat) : nat := if Nat.even n then (2 * ((k + 1) / 2))%nat else (2 * (k / 2) + 1)%nat.
Lemma zmodes_eq n : zmodes n = map (mth n) (seq 0 (n + 1)).
Proof.
  unfold zmodes. rewrite even_mod. pose proof (Nat.div_mod n 2 ltac:(lia)) as D. rewrite even_mod in D. destruct (Nat.even n) eqn:E.
  - assert (H : forall h, flat_map (fun h => let m := (0 + 2 * h)%nat in if Nat.eqb m 0 then [m] else [m; m]) (seq 0 (h + 1)) = map (fun k => (2 * ((k + 1) / 2))%nat) (seq 0 (2 * h + 1))).
    { induction h as [|h IH]; [reflexivity|]. replace (S h + 1)%nat with (h + 1 + 1)%nat by lia. rewrite (seq_app (h + 1) 1), flat_map_app, IH. replace (2 * S h + 1)%nat with ((2 * h + 1) + 2)%nat by lia. rewrite (seq_app (2 * h + 1) 2), map_app. f_equal. cbn [seq flat_map map app]. cbv zeta. rewrite !Nat.add_0_l. destruct (Nat.eqb_spec (2 * (h + 1)) 0); [lia|]. cbn [app].
      assert (A : ((2 * h + 1 + 1) / 2 = h + 1)%nat) by (symmetry; apply Nat.div_unique with 0%nat; lia). assert (B : ((S (2 * h + 1) + 1) / 2 = h + 1)%nat) by (symmetry; apply Nat.div_unique with 1%nat; lia).
      rewrite A, B. reflexivity. }
    rewrite H. replace (2 * (n / 2) + 1)%nat with (n + 1)%nat by lia. apply map_ext. intros k. unfold mth. now rewrite E.
  - assert (H : forall h, flat_map (fun h => let m := (1 + 2 * h)%nat in if Nat.eqb m 0 then [m] else [m; m]) (seq 0 (h + 1)) = map (fun k => (2 * (k / 2) + 1)%nat) (seq 0 (2 * h + 2))).
    { induction h as [|h IH]; [reflexivity|]. replace (S h + 1)%nat with (h + 1 + 1)%nat by lia. rewrite (seq_app (h + 1) 1), flat_map_app, IH. replace (2 * S h + 2)%nat with ((2 * h + 2) + 2)%nat by lia. rewrite (seq_app (2 * h + 2) 2), map_app. f_equal. cbn [seq flat_map map app]. cbv zeta. rewrite !Nat.add_0_l. destruct (Nat.eqb_spec (1 + 2 * (h + 1)) 0); [lia|]. cbn [app].
      assert (A : ((2 * h + 2) / 2 = h + 1)%nat) by (symmetry; apply Nat.div_unique with 0%nat; lia). assert (B : (S (2 * h + 2) / 2 = h + 1)%nat) by (symmetry; apply Nat.div_unique with 1%nat; lia).
      rewrite A, B. rewrite (Nat.add_comm 1). reflexivity. }
    rewrite H. replace (2 * (n / 2) + 2)%nat with (n + 1)%nat by lia. apply map_ext. intros k. unfold mth. now rewrite E.
Qed.
Lemma mth_le n k : (k <= n)%nat -> (mth n k <= n)%nat.
Proof.
  intros L. unfold mth. pose proof (Nat.div_mod n 2 ltac:(lia)) as D. rewrite even_mod in D. destruct (Nat.even n).
  - assert ((k + 1) / 2 <= n / 2)%nat; [|lia]. apply Nat.lt_succ_r. apply Nat.div_lt_upper_bound; lia.
  - assert (k / 2 <= n / 2)%nat by (apply Nat.div_le_mono; lia). lia.
Qed.
Lemma mth_par n k : exists h, (n = mth n k + 2 * h \/ mth n k = n + 2 * h)%nat.
Proof.
  unfold mth. pose proof (Nat.div_mod n 2 ltac:(lia)) as D. rewrite even_mod in D. destruct (Nat.even n).
  - destruct (Nat.le_gt_cases ((k + 1) / 2) (n / 2)); [exists (n / 2 - (k + 1) / 2)%nat|exists ((k + 1) / 2 - n / 2)%nat]; lia.
  - destruct (Nat.le_gt_cases (k / 2) (n / 2)); [exists (n / 2 - k / 2)%nat|exists (k / 2 - n / 2)%nat]; lia.
Qed.
Lemma mth_half n k : (k <= n)%nat -> (n = mth n k + 2 * ((n - mth n k) / 2))%nat.
Proof.
  intros L. pose proof (mth_le n k L). destruct (mth_par n k) as (h & P). set (m := mth n k) in *. clearbody m. assert (E : (n - m = (h * 2) \/ n - m = 0 * 2)%nat) by lia.
  destruct E as [E|E]; rewrite E, Nat.div_mul by lia; lia.
Qed.
(* the rows *)
Lemma zrow_nth n maxz : forall ms iz, (1 <= n)%nat -> (iz <= maxz)%nat ->
  length (zrow iz n maxz ms) = Nat.min (length ms) (maxz + 1 - iz) /\
  forall q, (q < Nat.min (length ms) (maxz + 1 - iz))%nat -> nth_error (zrow iz n maxz ms) q = option_map (fun m => zentry (iz + q) n m) (nth_error ms q).
Proof.
  induction ms as [|m ms IH]; intros iz Hn Hi; [cbn; split; [lia|intros q Hq; lia]|].
  cbn [zrow length]. destruct (Nat.eqb_spec n 0); [lia|]. cbn [negb andb]. destruct (Nat.ltb_spec maxz (S iz)) as [L|L].
  - split; [cbn [length]; lia|]. intros q Hq. assert (q = 0)%nat by lia. subst q. cbn [nth_error option_map]. now rewrite Nat.add_0_r.
  - destruct (IH (S iz) Hn L) as [H1 H2]. split; [cbn [length]; rewrite H1; lia|]. intros [|q] Hq; cbn [nth_error]; [cbn [option_map]; now rewrite Nat.add_0_r|]. rewrite H2 by lia. now replace (S iz + q)%nat with (iz + S q)%nat by lia.
Qed.
Lemma zrow0_nth maxz iz : zrow iz 0 maxz (zmodes 0) = [ZOne].
Proof. reflexivity. Qed.
Lemma row_len n : length (zmodes n) = (n + 1)%nat.
Proof. now rewrite zmodes_eq, map_length, seq_length. Qed.
Lemma row_nth n k : (k <= n)%nat -> nth_error (zmodes n) k = Some (mth n k).
Proof. intros L. rewrite zmodes_eq. rewrite nth_error_map. rewrite (nth_error_nth' _ 0%nat) by (rewrite seq_length; lia). cbn [option_map]. now rewrite seq_nth by lia. Qed.
Lemma zrow_any n maxz iz : (iz <= maxz)%nat -> (n = 0%nat -> iz = 1%nat) ->
  length (zrow iz n maxz (zmodes n)) = Nat.min (n + 1) (maxz + 1 - iz) /\
  forall q, (q < Nat.min (n + 1) (maxz + 1 - iz))%nat -> nth_error (zrow iz n maxz (zmodes n)) q = Some (zentry (iz + q) n (mth n q)).
Proof.
  intros Hi H0. destruct n as [|n].
  - rewrite zrow0_nth. split; [cbn [length]; lia|]. intros q Hq. assert (q = 0)%nat by lia. subst q. reflexivity.
  - destruct (zrow_nth (S n) maxz (zmodes (S n)) iz ltac:(lia) Hi) as [H1 H2]. rewrite row_len in *. split; auto. intros q Hq. rewrite H2 by auto. rewrite row_nth by lia. reflexivity.
Qed.
Lemma zloop_nth maxz : forall fuel iz n, (2 * iz = n * (n + 1) + 2)%nat -> (maxz + 1 <= iz + fuel)%nat ->
  length (zloop fuel iz n maxz) = (maxz + 1 - iz)%nat /\
  forall q, (iz + q <= maxz)%nat -> exists n' k, (k <= n')%nat /\ (2 * (iz + q) = n' * (n' + 1) + 2 * (k + 1))%nat /\ nth_error (zloop fuel iz n maxz) q = Some (zentry (iz + q) n' (mth n' k)).
Proof.
  induction fuel as [|fuel IH]; intros iz n E F; cbn [zloop]; [split; [cbn; lia|intros; lia]|].
  destruct (Nat.leb_spec iz maxz) as [L|L]; [|split; [cbn; lia|intros; lia]]. cbv zeta.
  destruct (zrow_any n maxz iz L ltac:(intros ->; lia)) as [R1 R2]. set (row := zrow iz n maxz (zmodes n)) in *.
  destruct (Nat.le_gt_cases (maxz + 1 - iz) (n + 1)) as [C|C].
  - assert (LR : length row = (maxz + 1 - iz)%nat) by lia. assert (ZL : zloop fuel (iz + length row) (S n) maxz = []). { destruct fuel; [reflexivity|]. cbn [zloop]. destruct (Nat.leb_spec (iz + length row) maxz); [lia|reflexivity]. }
    rewrite ZL, app_nil_r. split; auto. intros q Hq. exists n, q. split; [lia|]. split; [lia|]. apply R2. lia.
  - assert (LR : length row = (n + 1)%nat) by lia. rewrite LR. destruct (IH (iz + (n + 1))%nat (S n) ltac:(lia) ltac:(lia)) as [H1 H2]. split; [rewrite app_length, H1, LR; lia|]. intros q Hq. destruct (Nat.lt_ge_cases q (n + 1)) as [Q|Q].
    + exists n, q. split; [lia|]. split; [lia|]. rewrite nth_error_app1 by lia. apply R2. lia.
    + destruct (H2 (q - (n + 1))%nat ltac:(lia)) as (n' & k & A & B & D). replace (iz + (n + 1) + (q - (n + 1)))%nat with (iz + q)%nat in * by lia. exists n', k. split; auto. split; auto. rewrite nth_error_app2 by lia. now rewrite LR.
Qed.
Lemma noll_entry maxz j : (1 <= j <= maxz)%nat -> exists n k, (k <= n)%nat /\ (2 * j = n * (n + 1) + 2 * (k + 1))%nat /\ nth_error (prop_noll_zernikes maxz) (j - 1) = Some (zentry j n (mth n k)).
Proof.
  intros H. destruct (zloop_nth maxz (S maxz) 1 0 ltac:(lia) ltac:(lia)) as [_ E]. destruct (E (j - 1)%nat ltac:(lia)) as (n & k & A & B & D). replace (1 + (j - 1))%nat with j in * by lia. exists n, k. auto.
Qed.
Lemma noll_length maxz : length (prop_noll_zernikes maxz) = maxz.
Proof. unfold prop_noll_zernikes. rewrite (proj1 (zloop_nth maxz (S maxz) 1 0 ltac:(lia) ltac:(lia))). lia. Qed.
(* ---- values ---- *)
Lemma zfact_fact n : zfact n = Z.of_nat (fact n).
Proof. induction n as [|n IH]; [reflexivity|]. cbn [zfact]. rewrite IH, fact_simpl, Nat2Z.inj_mul. reflexivity. Qed.
Lemma zterm_val n m s : (m <= n)%nat -> (n = m + 2 * ((n - m) / 2))%nat -> (s <= (n - m) / 2)%nat ->
  IZR (fst (zterm n m s)) = (-1) ^ s * INR (fact (n - s)) / (INR (fact s) * INR (fact ((n + m) / 2 - s)) * INR (fact ((n - m) / 2 - s))).
Proof.
  intros L H Hs. set (k := ((n - m) / 2)%nat) in *. assert (K : ((n + m) / 2 = m + k)%nat) by (symmetry; apply Nat.div_unique with 0%nat; lia).
  unfold zterm. cbn [fst]. rewrite K. fold k.
  set (q := (bin (s + (n - 2 * s)) s * bin ((m + k - s) + (k - s)) (m + k - s))%nat).
  assert (Q : (q * (fact s * fact (m + k - s) * fact (k - s)) = fact (n - s))%nat).
  { pose proof (bin_fact (n - 2 * s) s) as B1. pose proof (bin_fact (k - s) (m + k - s)) as B2. replace (m + k - s + (k - s))%nat with (n - 2 * s)%nat in * by lia. replace (s + (n - 2 * s))%nat with (n - s)%nat in * by lia. unfold q. replace (m + k - s + (k - s))%nat with (n - 2 * s)%nat by lia. replace (s + (n - 2 * s))%nat with (n - s)%nat by lia. rewrite <- B1, <- B2. ring. }
  rewrite !zfact_fact. replace (Z.quot ((-1) ^ Z.of_nat s * Z.of_nat (fact (n - s))) (Z.of_nat (fact s) * Z.of_nat (fact (m + k - s)) * Z.of_nat (fact (k - s)))) with ((-1) ^ Z.of_nat s * Z.of_nat q)%Z.
  - rewrite mult_IZR, <- INR_IZR_INZ. replace (IZR ((-1) ^ Z.of_nat s)) with ((-1) ^ s) by (rewrite pow_IZR; reflexivity). rewrite <- Q, !mult_INR. pose proof (fpos s). pose proof (fpos (m + k - s)). pose proof (fpos (k - s)). field. lra.
  - rewrite <- Q, !Nat2Z.inj_mul, Z.mul_assoc, Z.quot_mul; auto. pose proof (lt_O_fact s). pose proof (lt_O_fact (m + k - s)). pose proof (lt_O_fact (k - s)). nia.
Qed.
Lemma rsuml_map_map {A} (f : A -> R) g l : rsuml (map f (map g l)) = rsuml (map (fun (x : nat) => f (g x)) l).
Proof. now rewrite map_map. Qed.
Lemma zentry_val j n m r t : (1 <= n)%nat -> (m <= n)%nat -> (n = m + 2 * ((n - m) / 2))%nat -> zval (zentry j n m) r t = zernike n m (Nat.even j) r t.
Proof.
  intros Hn L H. unfold zentry. destruct (Nat.eqb_spec n 0); [lia|]. cbn [zval]. rewrite map_map.
  assert (T : rsuml (map (fun s => IZR (fst (zterm n m s)) * r ^ snd (zterm n m s)) (seq 0 ((n - m) / 2 + 1))) = radial n m r).
  { rewrite rsuml_map_seq. unfold radial. apply rsum_ext. intros s Hs. rewrite zterm_val by (auto; lia). reflexivity. }
  rewrite T. unfold zernike. destruct (Nat.eqb_spec m 0) as [->|N]; [ring|]. rewrite mult_INR. replace (INR 2) with 2 by reflexivity. destruct (Nat.even j); ring.
Qed.
Lemma zone_val c r t : zernike 0 0 c r t = 1.
Proof. unfold zernike, radial. cbn [Nat.eqb Nat.sub Nat.add Nat.div Nat.divmod fst rsum fact Nat.mul INR pow]. rewrite sqrt_1. field. Qed.
Lemma zentry_all j n k r t : (k <= n)%nat -> zval (zentry j n (mth n k)) r t = zernike n (mth n k) (Nat.even j) r t.
Proof.
  intros L. destruct n as [|n].
  - assert (k = 0)%nat by lia. subst k. change (mth 0 0) with 0%nat. rewrite zone_val. reflexivity.
  - apply zentry_val; [lia|now apply mth_le|now apply mth_half].
Qed.
(* ---- the modes of two numbers ---- *)
Lemma noll_inj n k n' k' : (k <= n)%nat -> (k' <= n')%nat -> (n * (n + 1) + 2 * (k + 1) = n' * (n' + 1) + 2 * (k' + 1))%nat -> n = n' /\ k = k'.
Proof.
  intros A B E. destruct (Nat.lt_total n n') as [L|[L|L]].
  - assert ((n + 1) * (n + 2) <= n' * (n' + 1))%nat by (apply Nat.mul_le_mono; lia). nia.
  - subst. lia.
  - assert ((n' + 1) * (n' + 2) <= n * (n + 1))%nat by (apply Nat.mul_le_mono; lia). nia.
Qed.
(* same degree, order and parity: same number *)
Lemma mth_same n k k' : (k <= n)%nat -> (k' <= n)%nat -> mth n k = mth n k' -> Nat.even k = Nat.even k' \/ mth n k = 0%nat -> k = k'.
Proof.
  intros A B E P. unfold mth in *. rewrite !Nat.even_spec in * || idtac. pose proof (even_mod k) as M1. pose proof (even_mod k') as M2. pose proof (Nat.div_mod k 2 ltac:(lia)) as D1. pose proof (Nat.div_mod k' 2 ltac:(lia)) as D2.
  pose proof (Nat.div_mod (k + 1) 2 ltac:(lia)) as D3. pose proof (Nat.div_mod (k' + 1) 2 ltac:(lia)) as D4. pose proof (Nat.mod_upper_bound (k + 1) 2 ltac:(lia)). pose proof (Nat.mod_upper_bound (k' + 1) 2 ltac:(lia)). destruct (Nat.even n).
  - destruct P as [P|P]; [|lia]. rewrite P in M1. destruct (Nat.even k'); lia.
  - destruct P as [P|P]; [|lia]. rewrite P in M1. destruct (Nat.even k'); lia.
Qed.
