(* C87: prop_run and prop_run_multi *)
From Coq Require Import Permutation.
From Verif Require Import Base RBase StrBase CBase PropModel RunModel.
Open Scope R_scope.
(* ---- grid sizes ---- *)
Lemma land_even h : (Z.land (2 * h) (2 * h - 1) = 2 * Z.land h (h - 1))%Z.
Proof.
  replace (2 * h - 1)%Z with (2 * (h - 1) + 1)%Z by ring. apply Z.bits_inj'. intros k K. rewrite Z.land_spec. destruct (Z.eq_dec k 0) as [->|N].
  - rewrite !Z.testbit_even_0. reflexivity.
  - replace k with (Z.succ (k - 1)) by lia. rewrite !Z.testbit_even_succ, Z.testbit_odd_succ by lia. now rewrite Z.land_spec.
Qed.
Lemma land_odd h : (Z.land (2 * h + 1) (2 * h + 1 - 1) = 2 * h)%Z.
Proof.
  replace (2 * h + 1 - 1)%Z with (2 * h)%Z by ring. apply Z.bits_inj'. intros k K. rewrite Z.land_spec. destruct (Z.eq_dec k 0) as [->|N].
  - rewrite Z.testbit_even_0. apply andb_false_r.
  - replace k with (Z.succ (k - 1)) by lia. rewrite Z.testbit_even_succ, Z.testbit_odd_succ by lia. now destruct (Z.testbit h (k - 1)).
Qed.
Lemma land_pos : forall m n, (0 < n)%Z -> (Z.to_nat n <= m)%nat -> (Z.land n (n - 1) = 0 <-> exists k, (0 <= k)%Z /\ n = 2 ^ k)%Z.
Proof.
  induction m as [|m IH]; intros n P L; [lia|]. destruct (Z.Even_or_Odd n) as [(h & ->)|(h & ->)].
  - rewrite land_even. assert (Hh : (0 < h)%Z) by lia. specialize (IH h Hh ltac:(lia)). split.
    + intros E. destruct (proj1 IH) as (k & K & ->); [lia|]. exists (k + 1)%Z. split; [lia|]. rewrite Z.pow_add_r by lia. lia.
    + intros (k & K & E). destruct (Z.eq_dec k 0) as [->|N]; [rewrite Z.pow_0_r in E; lia|]. replace k with (1 + (k - 1))%Z in E by ring. rewrite Z.pow_add_r in E by lia. change (2 ^ 1)%Z with 2%Z in E. assert (X : h = (2 ^ (k - 1))%Z) by lia. assert (Z.land h (h - 1) = 0)%Z by (apply IH; exists (k - 1)%Z; split; [lia|auto]). lia.
  - rewrite land_odd. split; [intros E; exists 0%Z; split; [lia|]; replace h with 0%Z by lia; reflexivity|]. intros (k & K & E). destruct (Z.eq_dec k 0) as [->|N]; [rewrite Z.pow_0_r in E; lia|]. replace k with (1 + (k - 1))%Z in E by ring. rewrite Z.pow_add_r in E by lia. exfalso. change (2 ^ 1)%Z with 2%Z in E. lia.
Qed.
Theorem C87_grid_sizes f s n p h : (Z.land n (n - 1) = 0 <-> n = 0 \/ exists k, 0 <= k /\ n = 2 ^ k)%Z /\
  (~ (n = 0 \/ exists k, 0 <= k /\ n = 2 ^ k)%Z -> prop_run f s n p h = Raise OtherError /\ forall l q c o, prop_run_multi f l n q c o = Raise OtherError).
Proof.
  assert (E : (Z.land n (n - 1) = 0 <-> n = 0 \/ exists k, 0 <= k /\ n = 2 ^ k)%Z).
  { destruct (Z_lt_le_dec 0 n) as [P|P].
    - rewrite (land_pos (Z.to_nat n) n P (le_n _)). split; [auto|]. intros [->|X]; [lia|auto].
    - destruct (Z.eq_dec n 0) as [->|N]; [split; auto|]. split.
      + intros X. exfalso. assert (Q : (Z.land n (n - 1) < 0)%Z) by (apply Z.land_neg; lia). lia.
      + intros [X|(k & K & X)]; [contradiction|]. exfalso. assert (0 < 2 ^ k)%Z by (apply Z.pow_pos_nonneg; lia). lia. }
  split; auto. intros X. assert (B : bad_grid n = true) by (unfold bad_grid; destruct (Z.eqb_spec (Z.land n (n - 1)) 0) as [Y|Y]; auto; apply E in Y; contradiction).
  split; [unfold prop_run; now rewrite B|]. intros. unfold prop_run_multi. now rewrite B.
Qed.
(* ---- sums over wavelengths ---- *)
(* a prescription that returns a new array each time *)
Definition fresh (f : prescription) (image : R -> Z -> option pv -> field C) (samp : R -> Z -> option pv -> R) : Prop :=
  forall lam n p h, f lam n p h = Ok ((h ++ [image lam n p])%list, length h, samp lam n p).
Lemma hget_app h a : hget (h ++ [a]) (length h) = a. Proof. unfold hget. rewrite app_nth2 by lia. now rewrite Nat.sub_diag. Qed.
Lemma hget_old h a r : (r < length h)%nat -> hget (h ++ [a]) r = hget h r. Proof. intros L. unfold hget. now rewrite app_nth1. Qed.
Lemma hset_len h : forall r a, length (hset h r a) = length h. Proof. induction h; intros [|r] b; cbn; auto. Qed.
Lemma hget_set h : forall r q a, (r < length h)%nat -> hget (hset h r a) q = if Nat.eqb q r then a else hget h q.
Proof. unfold hget. induction h as [|x h IH]; intros [|r] [|q] a L; cbn in *; auto; try lia. apply IH. lia. Qed.
(* sum of throughput times image *)
Fixpoint total (image : R -> field C) (rows : list (R * R)) (i j : nat) : C :=
  match rows with [] => RtoC 0 | (lam, t) :: r => Cplus (Cmult (RtoC t) (fpx (image lam) i j)) (total image r i j) end.
Lemma loop_sum f image samp n p (M N : nat) : fresh f image samp -> forall rows q s0 h, (q < length h)%nat -> frows (hget h q) = M -> fcols (hget h q) = N ->
  (forall lt, In lt rows -> frows (image (fst lt) n p) = M /\ fcols (image (fst lt) n p) = N) ->
  exists h', run_loop f n p rows (Some (q, s0)) h = Ok (Some (q, match rev rows with [] => s0 | (l, _) :: _ => samp l n p end), h') /\ (q < length h')%nat /\ frows (hget h' q) = M /\ fcols (hget h' q) = N /\
    forall i j, fpx (hget h' q) i j = Cplus (fpx (hget h q) i j) (total (fun l => image l n p) rows i j).
Proof.
  intros F. induction rows as [|(lam, thr) rows IH]; intros q s0 h L R1 R2 H; cbn [run_loop].
  - exists h. cbn. repeat (split; auto). intros i j. unfold Cplus, RtoC; cbn [fst snd]. destruct (fpx (hget h q) i j); cbn. f_equal; ring.
  - rewrite F. cbn [rbind]. set (h1 := (h ++ [image lam n p])%list). assert (L1 : (length h < length h1)%nat) by (unfold h1; rewrite app_length; cbn; lia).
    set (h2 := hset h1 (length h) (fscale thr (hget h1 (length h)))). assert (G1 : hget h2 (length h) = fscale thr (image lam n p)) by (unfold h2; rewrite hget_set by auto; rewrite Nat.eqb_refl; unfold h1; now rewrite hget_app).
    assert (G2 : hget h2 q = hget h q) by (unfold h2; rewrite hget_set by auto; destruct (Nat.eqb_spec q (length h)); [lia|]; unfold h1; now rewrite hget_old). rewrite G1, G2.
    destruct (H (lam, thr) (or_introl eq_refl)) as (I1 & I2). cbn [fst] in I1, I2. unfold fadd. cbn [fscale frows fcols fpx]. rewrite R1, R2, I1, I2, !Nat.eqb_refl. cbn [andb rbind].
    match goal with |- context [hset h2 q ?x] => set (a := x) end. assert (L2 : (q < length (hset h2 q a))%nat) by (rewrite hset_len; unfold h2; rewrite hset_len; lia).
    assert (GA : hget (hset h2 q a) q = a) by (rewrite hget_set by (unfold h2; rewrite hset_len; lia); now rewrite Nat.eqb_refl).
    destruct (IH q (samp lam n p) (hset h2 q a) L2) as (h' & E & L' & S1 & S2 & V); [now rewrite GA|now rewrite GA|intros; apply H; right; auto|]. exists h'. split.
    + rewrite E. f_equal. f_equal. f_equal. f_equal. cbn [rev]. destruct (rev rows) as [|(l', t') rr]; auto.
    + repeat (split; auto). intros i j. rewrite V, GA. unfold a. cbn [fpx total]. unfold Cplus, Cmult, RtoC; cbn [fst snd]. f_equal; ring.
Qed.
Theorem C87_broadband f image samp rows n p h (M N : nat) : fresh f image samp -> bad_grid n = false -> (2 <= length rows)%nat ->
  (forall lt, In lt rows -> frows (image (fst lt * / 1000000) n p) = M /\ fcols (image (fst lt * / 1000000) n p) = N) ->
  exists E s h', prop_run f (Table rows) n p h = Ok (E, s, h') /\ frows E = M /\ fcols E = N /\
    (forall i j, fpx E i j = total (fun l => image (l * / 1000000) n p) rows i j) /\ (forall l t, last rows (0, 0) = (l, t) -> s = samp (l * / 1000000) n p).
Proof.
  intros F B L H. unfold prop_run. rewrite B. assert (R : rows_of (Table rows) = Ok (map (fun lt => (fst lt * / 1000000, snd lt)) rows)) by (destruct rows as [|a [|b r]]; cbn in L; try lia; reflexivity). rewrite R. cbn [rbind].
  destruct rows as [|(l0, t0) rows]; [cbn in L; lia|]. cbn [map fst snd run_loop]. rewrite F. cbn [rbind].
  set (h1 := (h ++ [image (l0 * / 1000000) n p])%list). assert (L1 : (length h < length h1)%nat) by (unfold h1; rewrite app_length; cbn; lia).
  set (h2 := hset h1 (length h) (fscale t0 (hget h1 (length h)))). assert (G1 : hget h2 (length h) = fscale t0 (image (l0 * / 1000000) n p)) by (unfold h2; rewrite hget_set by auto; rewrite Nat.eqb_refl; unfold h1; now rewrite hget_app).
  destruct (H (l0, t0) (or_introl eq_refl)) as (I1 & I2). cbn [fst] in I1, I2.
  destruct (loop_sum f image samp n p M N F (map (fun lt => (fst lt * / 1000000, snd lt)) rows) (length h) (samp (l0 * / 1000000) n p) h2) as (h' & E & L' & S1 & S2 & V); [unfold h2; rewrite hset_len; auto|rewrite G1; auto|rewrite G1; auto| |].
  - intros lt I. apply in_map_iff in I. destruct I as (x & <- & I). cbn [fst]. apply H. right. auto.
  - rewrite E. cbn [rbind]. do 3 eexists. split; [reflexivity|]. split; auto. split; auto. split.
    + intros i j. rewrite V, G1. cbn [fscale fpx total]. f_equal. clear. induction rows as [|(l, t) rows IH]; cbn [map total fst snd]; auto. now rewrite IH.
    + intros l t La. rewrite <- map_rev. destruct rows as [|b rows] using rev_ind; [cbn in L; lia|]. rewrite rev_app_distr. cbn [rev app map fst snd]. rewrite app_comm_cons, last_last in La. subst b. reflexivity.
Qed.
Theorem C87_monochromatic f image samp lam n p h : fresh f image samp -> bad_grid n = false -> exists E h', prop_run f (Micron lam) n p h = Ok (E, samp (lam * / 1000000) n p, h') /\
  frows E = frows (image (lam * / 1000000) n p) /\ fcols E = fcols (image (lam * / 1000000) n p) /\ forall i j, fpx E i j = fpx (image (lam * / 1000000) n p) i j.
Proof.
  intros F B. unfold prop_run. rewrite B. cbn [rows_of rbind run_loop]. rewrite F. cbn [rbind]. do 2 eexists. split; [reflexivity|]. rewrite hget_set by (rewrite app_length; cbn; lia). rewrite Nat.eqb_refl, hget_app. cbn [fscale frows fcols fpx]. repeat split. intros i j. unfold Cmult, RtoC; cbn [fst snd]. destruct (fpx _ i j); cbn. f_equal; ring.
Qed.
(* a wavelength file with one row fails *)
Theorem C87_one_row_fails f lt n p h : bad_grid n = false -> prop_run f (Table [lt]) n p h = Raise TypeError.
Proof. intros B. unfold prop_run. now rewrite B. Qed.
(* a prescription that returns the same array every time: the sum is not that of its images *)
Definition cached (a : field C) : prescription := fun _ _ _ h => match h with [] => Ok ([a], 0%nat, 1) | _ => Ok (h, 0%nat, 1) end.
Theorem C87_shared_array_refuted a l1 t1 l2 t2 n p : bad_grid n = false -> exists E h',
  prop_run (cached a) (Table [(l1, t1); (l2, t2)]) n p [] = Ok (E, 1, h') /\ forall i j, fpx E i j = Cmult (RtoC (2 * t1 * t2)) (fpx a i j).
Proof.
  intros B. unfold prop_run. rewrite B. cbn [rows_of map fst snd rbind run_loop cached hset hget nth]. unfold fadd. cbn [fscale frows fcols]. rewrite !Nat.eqb_refl. cbn [andb rbind hset hget nth]. do 2 eexists. split; [reflexivity|]. intros i j. cbn [fpx fscale]. unfold Cplus, Cmult, RtoC; cbn [fst snd]. f_equal; ring.
Qed.
(* ---- prop_run_multi ---- *)
Lemma collect_none {A} (g : nat -> option A) order i : g i = None -> collect (flat_map (fun i => match g i with Some x => [(i, x)] | None => [] end) order) i = None.
Proof.
  intros G. induction order as [|k order IH]; auto. cbn [flat_map]. destruct (g k) as [x|] eqn:K; cbn [app collect]; auto. destruct (Nat.eqb_spec k i) as [->|N]; auto. congruence.
Qed.
Lemma collect_first {A} (g : nat -> option A) order i : In i order -> collect (flat_map (fun i => match g i with Some x => [(i, x)] | None => [] end) order) i = g i.
Proof.
  destruct (g i) as [x|] eqn:G; [|intros _; now apply collect_none].
  induction order as [|k order IH]; intros I; [destruct I|]. cbn [flat_map]. destruct (Nat.eq_dec k i) as [->|N].
  - rewrite G. cbn [app collect]. now rewrite Nat.eqb_refl.
  - destruct I as [->|I]; [contradiction|]. destruct (g k); cbn [app collect]; [destruct (Nat.eqb_spec k i); [contradiction|]|]; auto.
Qed.
(* every order in which the processes end gives the results of the tasks one after the other *)
Fixpoint sequential {A B} (g : A -> res B) (xs : list A) : res (list B) := match xs with [] => Ok [] | x :: r => do y <- g x; do l <- sequential g r; Ok (y :: l) end.
Lemma pool_sequential {A B} (g : A -> res B) xs order : Permutation order (seq 0 (length xs)) -> pool_map g xs order = sequential g xs.
Proof.
  intros P. unfold pool_map. set (done := flat_map _ order).
  assert (C : forall i, (i < length xs)%nat -> collect done i = option_map g (nth_error xs i)).
  { intros i L. unfold done. rewrite <- (collect_first (fun i => option_map g (nth_error xs i)) order i).
    - f_equal. apply flat_map_ext. intros k. destruct (nth_error xs k); reflexivity.
    - apply (Permutation_in i (Permutation_sym P)). apply in_seq. lia. }
  clearbody done. clear P order. assert (G : forall pre ys, (pre ++ ys)%list = xs -> all_results done (seq (length pre) (length ys)) = sequential g ys).
  { intros pre ys. revert pre. induction ys as [|y ys IH]; intros pre E; cbn [length seq all_results sequential]; auto. rewrite C by (rewrite <- E, app_length; cbn; lia). rewrite <- E, nth_error_app2, Nat.sub_diag by lia. cbn [nth_error option_map]. destruct (g y); cbn [rbind]; auto. specialize (IH (pre ++ [y])%list). rewrite app_length in IH. cbn [length] in IH. replace (length pre + 1)%nat with (S (length pre)) in IH by lia. rewrite IH; [reflexivity|]. now rewrite <- app_assoc. }
  apply (G [] xs eq_refl).
Qed.
Theorem C87_order_free f l n p c o1 o2 : let m := Nat.max (length (lam_list l)) (npass p) in Permutation o1 (seq 0 m) -> Permutation o2 (seq 0 m) -> prop_run_multi f l n p c o1 = prop_run_multi f l n p c o2.
Proof.
  intros m P1 P2. unfold prop_run_multi. destruct (bad_grid n); auto. destruct (_ && _)%bool; auto. fold m. destruct (params (lam_list l) p (seq 0 m)) as [xs|x] eqn:X; cbn [rbind]; auto.
  assert (L : length xs = m). { clear - X. assert (G : forall is xs, params (lam_list l) p is = Ok xs -> length xs = length is). { induction is as [|i is IH]; intros ys Y; cbn [params] in Y; [now injection Y as <-|]. destruct (param (lam_list l) p i); cbn [rbind] in Y; [|discriminate]. destruct (params (lam_list l) p is) eqn:Z; cbn [rbind] in Y; [|discriminate]. injection Y as <-. cbn. now rewrite (IH _ eq_refl). } apply G in X. now rewrite seq_length in X. }
  destruct (match c with Some k => (k <? 1)%Z | None => Nat.eqb m 0 end); auto. rewrite !pool_sequential by (now rewrite L). reflexivity.
Qed.
(* result i is prop_run with wavelength i (or the only one) and PASSVALUE i (or the only one) *)
Definition pick {A} (l : list A) (i : nat) : option A := match l with [a] => Some a | _ => nth_error l i end.
Definition pass_list (p : passv) : list (option pv) := match p with NoPass => [None] | OneDict d => [Some d] | Dicts [] => [None] | Dicts l => map Some l end.
Definition nonempty (d : option pv) : option pv := match d with Some (x :: r) => Some (x :: r) | _ => None end.
Lemma param_pick ls p i : (1 <= length ls)%nat -> (i < Nat.max (length ls) (npass p))%nat -> (length ls <= 1 \/ npass p <= length ls)%nat -> (npass p <= 1 \/ length ls <= npass p)%nat ->
  exists lam d, param ls p i = Ok (lam, match d with Some q => q | None => [] end) /\ pick ls i = Some lam /\ pick (pass_list p) i = Some d.
Proof.
  intros L I H1 H2. unfold param.
  assert (A : exists lam, nth_error ls (if (Nat.ltb 1 (length ls) || Nat.eqb (length ls) (npass p))%bool then i else 0%nat) = Some lam /\ pick ls i = Some lam).
  { destruct ls as [|a [|b ls]]; [cbn in L; lia| |].
    - exists a. split; auto. cbn [length Nat.ltb Nat.leb orb]. destruct (Nat.eqb_spec 1 (npass p)) as [E|E]; auto. rewrite <- E in I. cbn in I. assert (i = 0)%nat by lia. subst. reflexivity.
    - cbn [length Nat.ltb Nat.leb orb]. destruct (nth_error (a :: b :: ls) i) as [x|] eqn:N; [exists x; split; auto|]. apply nth_error_None in N. cbn [length] in *. lia. }
  destruct A as (lam & -> & PL). cbn [rbind]. exists lam. destruct p as [|d|ds]; cbn [npass pass_list] in *.
  - exists None. repeat split; auto.
  - exists (Some d). repeat split; auto.
  - destruct ds as [|d [|d2 ds]].
    + exists None. repeat split; auto.
    + exists (Some d). repeat split; auto.
    + destruct (nth_error (d :: d2 :: ds) i) as [x|] eqn:N; [|apply nth_error_None in N; cbn [length] in *; lia]. exists (Some x). cbn [rbind]. split; auto. split; auto. cbn [map pick]. change (Some d :: Some d2 :: map Some ds) with (map Some (d :: d2 :: ds)). rewrite nth_error_map, N. reflexivity.
Qed.
Lemma sequential_nth {A B} (g : A -> res B) xs : forall out, sequential g xs = Ok out -> length out = length xs /\ forall i x, nth_error xs i = Some x -> exists y, nth_error out i = Some y /\ g x = Ok y.
Proof.
  induction xs as [|x xs IH]; intros out H; cbn [sequential] in H; [injection H as <-; split; auto; intros [|i] x E; discriminate|]. destruct (g x) as [y|] eqn:G; cbn [rbind] in H; [|discriminate]. destruct (sequential g xs) as [l|]; cbn [rbind] in H; [|discriminate]. injection H as <-. destruct (IH l eq_refl) as (L & F). split; [cbn; congruence|]. intros [|i] z E; cbn [nth_error] in *; [injection E as <-; eauto|eauto].
Qed.
Lemma params_nth ls p : forall is xs, params ls p is = Ok xs -> length xs = length is /\ forall k i, nth_error is k = Some i -> exists x, nth_error xs k = Some x /\ param ls p i = Ok x.
Proof.
  induction is as [|i is IH]; intros xs H; cbn [params] in H; [injection H as <-; split; auto; intros [|k] i E; discriminate|]. destruct (param ls p i) as [y|] eqn:G; cbn [rbind] in H; [|discriminate]. destruct (params ls p is) as [l|]; cbn [rbind] in H; [|discriminate]. injection H as <-. destruct (IH l eq_refl) as (L & F). split; [cbn; congruence|]. intros [|k] z E; cbn [nth_error] in *; [injection E as <-; eauto|eauto].
Qed.
Theorem C87_pairing f l n p c order Es ss : let m := Nat.max (length (lam_list l)) (npass p) in Permutation order (seq 0 m) -> prop_run_multi f l n p c order = Ok (Es, ss) ->
  length Es = m /\ length ss = m /\ forall i, (i < m)%nat -> exists lam d E s h, pick (lam_list l) i = Some lam /\ pick (pass_list p) i = Some d /\
    nth_error Es i = Some E /\ nth_error ss i = Some s /\ prop_run f (Micron lam) n (nonempty d) [] = Ok (E, s, h).
Proof.
  intros m P H. unfold prop_run_multi in H. destruct (bad_grid n) eqn:B; [discriminate|]. destruct (Nat.ltb 1 (length (lam_list l)) && Nat.ltb (length (lam_list l)) (npass p))%bool eqn:Ch; [discriminate|]. fold m in H.
  destruct (params (lam_list l) p (seq 0 m)) as [xs|] eqn:X; cbn [rbind] in H; [|discriminate]. destruct (params_nth _ _ _ _ X) as (LX & FX). rewrite seq_length in LX.
  destruct (match c with Some k => (k <? 1)%Z | None => Nat.eqb m 0 end); [discriminate|]. rewrite pool_sequential in H by now rewrite LX. destruct (sequential (execute f n) xs) as [out|] eqn:O; cbn [rbind] in H; [|discriminate]. destruct (sequential_nth _ _ _ O) as (LO & FO).
  destruct (stackable (map fst out)); [|discriminate]. injection H as <- <-. rewrite !map_length. split; [congruence|]. split; [congruence|]. intros i I.
  assert (NS : nth_error (seq 0 m) i = Some i). { rewrite (nth_error_nth' _ 0%nat) by now rewrite seq_length. now rewrite seq_nth. }
  destruct (FX i i NS) as ((lam & q) & Nx & Px). destruct (FO i _ Nx) as ((E & s) & No & Ex).
  assert (Hp : exists lam' d, pick (lam_list l) i = Some lam' /\ pick (pass_list p) i = Some d /\ lam' = lam /\ (match d with Some q => q | None => [] end) = q).
  { assert (L1 : (1 <= length (lam_list l))%nat). { destruct (lam_list l) eqn:Q; cbn; [|lia]. unfold param in Px. cbn [length] in Px. destruct ((1 <? 0) || (0 =? npass p))%nat%bool; [destruct i|]; discriminate Px. }
    assert (L2 : (length (lam_list l) <= 1 \/ npass p <= length (lam_list l))%nat). { apply Bool.andb_false_iff in Ch. destruct Ch as [Y|Y]; apply Nat.ltb_ge in Y; auto. }
    assert (L3 : (npass p <= 1 \/ length (lam_list l) <= npass p)%nat).
    { destruct (le_lt_dec (npass p) 1); auto. destruct (le_lt_dec (length (lam_list l)) (npass p)) as [|G]; auto. exfalso. assert (M : m = length (lam_list l)) by (unfold m; lia). assert (NS' : nth_error (seq 0 m) (npass p) = Some (npass p)) by (rewrite (nth_error_nth' _ 0%nat) by (rewrite seq_length; lia); rewrite seq_nth by lia; auto).
      destruct (FX _ _ NS') as (x & _ & Q). unfold param in Q. destruct (nth_error (lam_list l) _); cbn [rbind] in Q; [|discriminate]. destruct p as [|d|ds]; cbn [npass] in *; try lia. destruct ds as [|d1 [|d2 ds]]; cbn [length] in *; try lia. assert (Z : nth_error (d1 :: d2 :: ds) (S (S (length ds))) = None) by (apply nth_error_None; cbn; lia). rewrite Z in Q. discriminate. }
    destruct (param_pick (lam_list l) p i L1 I L2 L3) as (lam' & d & Q & P1 & P2). exists lam', d. rewrite Px in Q. injection Q as Q1 Q2. repeat split; auto. }
  destruct Hp as (lam' & d & P1 & P2 & -> & Q). unfold execute in Ex. cbn [fst snd] in Ex. assert (NE : (match q with [] => None | _ :: _ => Some q end) = nonempty d) by (destruct d as [[|x r]|]; subst q; reflexivity).
  assert (Ex' : (do out <- prop_run f (Micron lam) n (nonempty d) []; Ok (fst out)) = Ok (E, s)) by (rewrite <- NE; destruct q; exact Ex).
  destruct (prop_run f (Micron lam) n (nonempty d) []) as [((E' & s') & h)|] eqn:R; cbn [rbind fst] in Ex'; [|discriminate]. injection Ex' as -> ->.
  exists lam, d, E, s, h. split; auto. split; auto. split; [now rewrite nth_error_map, No|]. split; [now rewrite nth_error_map, No|].
  reflexivity || auto.
Qed.
(* lists of two lengths are refused *)
Theorem C87_lengths_refused f l n p c order : (1 < npass p)%nat -> (1 < length (lam_list l))%nat -> npass p <> length (lam_list l) -> exists x, prop_run_multi f l n p c order = Raise x.
Proof.
  intros P L N. unfold prop_run_multi. destruct (bad_grid n); [eauto|]. destruct (Nat.ltb_spec 1 (length (lam_list l))); [|lia]. destruct (Nat.ltb_spec (length (lam_list l)) (npass p)) as [Q|Q]; cbn [andb]; [eauto|].
  destruct (params (lam_list l) p (seq 0 (Nat.max (length (lam_list l)) (npass p)))) as [xs|x] eqn:X; cbn [rbind]; [|eauto]. exfalso. destruct (params_nth _ _ _ _ X) as (LX & FX).
  set (m := Nat.max (length (lam_list l)) (npass p)) in *. assert (NS' : nth_error (seq 0 m) (npass p) = Some (npass p)) by (rewrite (nth_error_nth' _ 0%nat) by (rewrite seq_length; lia); rewrite seq_nth by lia; auto).
  destruct (FX _ _ NS') as (x & _ & Y). unfold param in Y. destruct (nth_error (lam_list l) _); cbn [rbind] in Y; [|discriminate]. destruct p as [|d|ds]; cbn [npass] in *; try lia. destruct ds as [|d1 [|d2 ds]]; cbn [length] in *; try lia. assert (Z : nth_error (d1 :: d2 :: ds) (S (S (length ds))) = None) by (apply nth_error_None; cbn; lia). rewrite Z in Y. discriminate.
Qed.
(* Example: two wavelengths, one dictionary, three processes ending in reverse order *)
Theorem C87_example : exists Es, prop_run_multi (fun lam _ p h => Ok ((h ++ [mkf 1 1 (fun _ _ => RtoC lam)])%list, length h, lam)) (Lams [1; 2]) 4 (Dicts [[("x"%string, 1)]]) None [1; 0]%nat = Ok (Es, [1 * / 1000000; 2 * / 1000000]) /\ length Es = 2%nat.
Proof. eexists. split; [reflexivity|]. reflexivity. Qed.
