(* Proofs about the command gradient: from commands to surfaces and back. *)
From Verif Require Import Base RBase StrBase UtilModel UtilSpec UtilProofs CBase PropModel PropSpec PropProofs OptModel OptSpec LinBase OptProofs OptProofs2 OptProofs3 OptProofs4 OptProofs7 GradAdj2 GradModel GradSpec DiffModel DiffSpec DiffProofs DiffProofs2 DiffProofs3 DiffProofs4 CmdModel CmdSpec.
Open Scope R_scope.
(* a rendered pixel as a linear function of the heights *)
Definition lsurf (ifn : field R) (nact sep : nat) (shx shy : R) (n : nat) (a : field R) (y x : nat) : R :=
  match crop_src n (frows ifn) y, crop_src n (fcols ifn) x with
  | Some i, Some j => rsum nact (fun r => rsum nact (fun c => fpx a r c * kr (frows ifn) (fcols ifn) (fpx (make_tf ifn shx shy)) (Z.of_nat (roll_ix (frows ifn) (half (frows ifn)) i) - act_pos (frows ifn) nact sep r) (Z.of_nat (roll_ix (fcols ifn) (half (fcols ifn)) j) - act_pos (fcols ifn) nact sep c)))
  | _, _ => 0 end.
Lemma lsurf_along ifn nact sep shx shy n a b t ab y x : (forall i j, (i < nact)%nat -> (j < nact)%nat -> fpx ab i j = fpx a i j + t * fpx b i j) -> lsurf ifn nact sep shx shy n ab y x = lsurf ifn nact sep shx shy n a y x + t * lsurf ifn nact sep shx shy n b y x.
Proof.
  intros H. unfold lsurf. destruct (crop_src n (frows ifn) y); [|ring]. destruct (crop_src n (fcols ifn) x); [|ring]. rewrite <- rsum_scal, <- rsum_plus. apply rsum_ext. intros r Hr. rewrite <- rsum_scal, <- rsum_plus. apply rsum_ext. intros c Hc. rewrite H by auto. ring.
Qed.
Lemma render_lsurf ifn nact sep shx shy a d n : act_fit (frows ifn) nact sep -> act_fit (fcols ifn) nact sep -> holds ifn nact sep shx shy 1 a d -> (1 <= n)%nat ->
  exists S, render d n n false = Ok (S, (frows ifn, fcols ifn)) /\ dims n n S /\ forall y x, (y < n)%nat -> (x < n)%nat -> fpx S y x = lsurf ifn nact sep shx shy n a y x.
Proof.
  intros FA FB H Hn. destruct (render_11 ifn nact sep shx shy a d false n n FA FB H Hn Hn) as (s & S & Es & ES & ER & DS). destruct (surface_px ifn nact sep shx shy 1 a d false FA FB H) as (s' & Es' & Ds & Vs). rewrite Es in Es'. injection Es' as <-.
  destruct (pad_cropr_px s n n Hn Hn) as (S' & ES' & _ & V). rewrite ES in ES'. injection ES' as <-. exists S. split; [auto|]. split; [auto|]. intros y x Hy Hx. rewrite V by auto. destruct Ds as [-> ->]. unfold lsurf.
  destruct (crop_src n (frows ifn) y) eqn:A; auto. destruct (crop_src n (fcols ifn) x) eqn:B; auto. rewrite Vs by (eapply crop_src_lt; eauto). unfold gain. apply Rmult_1_l.
Qed.
Lemma back_same ifn nact sep shx shy a a' d d' inter g wfe : holds ifn nact sep shx shy 1 a d -> holds ifn nact sep shx shy 1 a' d' -> render_backprop d inter g wfe = render_backprop d' inter g wfe.
Proof. intros (H1 & H2 & H3 & H4 & _) (K1 & K2 & K3 & K4 & _). unfold render_backprop. now rewrite H1, H2, H3, H4, K1, K2, K3, K4. Qed.
Lemma rdot_ext r c g s s' : (forall i j, (i < r)%nat -> (j < c)%nat -> fpx s i j = fpx s' i j) -> rdot r c g s = rdot r c g s'.
Proof. intros H. unfold rdot. apply rsum_ext. intros i Hi. apply rsum_ext. intros j Hj. now rewrite H. Qed.
(* the reverse pass is the transpose of the heights-to-surface map, whatever the present command *)
Lemma back_lsurf ifn nact sep shx shy a d n g : act_fit (frows ifn) nact sep -> act_fit (fcols ifn) nact sep -> Nat.even (frows ifn) = true -> Nat.even (fcols ifn) = true -> holds ifn nact sep shx shy 1 a d -> (1 <= n)%nat -> dims n n g ->
  exists b, render_backprop d (Some (frows ifn, fcols ifn)) g false = Ok b /\ dims nact nact b /\ forall a', dims nact nact a' -> rdot n n g (mkf n n (lsurf ifn nact sep shx shy n a')) = rdot nact nact b a'.
Proof.
  intros FA FB EA EB H Hn Dg. destruct (adjoint_11 ifn nact sep shx shy a d false n n g FA FB EA EB H Hn Hn Dg) as (S & i & b & ER & DS & EB' & Db & _). destruct (render_lsurf ifn nact sep shx shy a d n FA FB H Hn) as (S' & ER' & _ & _). rewrite ER in ER'. injection ER' as -> ->.
  exists b. split; [auto|]. split; [auto|]. intros a' Da'. destruct (update_holds ifn nact sep shx shy 1 a a' d FA FB H Da') as (d' & _ & H').
  destruct (adjoint_11 ifn nact sep shx shy a' d' false n n g FA FB EA EB H' Hn Hn Dg) as (S2 & i2 & b2 & ER2 & DS2 & EB2 & Db2 & Q). destruct (render_lsurf ifn nact sep shx shy a' d' n FA FB H' Hn) as (S3 & ER3 & _ & V3). rewrite ER2 in ER3. injection ER3 as -> ->.
  rewrite (back_same _ _ _ _ _ _ _ d' d _ _ _ H' H), EB' in EB2. injection EB2 as <-. rewrite <- Q. apply rdot_ext. intros y x Hy Hx. cbn [fpx]. now rewrite V3.
Qed.
(* putting a vector at the controlled actuators *)
Lemma last_put_scal ele : forall u t m, last_put ele (map (Rmult t) u) m = match last_put ele u m with Some x => Some (t * x) | None => None end.
Proof. induction ele as [|e es IH]; intros u t m; [reflexivity|]. destruct u as [|x xs]; [reflexivity|]. cbn [map last_put]. rewrite IH. destruct (last_put es xs m); auto. destruct (Nat.eqb m e); auto. Qed.
Lemma last_put_in ele : forall u m x, last_put ele u m = Some x -> In m ele.
Proof. induction ele as [|e es IH]; intros u m x; [discriminate|]. destruct u as [|y ys]; [discriminate|]. cbn [last_put]. destruct (last_put es ys m) eqn:E; intros Q; [right; eapply IH; eauto|]. destruct (Nat.eqb_spec m e); [left; auto|discriminate]. Qed.
Lemma put_ok nact ele u : Forall (fun e => (e < nact * nact)%nat) ele -> length u = length ele -> exists dv, put nact ele u = Ok dv /\ dims nact nact dv /\ forall i j, fpx dv i j = match last_put ele u (i * nact + j) with Some x => x | None => 0 end.
Proof.
  intros F L. unfold put. assert (B : forallb (fun e => Nat.ltb e (nact * nact)) ele = true) by (apply forallb_forall; intros e He; rewrite Forall_forall in F; apply Nat.ltb_lt; auto). rewrite B, L, Nat.eqb_refl. cbn [negb]. eexists. split; [reflexivity|]. split; [split; reflexivity|]. reflexivity.
Qed.
Lemma rsum_last_put N W ele : forall u, NoDup ele -> Forall (fun e => (e < N)%nat) ele -> length u = length ele ->
  rsum N (fun m => W m * match last_put ele u m with Some x => x | None => 0 end) = vdot (map W ele) u.
Proof.
  induction ele as [|e es IH]; intros u ND F L; [cbn; apply rsum_zero; intros; ring|]. destruct u as [|x xs]; [discriminate|]. inversion ND; subst. inversion F; subst. change (vdot (map W (e :: es)) (x :: xs)) with (W e * x + vdot (map W es) xs).
  rewrite <- (IH xs) by auto.
  transitivity (rsum N (fun m => (if Nat.eqb m e then W e * x else 0) + W m * match last_put es xs m with Some y => y | None => 0 end)).
  - apply rsum_ext. intros m Hm. cbn [last_put]. destruct (last_put es xs m) as [y|] eqn:E.
    + destruct (Nat.eqb_spec m e) as [->|]; [apply last_put_in in E; contradiction|ring].
    + destruct (Nat.eqb_spec m e) as [->|]; ring.
  - rewrite rsum_plus. f_equal. rewrite (rsum_single N e); auto; [now rewrite Nat.eqb_refl|]. intros i _ Hi. now rewrite (proj2 (Nat.eqb_neq i e)).
Qed.
Definition vdir (k : dmcmd) (dv : field R) : field R := mkf (k_nact k) (k_nact k) (fun i j => fpx (k_vtoh k) i j * alive k i j * fpx dv i j).
Lemma commanded_dm k : dm_ready k -> exists ifn sep shx shy a, act_fit (frows ifn) (k_nact k) sep /\ act_fit (fcols ifn) (k_nact k) sep /\ Nat.even (frows ifn) = true /\ Nat.even (fcols ifn) = true /\
  dims (k_nact k) (k_nact k) (k_V k) /\ NoDup (k_ele k) /\ Forall (fun e => (e < k_nact k * k_nact k)%nat) (k_ele k) /\ holds ifn (k_nact k) sep shx shy 1 a (k_dm k).
Proof.
  intros (ifn & sep & shx & shy & hist & a & E & FH & Da & FA & FB & EA & EB & DV & ND & FE). exists ifn, sep, shx, shy, a. destruct (commanded_holds ifn (k_nact k) sep shx shy 1 hist a FA FB FH Da) as (d & E' & H). rewrite E in E'. injection E' as ->. auto 9.
Qed.
(* everything about one DM *)
Lemma dm_chain k n : dm_ready k -> (1 <= n)%nat -> exists (L : field R -> nat -> nat -> R) (B : field R -> list R),
  (forall dv, exists d S i, surface k dv n = Ok (d, (S, i)) /\ dims n n S /\ (forall y x, (y < n)%nat -> (x < n)%nat -> fpx S y x = L (heights k dv) y x) /\
     forall g, dims n n g -> back k d i g = Ok (B g)) /\
  (forall a b c t y x, (forall i j, (i < k_nact k)%nat -> (j < k_nact k)%nat -> fpx c i j = fpx a i j + t * fpx b i j) -> L c y x = L a y x + t * L b y x) /\
  (forall g, dims n n g -> length (B g) = length (k_ele k)) /\
  forall g u dv, dims n n g -> length u = length (k_ele k) -> put (k_nact k) (k_ele k) u = Ok dv -> rdot n n g (mkf n n (L (vdir k dv))) = vdot (B g) u.
Proof.
  intros R Hn. destruct (commanded_dm k R) as (ifn & sep & shx & shy & a & FA & FB & EA & EB & DV & ND & FE & H).
  set (B := fun g => match render_backprop (k_dm k) (Some (frows ifn, fcols ifn)) g false with Ok b => map (fun e => fpx b (e / k_nact k)%nat (e mod k_nact k)%nat * (fpx (k_vtoh k) (e / k_nact k)%nat (e mod k_nact k)%nat * alive k (e / k_nact k)%nat (e mod k_nact k)%nat)) (k_ele k) | Raise _ => [] end).
  exists (lsurf ifn (k_nact k) sep shx shy n), B. split; [|split; [|split]].
  - intros dv. assert (Dh : dims (k_nact k) (k_nact k) (heights k dv)) by exact DV. destruct (update_holds ifn (k_nact k) sep shx shy 1 a (heights k dv) (k_dm k) FA FB H Dh) as (d & Ed & Hd).
    destruct (render_lsurf ifn (k_nact k) sep shx shy (heights k dv) d n FA FB Hd Hn) as (S & ER & DS & V). exists d, S, (frows ifn, fcols ifn). unfold surface. rewrite Ed. cbn [rbind]. rewrite ER. cbn [rbind].
    split; [reflexivity|]. split; [auto|]. split; [auto|]. intros g Dg. unfold back, B. rewrite (back_same ifn (k_nact k) sep shx shy (heights k dv) a d (k_dm k) (Some (frows ifn, fcols ifn)) g false Hd H).
    destruct (back_lsurf ifn (k_nact k) sep shx shy a (k_dm k) n g FA FB EA EB H Hn Dg) as (b & -> & _). reflexivity.
  - intros a0 b c t y x Q. now apply lsurf_along.
  - intros g Dg. unfold B. destruct (back_lsurf ifn (k_nact k) sep shx shy a (k_dm k) n g FA FB EA EB H Hn Dg) as (b & -> & _). apply map_length.
  - intros g u dv Dg Lu Eu. unfold B. destruct (back_lsurf ifn (k_nact k) sep shx shy a (k_dm k) n g FA FB EA EB H Hn Dg) as (b & -> & [D1 D2] & Q). rewrite (Q (vdir k dv)) by (split; reflexivity).
    destruct (put_ok (k_nact k) (k_ele k) u FE Lu) as (dv' & Ep & Dp & Vp). rewrite Eu in Ep. injection Ep as <-.
    rewrite <- (rsum_last_put (k_nact k * k_nact k) (fun e => fpx b (e / k_nact k)%nat (e mod k_nact k)%nat * (fpx (k_vtoh k) (e / k_nact k)%nat (e mod k_nact k)%nat * alive k (e / k_nact k)%nat (e mod k_nact k)%nat)) (k_ele k) u ND FE Lu).
    rewrite rsum_mul_blocks. unfold rdot. apply rsum_ext. intros i Hi. apply rsum_ext. intros j Hj. cbn [vdir fpx]. rewrite Vp.
    replace ((i * k_nact k + j) / k_nact k)%nat with i by (rewrite Nat.div_add_l by lia; rewrite Nat.div_small by lia; lia). replace ((i * k_nact k + j) mod k_nact k)%nat with j by (rewrite Nat.add_comm, Nat.mod_add by lia; now rewrite Nat.mod_small by lia). ring.
Qed.
