(* Property theorems C19, C20, C45: spatial weighting over the loop, DM command history, intensity
   history. *)
From Verif Require Import Base RBase CtrlModel CtrlSpec CtrlProofs DmModel DmSpec DmProofs EfcSpec EfcProofs JacModel JacSpec JacProofs WfscModel WfscSpec WfscProofs.
Open Scope R_scope.

(* ---------------- C20 ---------------- *)
Section C20.
  Variables planned adefc : bool.
  Variable sched : list (list Z).
  Variable relinItrVec : list Z.
  Variable delta : nat -> Z -> list R.
  Let used (ind : list Z) (k : Z) (t : nat) : bool := usedb (in_use planned sched ind t) k.

  (* The history has Nitr + 1 columns.  Column t is the command of every DM at the start of iteration
     t, the last column the final command, and consecutive columns are related by exactly one step of
     each DM (unused DM: unchanged). *)
  Theorem C20_history_columns : forall Nitr ind s sf cs es,
    loop planned adefc sched relinItrVec delta Nitr ind s = Ok (sf, cs, es) ->
    (0 < Nitr)%nat /\ length cs = S Nitr /\
    exists st : nat -> wst, st 0%nat = s /\ st Nitr = sf /\
      (forall t, (t <= Nitr)%nat -> exists c, nth_error cs t = Some c /\
         col1 c = cV (w1 (st t)) /\ col2 c = cV (w2 (st t)) /\ col8 c = w8 (st t) /\ col9 c = w9 (st t)) /\
      (forall t, (t < Nitr)%nat ->
         let relin := (negb adefc && flagRelin relinItrVec t)%bool in
         dm_step relin (used ind 1 t) (w1 (st t)) (delta t 1) (w1 (st (S t))) /\
         dm_step relin (used ind 2 t) (w2 (st t)) (delta t 2) (w2 (st (S t))) /\
         v_step (used ind 8 t) (w8 (st t)) (delta t 8) (w8 (st (S t))) /\
         v_step (used ind 9 t) (w9 (st t)) (delta t 9) (w9 (st (S t)))).
  Proof.
    intros N ind s sf cs es E. destruct (loop_trace _ _ _ _ _ _ _ _ _ _ _ E) as (HN & st & S0 & Sn & L1 & L2 & HC & HS).
    split; [auto|]. split; [auto|]. exists st. split; [auto|]. split; [auto|]. split.
    - intros t Ht. exists (snapshot (st t)). rewrite HC by auto. cbn. auto.
    - intros t Ht. destruct (HS t Ht) as (e & ind' & A & _ & _). exact (iteration_dms _ _ _ _ _ _ _ _ _ _ _ _ A).
  Qed.

  (* With well-formed mirrors and deltas of the right sizes, no run fails. *)
  Theorem C20_loop_never_fails : forall n1 n2 n8 n9 Nitr ind s,
    (forall t, length (delta t 1%Z) = n1 /\ length (delta t 2%Z) = n2 /\ length (delta t 8%Z) = n8 /\ length (delta t 9%Z) = n9) ->
    (0 < Nitr)%nat -> (planned = true -> (Nitr <= length sched)%nat) ->
    dm_ok n1 (w1 s) -> dm_ok n2 (w2 s) -> length (w8 s) = n8 -> length (w9 s) = n9 ->
    exists sf cs es, loop planned adefc sched relinItrVec delta Nitr ind s = Ok (sf, cs, es).
  Proof.
    intros n1 n2 n8 n9 N ind s Hd H0 Hs A B C D. apply (loop_ok planned adefc sched relinItrVec delta n1 n2 n8 n9); auto.
    repeat split; auto; try apply A; apply B.
  Qed.

  (* A mirror with no dead, pinned or tied actuator whose running sum never leaves the voltage range:
     every history column is the initial command plus the deltas applied so far. *)
  Theorem C20_dm1_is_initial_plus_deltas : forall n Nitr ind s sf cs es,
    loop planned adefc sched relinItrVec delta Nitr ind s = Ok (sf, cs, es) ->
    dm_ok n (w1 s) -> free (w1 s) ->
    (forall t, (t < Nitr)%nat -> used ind 1 t = true -> length (delta t 1%Z) = n) ->
    (forall t, (t <= Nitr)%nat -> in_limits n (w1 s) (fun i => val (cV (w1 s)) i + applied (used ind 1) (fun j => delta j 1%Z) t i)) ->
    forall t, (t <= Nitr)%nat -> exists c, nth_error cs t = Some c /\ length (col1 c) = n /\
      forall i, (i < n)%nat -> val (col1 c) i = val (cV (w1 s)) i + applied (used ind 1) (fun j => delta j 1%Z) t i.
  Proof.
    intros n N ind s sf cs es E Hok Hf HX HL t Ht.
    destruct (C20_history_columns _ _ _ _ _ _ E) as (_ & _ & st & S0 & Sn & HC & HS).
    destruct (HC t Ht) as (c & Ec & C1 & _). exists c. split; [auto|]. rewrite C1.
    destruct (mirror_run n (fun t => negb adefc && flagRelin relinItrVec t)%bool (used ind 1) (fun j => delta j 1%Z) (fun t => w1 (st t)) N) with (t := t) as [SP HV];
      try (cbn beta; rewrite S0; assumption); auto.
    - intros k Hk. apply (HS k Hk).
    - split; [apply SP|]. intros i Hi. rewrite HV by auto. cbn. now rewrite S0.
  Qed.
  Theorem C20_dm2_is_initial_plus_deltas : forall n Nitr ind s sf cs es,
    loop planned adefc sched relinItrVec delta Nitr ind s = Ok (sf, cs, es) ->
    dm_ok n (w2 s) -> free (w2 s) ->
    (forall t, (t < Nitr)%nat -> used ind 2 t = true -> length (delta t 2%Z) = n) ->
    (forall t, (t <= Nitr)%nat -> in_limits n (w2 s) (fun i => val (cV (w2 s)) i + applied (used ind 2) (fun j => delta j 2%Z) t i)) ->
    forall t, (t <= Nitr)%nat -> exists c, nth_error cs t = Some c /\ length (col2 c) = n /\
      forall i, (i < n)%nat -> val (col2 c) i = val (cV (w2 s)) i + applied (used ind 2) (fun j => delta j 2%Z) t i.
  Proof.
    intros n N ind s sf cs es E Hok Hf HX HL t Ht.
    destruct (C20_history_columns _ _ _ _ _ _ E) as (_ & _ & st & S0 & Sn & HC & HS).
    destruct (HC t Ht) as (c & Ec & _ & C2 & _). exists c. split; [auto|]. rewrite C2.
    destruct (mirror_run n (fun t => negb adefc && flagRelin relinItrVec t)%bool (used ind 2) (fun j => delta j 2%Z) (fun t => w2 (st t)) N) with (t := t) as [SP HV];
      try (cbn beta; rewrite S0; assumption); auto.
    - intros k Hk. apply (HS k Hk).
    - split; [apply SP|]. intros i Hi. rewrite HV by auto. cbn. now rewrite S0.
  Qed.
  (* DMs 8 and 9 have no constraints: always *)
  Theorem C20_dm8_dm9_are_initial_plus_deltas : forall Nitr ind s sf cs es,
    loop planned adefc sched relinItrVec delta Nitr ind s = Ok (sf, cs, es) ->
    forall t, (t <= Nitr)%nat -> exists c, nth_error cs t = Some c /\
      length (col8 c) = length (w8 s) /\ length (col9 c) = length (w9 s) /\
      (forall i, (i < length (w8 s))%nat -> val (col8 c) i = val (w8 s) i + applied (used ind 8) (fun j => delta j 8%Z) t i) /\
      (forall i, (i < length (w9 s))%nat -> val (col9 c) i = val (w9 s) i + applied (used ind 9) (fun j => delta j 9%Z) t i).
  Proof.
    intros N ind s sf cs es E t Ht.
    destruct (C20_history_columns _ _ _ _ _ _ E) as (_ & _ & st & S0 & Sn & HC & HS).
    destruct (HC t Ht) as (c & Ec & _ & _ & C8 & C9). exists c. split; [auto|]. rewrite C8, C9.
    destruct (v_run (length (w8 s)) (used ind 8) (fun j => delta j 8%Z) (fun t => w8 (st t)) N) with (t := t) as [L8 V8]; auto;
      [now rewrite S0|intros k Hk; apply (HS k Hk)|].
    destruct (v_run (length (w9 s)) (used ind 9) (fun j => delta j 9%Z) (fun t => w9 (st t)) N) with (t := t) as [L9 V9]; auto;
      [now rewrite S0|intros k Hk; apply (HS k Hk)|].
    cbn beta in *. rewrite S0 in *. auto.
  Qed.

  (* A DM never in use keeps its initial command in every column. *)
  Theorem C20_unused_dm_is_untouched : forall Nitr ind s sf cs es,
    loop planned adefc sched relinItrVec delta Nitr ind s = Ok (sf, cs, es) ->
    (forall t, (t < Nitr)%nat -> used ind 1 t = false) ->
    forall t c, nth_error cs t = Some c -> col1 c = cV (w1 s).
  Proof.
    intros N ind s sf cs es E HU t c Hc.
    destruct (C20_history_columns _ _ _ _ _ _ E) as (_ & L & st & S0 & Sn & HC & HS).
    assert (Ht : (t <= N)%nat) by (assert (t < length cs)%nat by (apply nth_error_Some; congruence); lia).
    destruct (HC t Ht) as (c' & Ec & C1 & _). rewrite Ec in Hc. injection Hc as <-. rewrite C1. clear c' Ec C1.
    induction t as [|t IH]; [now rewrite S0|].
    destruct (HS t ltac:(lia)) as (D1 & _). unfold dm_step in D1. rewrite HU in D1 by lia. rewrite D1. apply IH. lia.
  Qed.

  (* After an iteration that uses DM1 the stored command obeys the constraint specification of C21:
     it is a command the constraint code leaves as prescribed. *)
  Theorem C20_used_dm_obeys_constraints : forall n Nitr ind s sf cs es,
    loop planned adefc sched relinItrVec delta Nitr ind s = Ok (sf, cs, es) ->
    dm_ok n (w1 s) -> (forall t, (t < Nitr)%nat -> length (delta t 1%Z) = n) ->
    forall t c, (t < Nitr)%nat -> used ind 1 t = true -> nth_error cs (S t) = Some c ->
    exists d : dmr, dm_ok n d /\ biasMap d = biasMap (w1 s) /\ cVmin d = cVmin (w1 s) /\ cVmax d = cVmax (w1 s) /\ tied d = tied (w1 s) /\
      forall i, (i < n)%nat ->
        (copies d i = None -> limited d i (val (col1 c) i)) /\
        (forall j, copies d i = Some j -> limited d (Z.to_nat j) (val (col1 c) i)).
  Proof.
    intros n N ind s sf cs es E Hok HX t c Ht Hu Hc.
    destruct (C20_history_columns _ _ _ _ _ _ E) as (_ & L & st & S0 & Sn & HC & HS).
    destruct (HC (S t) ltac:(lia)) as (c' & Ec & C1 & _). rewrite Ec in Hc. injection Hc as <-. rewrite C1.
    (* parameters and well-formedness are preserved *)
    assert (INV : forall k, (k <= N)%nat -> dm_ok n (w1 (st k)) /\ biasMap (w1 (st k)) = biasMap (w1 s) /\
       cVmin (w1 (st k)) = cVmin (w1 s) /\ cVmax (w1 (st k)) = cVmax (w1 s) /\ tied (w1 (st k)) = tied (w1 s)).
    { induction k as [|k IH]; intros Hk; [rewrite S0; auto|].
      destruct (IH ltac:(lia)) as (K1 & K2 & K3 & K4 & K5). destruct (HS k ltac:(lia)) as (D1 & _). unfold dm_step in D1.
      destruct (used ind 1 k); [|rewrite D1; auto]. destruct D1 as (d1 & v & P1 & P2 & P3).
      assert (Q : dm_ok n d1 /\ biasMap d1 = biasMap (w1 s) /\ cVmin d1 = cVmin (w1 s) /\ cVmax d1 = cVmax (w1 s) /\ tied d1 = tied (w1 s)).
      { destruct (negb adefc && flagRelin relinItrVec k)%bool; [|rewrite P1; auto].
        destruct (enforce_ok _ _ K1) as (d' & E' & O & _ & _ & Q1 & Q2 & Q3 & Q4 & _). rewrite P1 in E'. injection E' as <-.
        repeat split; try apply O; congruence. }
      destruct Q as (Q0 & Q1 & Q2 & Q3 & Q4).
      destruct (add_enforce n d1 (delta k 1%Z) Q0 (HX k ltac:(lia))) as (v' & d' & Ev & Ov & Ee & Od).
      rewrite P2 in Ev. injection Ev as <-. rewrite P3 in Ee. injection Ee as <-.
      destruct (enforce_ok _ _ Ov) as (d'' & E' & _ & _ & _ & R1 & R2 & R3 & R4 & _). rewrite P3 in E'. injection E' as <-.
      cbn [set_cV biasMap cVmin cVmax tied] in R1, R2, R3, R4. split; [auto|]. repeat split; congruence. }
    destruct (INV t ltac:(lia)) as (K1 & K2 & K3 & K4 & K5).
    destruct (HS t Ht) as (D1 & _). unfold dm_step in D1. rewrite Hu in D1. destruct D1 as (d1 & v & P1 & P2 & P3).
    assert (Q : dm_ok n d1 /\ biasMap d1 = biasMap (w1 s) /\ cVmin d1 = cVmin (w1 s) /\ cVmax d1 = cVmax (w1 s) /\ tied d1 = tied (w1 s)).
    { destruct (negb adefc && flagRelin relinItrVec t)%bool; [|rewrite P1; auto].
      destruct (enforce_ok _ _ K1) as (d' & E' & O & _ & _ & Q1 & Q2 & Q3 & Q4 & _). rewrite P1 in E'. injection E' as <-.
      repeat split; try apply O; congruence. }
    destruct Q as (Q0 & Q1 & Q2 & Q3 & Q4).
    destruct (add_enforce n d1 (delta t 1%Z) Q0 (HX t Ht)) as (v' & d' & Ev & Ov & _). rewrite P2 in Ev. injection Ev as <-.
    exists (set_cV d1 v). split; [auto|]. cbn [set_cV biasMap cVmin cVmax tied]. repeat (split; [congruence|]).
    intros i Hi. destruct (enforce_ok _ _ Ov) as (d2 & E2 & _ & _ & _ & _ & _ & _ & _ & _ & _ & _ & _ & HV). rewrite P3 in E2. injection E2 as <-.
    rewrite HV by auto. split; [intros ->|intros j ->]; apply limited_limf.
  Qed.

  (* At an iteration that does not relinearise, the field is estimated with exactly the stored command
     of that iteration (at one that does, constraints are enforced in between, see the refutation
     below). *)
  Theorem C20_estimate_uses_stored_command : forall Nitr ind s sf cs es t,
    loop planned adefc sched relinItrVec delta Nitr ind s = Ok (sf, cs, es) -> (t < Nitr)%nat ->
    (negb adefc && flagRelin relinItrVec t)%bool = false -> nth_error es t = nth_error cs t.
  Proof.
    intros N ind s sf cs es t E Ht Hr.
    destruct (loop_trace _ _ _ _ _ _ _ _ _ _ _ E) as (HN & st & S0 & Sn & L1 & L2 & HC & HS).
    destruct (HS t Ht) as (e & ind' & A & _ & He). rewrite He, HC by lia. f_equal.
    unfold iteration in A. destruct (select_dms planned sched t ind') as [l|]; cbn [rbind] in A; [|discriminate].
    rewrite Hr in A. cbn [rbind] in A.
    destruct (add_used l (delta t) (st t)) as [s2|]; cbn [rbind] in A; [|discriminate].
    destruct (enforce_used l s2) as [s3|]; cbn [rbind] in A; [|discriminate]. injection A as _ _ <-. reflexivity.
  Qed.
End C20.
Print Assumptions C20_history_columns.
Print Assumptions C20_loop_never_fails.
Print Assumptions C20_dm1_is_initial_plus_deltas.
Print Assumptions C20_dm2_is_initial_plus_deltas.
Print Assumptions C20_dm8_dm9_are_initial_plus_deltas.
Print Assumptions C20_unused_dm_is_untouched.
Print Assumptions C20_used_dm_obeys_constraints.
Print Assumptions C20_estimate_uses_stored_command.

(* Zero iterations: the function raises NameError instead of returning the initial command. *)
Theorem C20_zero_iterations_refuted : forall planned adefc sched rel delta ind s,
  loop planned adefc sched rel delta 0 ind s = Raise NameError.
Proof. reflexivity. Qed.
Print Assumptions C20_zero_iterations_refuted.

(* A starting command above the limit: column 0 records 150, but iteration 0 works from 100, so the
   next column is 100 + 1 clipped, not 150 + 1; and the estimate was made at 100. *)
Definition dm_hot : dmr := mkdmc 1%Z [150] [] None [0] 0 100 [] [] [].
Definition d0 : nat -> Z -> list R := fun _ k => if (k =? 1)%Z then [-1] else [].
Theorem C20_start_outside_limits_refuted :
  let s := mkwst dm_hot dm_hot [] [] in
  exists sf cs es c e, loop false false [] [] d0 1 [1%Z] s = Ok (sf, cs, es) /\
    nth_error cs 0 = Some c /\ nth_error es 0 = Some e /\ col1 c = [150] /\ col1 e = [100].
Proof.
  set (s := mkwst dm_hot dm_hot [] []). cbn zeta.
  assert (OK1 : dm_ok 1 dm_hot).
  { unfold dm_ok, dm_hot. cbn. repeat split; auto; try lia; try discriminate; constructor. }
  unfold loop, iterations, seq, iteration, select_dms, flagRelin, enforce_used. cbn [rbind existsb Nat.eqb orb negb andb].
  change (usedb [1%Z] 1) with true. change (usedb [1%Z] 2) with false. cbn iota.
  destruct (enforce_ok 1 dm_hot OK1) as (da & Ea & Oa & _ & _ & _ & _ & _ & _ & _ & _ & _ & _ & Va).
  unfold s at 1. cbn [w1]. rewrite Ea. cbn [rbind].
  destruct (add_enforce 1 da (d0 0%nat 1%Z) Oa eq_refl) as (v & db & Ev & Ov & Eb & Ob).
  unfold add_used. change (usedb [1%Z] 1) with true. change (usedb [1%Z] 2) with false. change (usedb [1%Z] 8) with false. change (usedb [1%Z] 9) with false.
  cbn iota. cbn [w1 w2 w8 w9]. rewrite Ev. cbn [rbind w1 w2 w8 w9]. rewrite Eb. cbn [rbind].
  eexists. eexists. eexists. eexists. eexists. split; [reflexivity|]. split; [reflexivity|]. split; [reflexivity|]. split; [reflexivity|].
  cbn. assert (La : length (cV da) = 1%nat) by apply Oa.
  destruct (cV da) as [|x [|y l]] eqn:Ex; try discriminate. f_equal.
  specialize (Va 0%nat ltac:(lia)). unfold val in Va at 1. cbn in Va. rewrite Va.
  unfold limf, copies, pinf. cbn. unfold v0f, deadb, val. cbn. destruct (Rlt_dec 100 (150 + 0)); [reflexivity|lra].
Qed.
Print Assumptions C20_start_outside_limits_refuted.

(* A concrete run meeting every hypothesis of the sum theorem: two iterations, DM1 unconstrained. *)
Definition dm_cold : dmr := mkdmc 1%Z [10] [] None [0] 0 100 [] [] [].
Definition d1 : nat -> Z -> list R := fun _ _ => [5].
Example C20_example : let s := mkwst dm_cold dm_cold [1] [2] in
  exists sf cs es c, loop false false [] [] d1 2 [1%Z; 8%Z] s = Ok (sf, cs, es) /\ nth_error cs 2 = Some c /\
    col1 c = [20] /\ col2 c = [10] /\ col8 c = [11] /\ col9 c = [2].
Proof.
  cbn zeta. set (s := mkwst dm_cold dm_cold [1] [2]).
  assert (OK1 : dm_ok 1 dm_cold).
  { unfold dm_ok, dm_cold. cbn. repeat split; auto; try lia; try discriminate; constructor. }
  destruct (C20_loop_never_fails false false [] [] d1 1 1 1 1 2 [1%Z; 8%Z] s) as (sf & cs & es & E); auto.
  { intros; discriminate. }
  exists sf, cs, es.
  destruct (C20_dm8_dm9_are_initial_plus_deltas false false [] [] d1 _ _ _ _ _ _ E 2%nat (le_n _)) as (c & Ec & L8 & L9 & V8 & V9).
  destruct (C20_dm1_is_initial_plus_deltas false false [] [] d1 1 _ _ _ _ _ _ E) with (t := 2%nat) as (c' & Ec' & L1 & V1); auto.
  { unfold free, s, dm_cold. cbn. repeat split; auto. intros; discriminate. }
  { intros t Ht i Hi. assert (i = 0)%nat by lia. subst i. unfold s, dm_cold, val, applied. cbn.
    assert (t = 0 \/ t = 1 \/ t = 2)%nat as [ -> | [ -> | -> ] ] by lia; cbn; lra. }
  destruct (C20_dm2_is_initial_plus_deltas false false [] [] d1 1 _ _ _ _ _ _ E) with (t := 2%nat) as (c2 & Ec2 & L2 & V2); auto.
  { unfold free, s, dm_cold. cbn. repeat split; auto. intros; discriminate. }
  { intros t Ht i Hi. assert (i = 0)%nat by lia. subst i. unfold s, dm_cold, val, applied. cbn.
    assert (t = 0 \/ t = 1 \/ t = 2)%nat as [ -> | [ -> | -> ] ] by lia; cbn; lra. }
  rewrite Ec in Ec', Ec2. injection Ec' as <-. injection Ec2 as <-. exists c. split; [auto|]. split; [auto|].
  specialize (V1 0%nat ltac:(lia)). specialize (V2 0%nat ltac:(lia)). specialize (V8 0%nat ltac:(cbn; lia)). specialize (V9 0%nat ltac:(cbn; lia)).
  unfold applied, val, s in *. cbn in *.
  destruct (col1 c) as [|x1 [|]], (col2 c) as [|x2 [|]], (col8 c) as [|x8 [|]], (col9 c) as [|x9 [|]]; try discriminate. cbn in *.
  split; [f_equal; lra|]. split; [f_equal; lra|]. split; f_equal; lra.
Qed.

(* ---------------- C19 ---------------- *)
(* Within one iteration every mode is weighted exactly once, with its own star's weights. *)
Theorem C19_each_mode_weighted_once : forall W star_of nstars G p c m, (star_of m < nstars)%nat ->
  weight_all W star_of (seq 0 nstars) G p c m = cscale (W p (star_of m)) (G p c m).
Proof.
  intros W so n G p c m H. rewrite weight_all_spec by apply seq_NoDup.
  destruct (in_dec Nat.eq_dec (so m) (seq 0 n)) as [_|Hn]; auto. exfalso. apply Hn, in_seq. lia.
Qed.
Print Assumptions C19_each_mode_weighted_once.

(* Whatever the schedule: the Jacobian the controller uses at iteration t is the last linearised one
   times the pixel weight to the power n, n the number of iterations, up to and including t, that
   weighted it since. *)
Theorem C19_used_jacobian : forall W star_of nstars fresh g0 u0 rest h o t G b n,
  (gref o < fresh)%nat ->
  nth_error (snd (jac_iters W star_of nstars fresh ((Some g0, u0) :: rest) h o)) t = Some G ->
  since ((Some g0, u0) :: rest) None 0 t = (Some b, n) ->
  forall p c m, (star_of m < nstars)%nat -> G p c m = cscale (W p (star_of m) ^ n) (b p c m).
Proof.
  intros W so ns fresh g0 u0 rest h o t G b n Hf Ht Hs p c m Hm.
  eapply (jac_iters_weights W so ns ((Some g0, u0) :: rest) fresh h o None 0); eauto. intros b' Hb'. discriminate.
Qed.
Print Assumptions C19_used_jacobian.

(* At an iteration that relinearises, it is the new Jacobian weighted once (or not, if unused). *)
Theorem C19_right_after_relinearisation : forall W star_of nstars fresh steps h o t G g u,
  (gref o < fresh)%nat -> nth_error steps t = Some (Some g, u) ->
  nth_error (snd (jac_iters W star_of nstars fresh steps h o)) t = Some G ->
  forall p c m, (star_of m < nstars)%nat -> G p c m = (if u then cscale (W p (star_of m)) (g p c m) else g p c m).
Proof.
  intros W so ns fresh steps h o t G g u Hf Hst Ht p c m Hm.
  assert (Hs : forall steps base k t, nth_error steps t = Some (Some g, u) ->
            since steps base k t = (Some g, if u then 1%nat else 0%nat)).
  { induction steps0 as [|[g' u'] st IH]; intros base k t' Hn; [destruct t'; discriminate|].
    cbn [since]. destruct t' as [|t'].
    - injection Hn as -> ->. destruct u; reflexivity.
    - destruct g'; apply IH; exact Hn. }
  rewrite (jac_iters_weights W so ns steps fresh h o None 0 t G Hf) with (b := g) (n := if u then 1%nat else 0%nat); auto.
  - destruct u; unfold cscale; cbn; [f_equal; ring|destruct (g p c m); cbn; f_equal; ring].
  - intros b' Hb'. discriminate.
Qed.
Print Assumptions C19_right_after_relinearisation.

(* Between relinearisations it is correct exactly when the weight is 0 or 1 (or the entry is 0): for
   non-negative weights and n >= 2 earlier uses, w^n = w iff w is 0 or 1. *)
Theorem C19_correct_only_for_trivial_weights : forall w n, 0 <= w -> (2 <= n)%nat -> (w ^ n = w <-> w = 0 \/ w = 1).
Proof.
  intros w n Hw Hn. split.
  - intros H. destruct (Req_dec w 0) as [|H0]; [auto|right].
    destruct n as [|[|n]]; [lia|lia|].
    assert (P : w ^ S n = 1).
    { apply (Rmult_eq_reg_l w); auto. rewrite Rmult_1_r. exact H. }
    destruct (Rtotal_order w 1) as [L|[L|L]]; auto; exfalso.
    + assert (Hs : w ^ S n < 1) by (apply pow_lt_1_compat; [lra|lia]). lra.
    + assert (Hs : 1 < w ^ S n) by (apply Rlt_pow_R1; [lra|lia]). lra.
  - intros [->| ->]; [apply pow_i; lia|apply pow1].
Qed.
Print Assumptions C19_correct_only_for_trivial_weights.

(* Refutation of the title claim: a run of two iterations, linearised once, weight 1/2: the second
   iteration uses 1/4 of the model Jacobian. *)
Theorem C19_weights_compound_refuted :
  let W := fun _ _ : nat => 1/2 in let g := fun _ _ _ : nat => (1, 0) in
  exists G, nth_error (snd (jac_iters W (fun _ => 0%nat) 1 1 [(Some g, true); (None, true)] (fun _ => g) (mkjobj 0))) 1 = Some G /\
    G 0%nat 0%nat 0%nat = (1/4, 0) /\ G 0%nat 0%nat 0%nat <> cscale (W 0%nat 0%nat) (g 0%nat 0%nat 0%nat).
Proof.
  cbn zeta. eexists. split; [reflexivity|].
  assert (E : forall z : R * R, z = (1/4, 0) -> z = (1/4, 0) /\ z <> cscale (1/2) (1, 0)).
  { intros z ->. split; auto. unfold cscale. cbn. intros H. injection H as H _. lra. }
  apply E. cbn. unfold cscale. cbn. f_equal; lra.
Qed.
Print Assumptions C19_weights_compound_refuted.

(* ---------------- C45 ---------------- *)
Section C45.
  Variables (Nmode npix : nat) (w : nat -> R) (corr score : list bool) (nhist : nat).
  Variables (Eest : nat -> nat -> R * R) (Iinco : nat -> nat -> R) (Im : list R).
  Hypothesis Hpix : npix = count corr.        (* the estimate has one row per pixel of the correction region *)
  Hypothesis Hmodes : (Nmode <= nhist)%nat.
  Let mod_mean m := rsum npix (fun p => sqmod (Eest m p)) / INR npix.
  Let inco_mean m := rsum npix (fun p => Iinco m p) / INR npix.

  (* Correction region: recorded totals are the weighted sums over modes of the mean intensities; the
     modulated per-mode record is the plain mean, the unmodulated one is already weighted. *)
  Theorem C45_correction_region : exists h ev', store_intensities Nmode npix w corr score nhist Eest Iinco Im = Ok (h, ev') /\
    hIestCorr h = rsum Nmode (fun m => w m * mod_mean m) /\
    hIincoCorr h = rsum Nmode (fun m => w m * inco_mean m) /\
    length (hModCorr h) = Nmode /\ length (hUnmodCorr h) = Nmode /\
    (forall m, (m < Nmode)%nat -> val (hModCorr h) m = mod_mean m /\ val (hUnmodCorr h) m = w m * inco_mean m) /\
    hIestCorr h = rsum Nmode (fun m => w m * val (hModCorr h) m) /\
    hIincoCorr h = rsum Nmode (fun m => val (hUnmodCorr h) m).
  Proof.
    unfold store_intensities. destruct (Nat.ltb_spec nhist Nmode); [lia|]. eexists. eexists. split; [reflexivity|].
    cbn [hIestCorr hIincoCorr hModCorr hUnmodCorr].
    rewrite !select_place by (rewrite vecl_length; auto).
    assert (A : forall f : nat -> nat -> R, mean (vecl npix (fun p => rsum Nmode (fun m => f m p))) = rsum Nmode (fun m => rsum npix (f m) / INR npix)).
    { intros f. rewrite mean_vecl, rsum_swap. unfold Rdiv. now rewrite rsum_scal_r. }
    rewrite !A. rewrite !map_length, seq_length.
    assert (B : forall (g : nat -> R) m, (m < Nmode)%nat -> val (map g (seq 0 Nmode)) m = g m).
    { intros g m Hm. unfold val. rewrite nth_indep with (d' := g 0%nat) by (rewrite map_length, seq_length; auto).
      rewrite map_nth, seq_nth by auto. reflexivity. }
    assert (C : forall m, rsum npix (fun p => w m * sqmod (Eest m p)) / INR npix = w m * mod_mean m) by (intros m; rewrite rsum_scal; unfold mod_mean, Rdiv; ring).
    assert (D : forall m, rsum npix (fun p => w m * Iinco m p) / INR npix = w m * inco_mean m) by (intros m; rewrite rsum_scal; apply Rmult_assoc).
    split; [apply rsum_ext; auto|]. split; [apply rsum_ext; auto|]. split; [auto|]. split; [auto|]. split; [|split].
    - intros m Hm. rewrite !B by auto. rewrite !mean_vecl. split; [reflexivity|apply D].
    - apply rsum_ext. intros m Hm. rewrite B, mean_vecl by auto. apply C.
    - apply rsum_ext. intros m Hm. rewrite B, mean_vecl by auto. reflexivity.
  Qed.

  (* Score region contained in the correction region: the same relations. *)
  Theorem C45_score_region : inside score corr ->
    exists h ev', store_intensities Nmode npix w corr score nhist Eest Iinco Im = Ok (h, ev') /\
    hIestScore h = rsum Nmode (fun m => w m * val (hModScore h) m) /\
    hIincoScore h = rsum Nmode (fun m => val (hUnmodScore h) m) /\
    forall m, (m < Nmode)%nat ->
      val (hModScore h) m = mean (select (select corr score) (map (fun p => sqmod (Eest m p)) (seq 0 npix))) /\
      val (hUnmodScore h) m = w m * mean (select (select corr score) (map (fun p => Iinco m p) (seq 0 npix))).
  Proof.
    intros Hin. unfold store_intensities. destruct (Nat.ltb_spec nhist Nmode); [lia|]. eexists. eexists. split; [reflexivity|].
    cbn [hIestScore hIincoScore hModScore hUnmodScore].
    rewrite !select_place_inside by (auto; rewrite vecl_length; auto).
    assert (B : forall (g : nat -> R) m, (m < Nmode)%nat -> val (map g (seq 0 Nmode)) m = g m).
    { intros g m Hm. unfold val. rewrite nth_indep with (d' := g 0%nat) by (rewrite map_length, seq_length; auto).
      rewrite map_nth, seq_nth by auto. reflexivity. }
    unfold vecl. rewrite !select_map, !mean_sum.
    split; [|split].
    - apply rsum_ext. intros m Hm. rewrite B by auto. now rewrite select_map, mean_scal.
    - apply rsum_ext. intros m Hm. rewrite B by auto. now rewrite select_map.
    - intros m Hm. rewrite !B by auto. rewrite !select_map. split; [reflexivity|]. now rewrite mean_scal.
  Qed.

  (* If the measured image, at the correction pixels, is the weighted sum over modes of modulated plus
     incoherent intensity, the recorded raw mean is the sum of the two recorded parts. *)
  Theorem C45_raw_is_sum_of_parts :
    select corr Im = vecl npix (fun p => rsum Nmode (fun m => w m * (sqmod (Eest m p) + Iinco m p))) ->
    exists h ev', store_intensities Nmode npix w corr score nhist Eest Iinco Im = Ok (h, ev') /\
    hIrawCorr h = hIestCorr h + hIincoCorr h.
  Proof.
    intros HI. unfold store_intensities. destruct (Nat.ltb_spec nhist Nmode); [lia|]. eexists. eexists. split; [reflexivity|].
    cbn [hIestCorr hIincoCorr hIrawCorr]. rewrite HI. rewrite !select_place by (rewrite vecl_length; auto).
    rewrite !mean_vecl. unfold Rdiv. rewrite <- Rmult_plus_distr_r. f_equal. rewrite <- rsum_plus. apply rsum_ext. intros p _.
    rewrite <- rsum_plus. apply rsum_ext. intros m _. cbn beta. ring.
  Qed.

  (* Side effect: the caller's incoherent estimate is multiplied by the weights. *)
  Theorem C45_incoherent_estimate_is_overwritten : exists h ev',
    store_intensities Nmode npix w corr score nhist Eest Iinco Im = Ok (h, ev') /\
    forall m p, ev' m p = w m * Iinco m p.
  Proof.
    unfold store_intensities. destruct (Nat.ltb_spec nhist Nmode); [lia|]. eexists. eexists. split; [reflexivity|]. auto.
  Qed.
End C45.
Print Assumptions C45_correction_region.
Print Assumptions C45_score_region.
Print Assumptions C45_raw_is_sum_of_parts.
Print Assumptions C45_incoherent_estimate_is_overwritten.

(* Refutation of "each per-mode record is the mean intensity of that mode": two modes of weight 1/2 and
   incoherent intensity 1; the per-mode unmodulated record is 1/2 while the modulated one (intensity 1)
   is 1; so weighting both alike does not give the recorded total. *)
Theorem C45_unmodulated_record_already_weighted_refuted :
  exists h ev', store_intensities 2 1 (fun _ => 1/2) [true] [true] 2 (fun _ _ => (1, 0)) (fun _ _ => 1) [2] = Ok (h, ev') /\
    val (hModCorr h) 0 = 1 /\ val (hUnmodCorr h) 0 = 1/2 /\
    hIincoCorr h <> rsum 2 (fun m => 1/2 * val (hUnmodCorr h) m).
Proof.
  eexists. eexists. split; [reflexivity|]. cbn. unfold val, mean, sqmod. cbn. split; [field|]. split; [field|]. lra.
Qed.
Print Assumptions C45_unmodulated_record_already_weighted_refuted.

(* A score pixel outside the correction region counts as zero estimated intensity: the recorded
   modulated and unmodulated parts then miss intensity that the raw record has. *)
Theorem C45_score_outside_correction_refuted :
  exists h ev', store_intensities 1 1 (fun _ => 1) [true; false] [true; true] 1 (fun _ _ => (1, 0)) (fun _ _ => 0) [1; 1] = Ok (h, ev') /\
    hIrawScore h = 1 /\ hIestScore h + hIincoScore h = 1/2.
Proof.
  eexists. eexists. split; [reflexivity|]. cbn. unfold mean, sqmod. cbn. split; field.
Qed.
Print Assumptions C45_score_outside_correction_refuted.

(* A concrete case of the hypotheses: two pixels, one in the correction region, one mode. *)
Example C45_example : count [true; false] = 1%nat /\ inside [true; false] [true; false] /\
  exists h ev', store_intensities 1 1 (fun _ => 1) [true; false] [true; false] 1 (fun _ _ => (3, 4)) (fun _ _ => 5) [30; 7] = Ok (h, ev') /\
   hIestCorr h = 25 /\ hIincoCorr h = 5 /\ hIrawCorr h = hIestCorr h + hIincoCorr h.
Proof.
  split; [reflexivity|]. split; [split; [reflexivity|]; intros [|[|i]]; auto|].
  eexists. eexists. split; [reflexivity|]. cbn. unfold mean, sqmod. cbn. split; [field|]. split; field.
Qed.
