(* C77: the optional parameters filled in before a run (falco/setup.py:120-460). *)
From Verif Require Import Base StrBase RBase OptvModel OptvSpec OptvProofs OptvProofs2.
From Coq Require Import String.
Local Open Scope string_scope.

Definition member (p : path) (l : list path) : bool := if in_dec path_dec p l then true else false.
Lemma member_in p l : member p l = true -> In p l.
Proof. unfold member. destruct (in_dec path_dec p l); [auto|discriminate]. Qed.
Lemma member_not p l : member p l = false -> ~ In p l.
Proof. unfold member. destruct (in_dec path_dec p l); [discriminate|auto]. Qed.
(* the expression of the first statement assigning q, when that statement is unconditional and no
   later one overwrites q *)
Definition first_default (q : path) (L : list stmt) : option expr :=
  match split_at q L with
  | Some (_, x, b) => match conds x with [] => if guarded q b then Some (rhs x) else None | _ => None end
  | None => None
  end.
Lemma first_default_ok q L e : first_default q L = Some e ->
  exists a x b, split_at q L = Some (a, x, b) /\ conds x = [] /\ rhs x = e /\ guarded q b = true.
Proof.
  unfold first_default. destruct (split_at q L) as [[[a x] b]|]; [|discriminate].
  destruct (conds x) eqn:Ec; [|discriminate]. destruct (guarded q b) eqn:Eg; [|discriminate].
  intros E. injection E as <-. eauto 8.
Qed.

(* A value set by the script is never replaced, except for the attributes the toolbox owns. *)
Theorem C77_script_values_kept home cpus s s' p v :
  set_optional_variables home cpus s = Ok s' -> s p = Some v -> ~ In p owned -> s' p = Some v.
Proof.
  intros H Hp Hn. refine (all_keep _ _ _ _ _ H Hp _).
  unfold guarded. rewrite forallb_forall. intros st Hs. destruct (path_dec (target st) p) as [E|]; [|reflexivity].
  destruct (only_missing st) eqn:Em; [reflexivity|]. exfalso. apply Hn. rewrite <- E.
  assert (F : forallb (fun x => only_missing x || member (target x) owned)%bool (program home cpus) = true)
    by (vm_compute; reflexivity).
  rewrite forallb_forall in F. specialize (F st Hs). rewrite Em in F. now apply member_in.
Qed.

(* Nothing else appears: an attribute that was missing and is now there is a documented one. *)
Theorem C77_only_documented home cpus s s' p :
  set_optional_variables home cpus s = Ok s' -> s p = None -> s' p <> None ->
  In p owned \/ In p derived \/ exists v, In (p, v) (fixed_defaults cpus).
Proof.
  intros H Hn Hp.
  assert (F : forallb (fun x => member (target x) (owned ++ derived ++ map fst (fixed_defaults cpus))%list)
                (program home cpus) = true) by (vm_compute; reflexivity).
  destruct (untouched p (program home cpus)) eqn:U.
  - rewrite (all_frame _ _ _ _ H U) in Hp. congruence.
  - assert (X : exists st, In st (program home cpus) /\ target st = p).
    { clear - U. unfold untouched in U. revert U. induction (program home cpus) as [|st L IH]; cbn [forallb]; [discriminate|].
      destruct (path_dec (target st) p) as [E|E]; intros U.
      - exists st. split; [left|]; auto.
      - destruct (IH U) as (x & Hx & Ex). exists x. split; [right|]; auto. }
    destruct X as (st & Hs & <-). rewrite forallb_forall in F. specialize (F st Hs). apply member_in in F.
    apply in_app_or in F as [F|F]; [auto|]. apply in_app_or in F as [F|F]; [auto|].
    right; right. apply in_map_iff in F as ((q & v) & E & F). cbn in E. subst q. eauto.
Qed.

(* A missing parameter gets its documented default. *)
Theorem C77_fixed_defaults home cpus s s' p v :
  set_optional_variables home cpus s = Ok s' -> In (p, v) (fixed_defaults cpus) -> s p = None -> s' p = Some v.
Proof.
  intros H Hin Hn.
  assert (F : map (fun e => first_default (fst e) (program home cpus)) (fixed_defaults cpus) =
              map (fun e => Some (EC (snd e))) (fixed_defaults cpus)).
  { unfold fixed_defaults. replace (15 / 1000) with (3 / 200) by field. vm_compute. reflexivity. }
  assert (E : first_default p (program home cpus) = Some (EC v)).
  { apply (in_map (fun e => (first_default (fst e) (program home cpus), Some (EC (snd e))))) in Hin. cbn [fst snd] in Hin.
    clear - F Hin. revert F Hin. generalize (fixed_defaults cpus). induction l as [|e l IH]; cbn [map In]; [tauto|].
    intros F [E|E]; injection F as F1 F2; [congruence|auto]. }
  apply first_default_ok in E as (a & x & b & Hs & Hc & Hr & Hg).
  destruct (default_lemma _ _ _ _ _ _ _ H Hs Hc Hn Hg) as (s1 & w & _ & Ev & _ & Es).
  rewrite Hr in Ev. cbn in Ev. congruence.
Qed.

(* Running the initialisation again changes nothing. *)
Theorem C77_idempotent home cpus s s' :
  set_optional_variables home cpus s = Ok s' ->
  exists s'', set_optional_variables home cpus s' = Ok s'' /\ forall p, s'' p = s' p.
Proof.
  intros H. apply (all_again _ _ _ H); [vm_compute; reflexivity|]. intros p. reflexivity.
Qed.

(* ---- defaults computed from other parameters ---- *)
Lemma reads_present s e v : eval_expr s e = Ok v -> forall p, In p (expr_reads e) -> s p <> None.
Proof.
  intros H p Hp E. destruct e; cbn [eval_expr expr_reads In] in *; unfold getattr in H.
  - contradiction.
  - destruct Hp as [<-|[]]. now rewrite E in H.
  - destruct Hp as [<-|[]]. now rewrite E in H.
  - inv_ok H. inv_ok H. destruct Hp as [<-|[<-|[]]]; rewrite E in *; discriminate.
  - destruct Hp as [<-|[]]. now rewrite E in H.
  - inv_ok H. inv_ok H. inv_ok H. destruct Hp as [<-|[<-|[<-|[]]]]; rewrite E in *; discriminate.
Qed.
Definition final_default (q : path) (L : list stmt) : option expr :=
  match split_at q L with
  | Some (_, x, b) =>
    match conds x with
    | [] => if (guarded q b && forallb (fun r => guarded r (x :: b)) (expr_reads (rhs x)))%bool
            then Some (rhs x) else None
    | _ => None end
  | None => None
  end.
Lemma final_default_ok L s s' q e : exec_all s L = Ok s' -> final_default q L = Some e -> s q = None ->
  exists v, s' q = Some v /\ eval_expr s' e = Ok v.
Proof.
  unfold final_default. intros H Hd Hn. destruct (split_at q L) as [[[a x] b]|] eqn:Es; [|discriminate].
  destruct (conds x) eqn:Ec; [|discriminate]. destruct (guarded q b) eqn:Eg; [|discriminate]. cbn [andb] in Hd.
  destruct (forallb _ _) eqn:Er; [|discriminate]. injection Hd as <-.
  destruct (default_lemma _ _ _ _ _ _ _ H Es Ec Hn Eg) as (s1 & v & H1 & Ev & H2 & Hv).
  exists v. split; auto. rewrite <- Ev. symmetry. apply expr_reads_ok. intros r Hr.
  pose proof (reads_present _ _ _ Ev r Hr) as Hp. destruct (s1 r) as [w|] eqn:Ew; [|congruence].
  pose proof (split_ok _ _ _ _ _ Es) as (-> & <- & Hu).
  apply all_app in H as (s1' & H1' & H). rewrite H1 in H1'. injection H1' as <-.
  rewrite forallb_forall in Er. symmetry. exact (all_keep _ _ _ _ _ H Ew (Er r Hr)).
Qed.

Ltac derived_by Hn :=
  match type of Hn with ?s ?q = None =>
    match goal with H : set_optional_variables ?h ?c s = Ok ?s' |- _ =>
      let X := fresh "X" in
      pose proof (final_default_ok (program h c) s s' q _ H ltac:(vm_compute; reflexivity) Hn) as X;
      let v := fresh "v" in let Ev := fresh "Ev" in let Ee := fresh "Ee" in
      destruct X as (v & Ev & Ee); cbn [eval_expr] in Ee
    end
  end.

Lemma last_app h t : t <> "" -> get (String.length (h ++ t) - 1) (h ++ t) = get (String.length t - 1) t.
Proof.
  intros Ht. induction h as [|c h IH]; [reflexivity|].
  change (String c h ++ t) with (String c (h ++ t)). cbn [String.length]. rewrite <- IH.
  destruct (h ++ t) as [|d r] eqn:E.
  - destruct h; [cbn in E; contradiction|discriminate].
  - cbn [String.length]. replace (S (S (String.length r)) - 1)%nat with (S (String.length r)) by lia.
    replace (S (String.length r) - 1)%nat with (String.length r) by lia. reflexivity.
Qed.

(* Result and data files go under the data directory of the installation. *)
Theorem C77_default_directories home cpus s s' :
  set_optional_variables home cpus s = Ok s' ->
  home <> "" -> ends_slash home = false ->
  forall name, In name ["brief"; "config"; "ws"; "jac"] -> s ["path"; name] = None ->
  s' ["path"; name] = Some (VStr (home ++ "/data/" ++ name)).
Proof.
  intros H Hh He name Hin Hn.
  assert (Hf : s' ["path"; "falco"] = Some (VStr home)).
  { assert (E : exists a b, split_at ["path"; "falco"] (program home cpus) =
        Some (a, mkst [] ["path"; "falco"] false (EC (VStr home)), b) /\ untouched ["path"; "falco"] b = true).
    { do 2 eexists. split; [cbv; reflexivity|vm_compute; reflexivity]. }
    destruct E as (a & b & E & U). apply split_ok in E as (E & _ & _).
    unfold set_optional_variables in H. rewrite E in H. apply all_app in H as (s1 & _ & H).
    apply all_cons in H as (s2 & H1 & H2). rewrite (all_frame _ _ _ _ H2 U).
    apply exec_cases in H1 as [(X & _)|[(_ & _ & X & _)|(_ & _ & _ & v & Ev & ->)]]; [discriminate..|].
    cbn in Ev. injection Ev as <-. apply upd_eq. }
  assert (J : forall b, fold_left join2 ["data"; b] home = if prefix "/" b then b else home ++ "/data/" ++ b).
  { intros b. cbn [fold_left]. unfold join2 at 2. cbn [prefix]. 
    destruct (ascii_dec "/" "d"); [discriminate|]. apply String.eqb_neq in Hh. rewrite Hh, He. cbn [orb].
    unfold join2. destruct (prefix "/" b); [reflexivity|].
    assert (N : String.eqb (home ++ "/" ++ "data") "" = false) by (destruct home; reflexivity). rewrite N.
    assert (Z : ends_slash (home ++ "/" ++ "data") = false).
    { unfold ends_slash. rewrite last_app by discriminate. reflexivity. }
    rewrite Z. cbn [orb]. clear.
    assert (A : forall x y z : string, (x ++ y) ++ z = x ++ y ++ z).
    { intros x y z. induction x as [|c x IH]; cbn [append]; [reflexivity|]. now rewrite IH. }
    rewrite A. reflexivity. }
  cbn [In] in Hin. destruct Hin as [<-|[<-|[<-|[<-|[]]]]]; derived_by Hn; rewrite Ev; unfold getattr in Ee; rewrite Hf in Ee; cbn [rbind] in Ee;
    rewrite J in Ee; cbn [prefix] in Ee; (destruct (ascii_dec _ _); [discriminate|]); congruence.
Qed.

Lemma dim_ok n : (0 <= n)%Z -> dimension (VInt n) = Ok n.
Proof. intros H. cbn. destruct (Z.ltb_spec n 0); [lia|reflexivity]. Qed.

(* Per-star and per-sub-band vectors have one entry per star or sub-band. *)
Theorem C77_default_vectors home cpus s s' :
  set_optional_variables home cpus s = Ok s' ->
  (forall n, (0 <= n)%Z -> s' ["compact"; "star"; "count"] = Some (VInt n) -> s ["jac"; "star"; "weights"] = None ->
     s' ["jac"; "star"; "weights"] = Some (VArr (repeat 1 (Z.to_nat n)))) /\
  (forall n, (0 <= n)%Z -> s ["Nsbp"] = Some (VInt n) ->
     (s ["detector"; "peakFluxVec"] = None -> s' ["detector"; "peakFluxVec"] = Some (VArr (repeat 100000000 (Z.to_nat n)))) /\
     (s ["detector"; "tExpVec"] = None -> s' ["detector"; "tExpVec"] = Some (VArr (repeat 1 (Z.to_nat n))))).
Proof.
  intros H. split.
  - intros n Hn Hc Hm. derived_by Hm. rewrite Ev. unfold getattr in Ee. rewrite Hc in Ee. cbn [rbind] in Ee.
    rewrite dim_ok in Ee by assumption. cbn [rbind] in Ee. injection Ee as <-. reflexivity.
  - intros n Hn Hc.
    assert (Hs : s' ["Nsbp"] = Some (VInt n)) by (rewrite (all_frame _ _ _ ["Nsbp"] H); [exact Hc|vm_compute; reflexivity]).
    split; intros Hm; derived_by Hm; rewrite Ev; unfold getattr in Ee; rewrite Hs in Ee; cbn [rbind] in Ee;
      rewrite dim_ok in Ee by assumption; cbn [rbind] in Ee; injection Ee as <-; reflexivity.
Qed.

(* Voltage limits: 0 to 1000 V in simulation, 0 to 100 V otherwise. *)
Lemma branch_value home cpus s s' d a v1 v0 (b : bool) : set_optional_variables home cpus s = Ok s' ->
  s ["flagSim"] = Some (VBool b) -> s [d; a] = None ->
  (exists l1 x l2 l3 y l4, program home cpus = (l1 ++ x :: l2)%list /\ l2 = (l3 ++ y :: l4)%list /\
     untouched [d; a] l1 = true /\ untouched [d; a] l3 = true /\ guarded [d; a] l4 = true /\
     untouched ["flagSim"] (l1 ++ x :: l3)%list = true /\
     x = mkst [GTrue ["flagSim"] true] [d; a] true (EC (VNum v1)) /\
     y = mkst [GTrue ["flagSim"] false] [d; a] true (EC (VNum v0))) ->
  s' [d; a] = Some (VNum (if b then v1 else v0)).
Proof.
  intros H Hf Hn (l1 & x & l2 & l3 & y & l4 & EL & E2 & U1 & U3 & G4 & UF & Ex & Ey).
  unfold set_optional_variables in H. rewrite EL, E2 in H.
  assert (E : (l1 ++ x :: l3 ++ y :: l4)%list = ((l1 ++ [x]) ++ l3 ++ y :: l4)%list) by now rewrite <- app_assoc.
  apply all_app in H as (s1 & H1 & H). apply all_cons in H as (s2 & H2 & H). apply all_app in H as (s3 & H3 & H).
  apply all_cons in H as (s4 & H4 & H).
  unfold untouched in UF. rewrite forallb_app in UF. apply andb_prop in UF as (UF1 & UF2). cbn [forallb] in UF2. apply andb_prop in UF2 as (UF2 & UF3).
  assert (F1 : s1 ["flagSim"] = Some (VBool b)) by (rewrite (all_frame _ _ _ _ H1 UF1); auto).
  assert (F3 : s3 ["flagSim"] = Some (VBool b)).
  { rewrite (all_frame _ _ _ _ H3 UF3). destruct (path_dec (target x) ["flagSim"]) as [|Hne]; [discriminate|].
    rewrite (exec_frame _ _ _ _ H2); auto. }
  assert (N1 : s1 [d; a] = None) by (rewrite (all_frame _ _ _ _ H1 U1); auto).
  assert (Gd : forall z c, z ["flagSim"] = Some (VBool b) -> eval_guards z [GTrue ["flagSim"] c] = Ok (Bool.eqb b c)).
  { intros z c Hz. cbn [eval_guards eval_guard]. unfold getattr. rewrite Hz. cbn. now destruct b, c. }
  assert (G3 : guarded [d; a] l3 = true) by now apply untouched_guarded.
  assert (Gy : guarded [d; a] (y :: l4) = true).
  { unfold guarded in *. cbn [forallb]. rewrite G4, Ey. cbn [only_missing target]. now destruct (path_dec [d; a] [d; a]). }
  apply exec_cases in H2 as [(X & ->)|[(_ & _ & _ & X & _)|(X & _ & _ & v & Ev & ->)]]; rewrite Ex in *; cbn [conds target rhs] in *.
  - rewrite (Gd _ _ F1) in X. injection X as Eb. destruct b; [discriminate|].
    assert (N3 : s3 [d; a] = None) by (rewrite (all_frame _ _ _ _ H3 U3); auto).
    apply exec_cases in H4 as [(X & _)|[(_ & _ & _ & X & _)|(_ & _ & _ & v & Ev & ->)]]; rewrite Ey in *; cbn [conds target rhs] in *.
    + rewrite (Gd _ _ F3) in X. discriminate.
    + congruence.
    + cbn in Ev. injection Ev as <-. apply (all_keep _ _ _ _ _ H); auto. apply upd_eq.
  - congruence.
  - rewrite (Gd _ _ F1) in X. injection X as Eb. destruct b; [|discriminate].
    cbn in Ev. injection Ev as <-.
    assert (K : s3 [d; a] = Some (VNum v1)) by (apply (all_keep _ _ _ _ _ H3); auto; apply upd_eq).
    assert (Hy : exec_all s3 (y :: l4) = Ok s') by (cbn [exec_all]; rewrite H4; exact H).
    exact (all_keep _ _ _ _ _ Hy K Gy).
Qed.
Lemma cut {A} n (x : A) (L : list A) : nth_error L n = Some x -> L = (firstn n L ++ x :: skipn (S n) L)%list.
Proof.
  revert L; induction n as [|n IH]; intros [|y L] E; try discriminate; cbn in *.
  - now injection E as ->.
  - f_equal. now apply IH.
Qed.
Ltac branch_at n m :=
  match goal with |- context[program ?h ?c] =>
    exists (firstn n (program h c)); eexists; exists (skipn (S n) (program h c));
    exists (firstn (m - S n) (skipn (S n) (program h c))); eexists; exists (skipn (S (m - S n)) (skipn (S n) (program h c)));
    split; [apply cut; reflexivity|]; split; [apply cut; reflexivity|];
    split; [vm_compute; reflexivity|]; split; [vm_compute; reflexivity|]; split; [vm_compute; reflexivity|];
    split; [vm_compute; reflexivity|]; split; reflexivity
  end.
Theorem C77_voltage_limits home cpus s s' d (sim : bool) :
  set_optional_variables home cpus s = Ok s' -> In d ["dm1"; "dm2"] -> s ["flagSim"] = Some (VBool sim) ->
  (s [d; "Vmin"] = None -> s' [d; "Vmin"] = Some (VNum 0)) /\
  (s [d; "Vmax"] = None -> s' [d; "Vmax"] = Some (VNum (if sim then 1000 else 100))) /\
  (* neighbour limits, bias and flat map follow the final voltage limit *)
  (s [d; "dVnbrLat"] = None -> s' [d; "dVnbrLat"] = s' [d; "Vmax"]) /\
  (s [d; "dVnbrDiag"] = None -> s' [d; "dVnbrDiag"] = s' [d; "Vmax"]) /\
  (forall n x, s [d; "biasMap"] = None -> (0 <= n)%Z -> s [d; "Nact"] = Some (VInt n) -> s' [d; "Vmax"] = Some (VNum x) ->
     s' [d; "biasMap"] = Some (VMat n n (x / 2))) /\
  (s [d; "facesheetFlatmap"] = None -> s' [d; "facesheetFlatmap"] = s' [d; "biasMap"]).
Proof.
  intros H Hd Hs. cbn [In] in Hd.
  assert (G : forall q v e, s' q = Some v -> eval_expr s' (EGet e) = Ok v -> s' q = s' e).
  { intros q v e Eq Ee. cbn in Ee. unfold getattr in Ee. destruct (s' e); congruence. }
  destruct Hd as [<-|[<-|[]]].
  - split; [|split; [|split; [|split; [|split]]]].
    + intros Hn. replace 0 with (if sim then 0 else 0) by now destruct sim. eapply branch_value; eauto. branch_at 90%nat 92%nat.
    + intros Hn. eapply branch_value; eauto. branch_at 91%nat 93%nat.
    + intros Hn. derived_by Hn. eapply G; eauto.
    + intros Hn. derived_by Hn. eapply G; eauto.
    + intros n x Hn Hp Ha Hv. derived_by Hn. rewrite Ev. unfold getattr in Ee. rewrite Hv in Ee. cbn [rbind number] in Ee.
      rewrite (all_frame _ _ _ _ H) in Ee by (vm_compute; reflexivity). rewrite Ha in Ee. cbn [rbind] in Ee.
      rewrite dim_ok in Ee by assumption. cbn [rbind] in Ee. injection Ee as <-. reflexivity.
    + intros Hn. derived_by Hn. eapply G; eauto.
  - split; [|split; [|split; [|split; [|split]]]].
    + intros Hn. replace 0 with (if sim then 0 else 0) by now destruct sim. eapply branch_value; eauto. branch_at 106%nat 108%nat.
    + intros Hn. eapply branch_value; eauto. branch_at 107%nat 109%nat.
    + intros Hn. derived_by Hn. eapply G; eauto.
    + intros Hn. derived_by Hn. eapply G; eauto.
    + intros n x Hn Hp Ha Hv. derived_by Hn. rewrite Ev. unfold getattr in Ee. rewrite Hv in Ee. cbn [rbind number] in Ee.
      rewrite (all_frame _ _ _ _ H) in Ee by (vm_compute; reflexivity). rewrite Ha in Ee. cbn [rbind] in Ee.
      rewrite dim_ok in Ee by assumption. cbn [rbind] in Ee. injection Ee as <-. reflexivity.
    + intros Hn. derived_by Hn. eapply G; eauto.
Qed.

(* ---- the attributes the toolbox owns ---- *)
Lemma overwrite_lemma L s s' q n x : exec_all s L = Ok s' -> nth_error L n = Some x -> target x = q -> only_missing x = false ->
  untouched q (firstn n L) = true -> untouched q (skipn (S n) L) = true ->
  exists s1, exec_all s (firstn n L) = Ok s1 /\ s1 q = s q /\
    ((eval_guards s1 (conds x) = Ok false /\ s' q = s q) \/
     (eval_guards s1 (conds x) = Ok true /\ exists v, eval_expr s1 (rhs x) = Ok v /\ s' q = Some v)).
Proof.
  intros H En Et Em Ua Ub. rewrite (cut _ _ _ En) in H. apply all_app in H as (s1 & H1 & H). apply all_cons in H as (s2 & H2 & H3).
  exists s1. split; auto. split; [exact (all_frame _ _ _ _ H1 Ua)|].
  rewrite (all_frame _ _ _ _ H3 Ub).
  apply exec_cases in H2 as [(E & ->)|[(_ & _ & E & _)|(E & _ & _ & v & Ev & ->)]].
  - left. split; auto. exact (all_frame _ _ _ _ H1 Ua).
  - congruence.
  - right. split; auto. exists v. split; auto. rewrite Et. apply upd_eq.
Qed.
(* position of the only statement assigning q *)
Fixpoint where_is (q : path) (L : list stmt) : nat :=
  match L with [] => 0 | st :: t => if path_dec (target st) q then 0 else S (where_is q t) end.
Ltac overwrite q :=
  match goal with H : set_optional_variables ?h ?c ?s = Ok ?s' |- _ =>
    let n := eval vm_compute in (where_is q (program h c)) in
    let s1 := fresh "s1" in let H1 := fresh "H1" in let Hq := fresh "Hq" in let Hc := fresh "Hc" in
    destruct (overwrite_lemma (program h c) s s' q n _ H eq_refl eq_refl eq_refl ltac:(vm_compute; reflexivity) ltac:(vm_compute; reflexivity))
      as (s1 & H1 & Hq & Hc); cbn [conds rhs nth_error] in Hc
  end.
Ltac overwrite_const q :=
  overwrite q; match goal with H : _ \/ _ |- _ => destruct H as [(Hx & _)|(_ & v & Hv & Hs)]; [discriminate|]; cbn in Hv; injection Hv as <-; exact Hs end.

(* Counters are zeroed for every DM and the installation path is the real one, whatever was there. *)
Theorem C77_counters_reset home cpus s s' :
  set_optional_variables home cpus s = Ok s' ->
  s' ["path"; "falco"] = Some (VStr home) /\
  forall d, In d dms -> s' [d; "NactTotal"] = Some (VInt 0) /\ s' [d; "Nele"] = Some (VInt 0).
Proof.
  intros H. split; [overwrite_const ["path"; "falco"]|].
  intros d Hd. cbn [dms In] in Hd.
  repeat destruct Hd as [<-|Hd]; [..|contradiction];
    (split; match goal with |- _ ?q = _ => overwrite_const q end).
Qed.

(* mas2lam0D converts milliarcseconds to lambda0/D: one lambda0/D, expressed in mas, times it is 1. *)
Theorem C77_mas_conversion home cpus s s' x y :
  set_optional_variables home cpus s = Ok s' ->
  s ["lambda0"] = Some (VNum x) -> s ["P1"; "D"] = Some (VNum y) ->
  x <> 0 /\ y <> 0 /\ exists m, s' ["mas2lam0D"] = Some (VNum m) /\ m * ((x / y) * (180 / PI) * 3600 * 1000) = 1.
Proof.
  intros H Hx Hy. overwrite ["mas2lam0D"]. destruct Hc as [(E & _)|(_ & v & Hv & Hs)]; [discriminate|].
  cbn [eval_expr] in Hv. unfold getattr in Hv.
  rewrite (all_frame _ _ _ ["lambda0"] H1) in Hv by (vm_compute; reflexivity).
  rewrite (all_frame _ _ _ ["P1"; "D"] H1) in Hv by (vm_compute; reflexivity).
  rewrite Hx, Hy in Hv. cbn [rbind number] in Hv. inv_ok Hv. cbn [rbind] in Hv.
  destruct (Req_EM_T y 0) as [|Ny]; [discriminate|]. destruct (Req_EM_T x 0) as [|Nx]; [discriminate|].
  injection Hv as <-. split; [assumption|]. split; [assumption|]. eexists. split; [exact Hs|]. pose proof PI_RGT_0. field. repeat split; try assumption; lra.
Qed.

(* The starting commands of DM 8 and DM 9 are stashed when given and left alone otherwise. *)
Theorem C77_stash home cpus s s' :
  set_optional_variables home cpus s = Ok s' ->
  s' ["DM8V0"] = match s ["dm8"; "V"] with Some v => Some v | None => s ["DM8V0"] end /\
  s' ["DM9V0"] = match s ["dm9"; "V"] with Some v => Some v | None => s ["DM9V0"] end.
Proof.
  intros H. split.
  - overwrite ["DM8V0"]. cbn [eval_guards eval_guard eval_expr removelast getobj] in Hc. unfold getattr in Hc.
    pose proof (all_frame _ _ _ ["dm8"; "V"] H1 ltac:(vm_compute; reflexivity)) as F.
    assert (P : s1 ["dm8"] <> None).
    { match type of H1 with exec_all _ ?L = _ =>
        destruct (s ["dm8"]) eqn:E; [rewrite (all_keep _ _ _ _ _ H1 E); [discriminate|vm_compute; reflexivity]|] end.
      destruct (default_lemma _ _ _ ["dm8"] _ _ _ H1 ltac:(vm_compute; reflexivity) eq_refl E ltac:(vm_compute; reflexivity)) as (? & v & _ & _ & _ & ->). discriminate. }
    destruct (s1 ["dm8"]) eqn:E8; [|congruence]. cbn [rbind] in Hc. rewrite F in Hc.
    destruct (s ["dm8"; "V"]); destruct Hc as [(X & Y)|(X & w & Ew & Y)]; congruence.
  - overwrite ["DM9V0"]. cbn [eval_guards eval_guard eval_expr removelast getobj] in Hc. unfold getattr in Hc.
    pose proof (all_frame _ _ _ ["dm9"; "V"] H1 ltac:(vm_compute; reflexivity)) as F.
    assert (P : s1 ["dm8"] <> None /\ s1 ["dm9"] <> None).
    { split; [destruct (s ["dm8"]) eqn:E|destruct (s ["dm9"]) eqn:E];
       try (rewrite (all_keep _ _ _ _ _ H1 E); [discriminate|vm_compute; reflexivity]);
       match type of E with _ ?q = _ =>
      destruct (default_lemma _ _ _ q _ _ _ H1 ltac:(vm_compute; reflexivity) eq_refl E ltac:(vm_compute; reflexivity)) as (? & v & _ & _ & _ & ->) end; discriminate. }
    destruct P as (P8 & P9).
    destruct (s1 ["dm8"]) eqn:E8; [|congruence]. destruct (s1 ["dm9"]) eqn:E9; [|congruence]. cbn [rbind] in Hc. rewrite F in Hc.
    destruct (s ["dm9"; "V"]); destruct Hc as [(X & Y)|(X & w & Ew & Y)]; congruence.
Qed.

(* The voltage increments used by the Kalman filters: zeroed for exactly the DMs listed in dm_ind,
   when dm_ind is a numpy array. *)
Definition dm_name (k : Z) : string := nth (Z.to_nat (k - 1)) dms "".
Theorem C77_increments home cpus s s' l k :
  set_optional_variables home cpus s = Ok s' -> s ["dm_ind"] = Some (VArr l) -> (1 <= k <= 9)%Z ->
  (In (IZR k) l -> s' [dm_name k; "dV"] = Some (VInt 0)) /\
  (~ In (IZR k) l -> s' [dm_name k; "dV"] = s [dm_name k; "dV"]).
Proof.
  intros H Hl Hk.
  assert (B : forall k, (if existsb (fun x => if Req_EM_T x (IZR k) then true else false) l then true else false) = true <-> In (IZR k) l).
  { intros j. destruct (existsb _ l) eqn:E.
    - split; auto. intros _. apply existsb_exists in E as (x & Hx & Ex). destruct (Req_EM_T x (IZR j)); [now subst|discriminate].
    - split; [discriminate|]. intros Hin. assert (X : existsb (fun x => if Req_EM_T x (IZR j) then true else false) l = true).
      { apply existsb_exists. exists (IZR j). split; auto. destruct (Req_EM_T (IZR j) (IZR j)); congruence. }
      congruence. }
  assert (K : (k = 1 \/ k = 2 \/ k = 3 \/ k = 4 \/ k = 5 \/ k = 6 \/ k = 7 \/ k = 8 \/ k = 9)%Z) by lia.
  repeat destruct K as [->|K]; try subst k;
  (match goal with |- context[dm_name ?j] => let d := eval vm_compute in (dm_name j) in change (dm_name j) with d; overwrite [d; "dV"]; specialize (B j) end;
   cbn [eval_guards eval_guard eval_expr] in Hc; unfold getattr in Hc;
   rewrite (all_frame _ _ _ ["dm_ind"] H1) in Hc by (vm_compute; reflexivity); rewrite Hl in Hc; cbn [rbind any_eq] in Hc;
   destruct B as (B1 & B2); destruct (existsb _ l); cbn in Hc; destruct Hc as [(X & Y)|(X & w & Ew & Y)]; try discriminate;
   (split; intros Hin);
   first [ exfalso; apply Hin, B1; reflexivity | exfalso; specialize (B2 Hin); discriminate | congruence ]).
Qed.

(* With dm_ind given as a plain Python list, as the documentation of dm_ind allows elsewhere, the
   comparison `mp.dm_ind == 1` is False and no increment is initialised: the claim without the
   restriction to arrays is false. *)
Theorem C77_list_dm_ind_refuted home cpus s s' l k :
  set_optional_variables home cpus s = Ok s' -> s ["dm_ind"] = Some (VList l) -> (1 <= k <= 9)%Z ->
  s' [dm_name k; "dV"] = s [dm_name k; "dV"].
Proof.
  intros H Hl Hk.
  assert (K : (k = 1 \/ k = 2 \/ k = 3 \/ k = 4 \/ k = 5 \/ k = 6 \/ k = 7 \/ k = 8 \/ k = 9)%Z) by lia.
  repeat destruct K as [->|K]; try subst k;
  (match goal with |- context[dm_name ?j] => let d := eval vm_compute in (dm_name j) in change (dm_name j) with d; overwrite [d; "dV"] end;
   cbn [eval_guards eval_guard eval_expr] in Hc; unfold getattr in Hc;
   rewrite (all_frame _ _ _ ["dm_ind"] H1) in Hc by (vm_compute; reflexivity); rewrite Hl in Hc; cbn [rbind any_eq] in Hc;
   destruct Hc as [(X & Y)|(X & _)]; [exact Y|discriminate]).
Qed.

(* ---- which scripts are accepted ---- *)
Definition schema (p : path) : ty :=
  match find (fun e => if path_dec (fst e) p then true else false) (must_be ++ if_given)%list with
  | Some (_, k) => TK k | None => TAny end.
Definition start : env := (["dm_ind"], TAny) :: map (fun e => (fst e, TK (snd e))) must_be.

Lemma acceptable_start s : acceptable s -> knows start s /\ fits schema s.
Proof.
  intros (A & (v & B) & C). split.
  - intros p t. unfold start. cbn [look]. destruct (path_dec ["dm_ind"] p) as [<-|_].
    + intros E. injection E as <-. exists v. split; [exact B|exact I].
    + intros E. assert (X : exists k, t = TK k /\ In (p, k) must_be).
      { revert E. clear. induction must_be as [|[q k] l IH]; cbn [map look fst snd]; [discriminate|].
        destruct (path_dec q p) as [->|]; intros E.
        - injection E as <-. exists k. split; [reflexivity|now left].
        - destruct (IH E) as (k' & Et & Hin). exists k'. split; [assumption|now right]. }
      destruct X as (k & -> & Hin). exact (A p k Hin).
  - intros p w Hw. unfold schema. destruct (find _ _) as [[q k]|] eqn:E; [|exact I].
    apply find_some in E as (Hin & E). cbn [fst] in E. destruct (path_dec q p) as [->|]; [|discriminate].
    apply in_app_or in Hin as [Hin|Hin].
    + destruct (A p k Hin) as (u & Hu & Hk). rewrite Hw in Hu. injection Hu as <-. exact Hk.
    + exact (C p k w Hin Hw).
Qed.

(* A script that gives the parameters in [must_be], and whose other structures are objects, is
   accepted: initialisation never fails on it. *)
Theorem C77_acceptable_succeeds home cpus s : acceptable s -> exists s', set_optional_variables home cpus s = Ok s'.
Proof.
  intros Ha. destruct (acceptable_start _ Ha) as (HK & HF). unfold set_optional_variables.
  set (P := program home cpus).
  assert (EP : P = (firstn 90 P ++ firstn 4 (skipn 90 P) ++ firstn 12 (skipn 94 P) ++ firstn 4 (skipn 106 P) ++ skipn 110 P)%list)
    by reflexivity.
  assert (Hf : exists b, s ["flagSim"] = Some (VBool b)).
  { destruct Ha as (A & _). destruct (A ["flagSim"] Yes_no) as (v & Hv & (b & ->)); [cbn; tauto|]. eauto. }
  destruct Hf as (b & Hf).
  destruct (ty_prog schema start (firstn 90 P)) as [G1|] eqn:T1; [|vm_compute in T1; discriminate].
  destruct (prog_ok _ _ _ _ _ HK HF T1) as (s1 & R1 & K1 & F1).
  destruct (ty_prog schema G1 (firstn 4 (skipn 90 P))) as [G2|] eqn:T2;
    [|vm_compute in T1; injection T1 as <-; vm_compute in T2; discriminate].
  destruct (prog_ok _ _ _ _ _ K1 F1 T2) as (s2 & R2 & K2 & F2).
  assert (V2 : s2 ["dm1"; "Vmax"] <> None).
  { eapply either_branch; [..|exact R2]; [|discriminate|discriminate].
    rewrite (all_frame _ _ _ ["flagSim"] R1 ltac:(vm_compute; reflexivity)). exact Hf. }
  assert (K2' : knows ((["dm1"; "Vmax"], TK Number) :: G2) s2).
  { intros p t. cbn [look]. destruct (path_dec ["dm1"; "Vmax"] p) as [<-|]; [|apply K2]. intros E. injection E as <-.
    destruct (s2 ["dm1"; "Vmax"]) as [v|] eqn:Ev; [|congruence]. exists v. split; auto. exact (F2 _ _ Ev). }
  destruct (ty_prog schema ((["dm1"; "Vmax"], TK Number) :: G2) (firstn 12 (skipn 94 P))) as [G3|] eqn:T3;
    [|vm_compute in T1; injection T1 as <-; vm_compute in T2; injection T2 as <-; vm_compute in T3; discriminate].
  destruct (prog_ok _ _ _ _ _ K2' F2 T3) as (s3 & R3 & K3 & F3).
  destruct (ty_prog schema G3 (firstn 4 (skipn 106 P))) as [G4|] eqn:T4;
    [|vm_compute in T1; injection T1 as <-; vm_compute in T2; injection T2 as <-; vm_compute in T3; injection T3 as <-; vm_compute in T4; discriminate].
  destruct (prog_ok _ _ _ _ _ K3 F3 T4) as (s4 & R4 & K4 & F4).
  assert (V4 : s4 ["dm2"; "Vmax"] <> None).
  { eapply either_branch; [..|exact R4]; [|discriminate|discriminate].
    rewrite (all_frame _ _ _ ["flagSim"] R3 ltac:(vm_compute; reflexivity)).
    rewrite (all_frame _ _ _ ["flagSim"] R2 ltac:(vm_compute; reflexivity)).
    rewrite (all_frame _ _ _ ["flagSim"] R1 ltac:(vm_compute; reflexivity)). exact Hf. }
  assert (K4' : knows ((["dm2"; "Vmax"], TK Number) :: G4) s4).
  { intros p t. cbn [look]. destruct (path_dec ["dm2"; "Vmax"] p) as [<-|]; [|apply K4]. intros E. injection E as <-.
    destruct (s4 ["dm2"; "Vmax"]) as [v|] eqn:Ev; [|congruence]. exists v. split; auto. exact (F4 _ _ Ev). }
  destruct (ty_prog schema ((["dm2"; "Vmax"], TK Number) :: G4) (skipn 110 P)) as [G5|] eqn:T5;
    [|vm_compute in T1; injection T1 as <-; vm_compute in T2; injection T2 as <-; vm_compute in T3; injection T3 as <-;
      vm_compute in T4; injection T4 as <-; vm_compute in T5; discriminate].
  destruct (prog_ok _ _ _ _ _ K4' F4 T5) as (s5 & R5 & _ & _).
  exists s5. rewrite EP. apply all_app. exists s1. split; [exact R1|]. apply all_app. exists s2. split; [exact R2|].
  apply all_app. exists s3. split; [exact R3|]. apply all_app. exists s4. split; [exact R4|]. exact R5.
Qed.

(* And the parameters it insists on are really needed. *)
Theorem C77_missing_refused home cpus s s' :
  set_optional_variables home cpus s = Ok s' ->
  (forall p, In p [["ctrl"]; ["F3"]; ["Fend"]; ["P1"]; ["flagSim"]; ["dm_ind"]; ["lambda0"]; ["P1"; "D"]] -> s p <> None) /\
  (s ["Nsbp"] = None -> s ["detector"; "peakFluxVec"] <> None /\ s ["detector"; "tExpVec"] <> None) /\
  (forall d, In d ["dm1"; "dm2"] -> s [d; "Nact"] = None -> s [d; "biasMap"] <> None).
Proof.
  intros H.
  assert (At : forall n x p, nth_error (program home cpus) n = Some x -> untouched p (firstn n (program home cpus)) = true ->
    exists s1 s2, exec s1 x = Ok s2 /\ s1 p = s p).
  { intros n x p En U. unfold set_optional_variables in H. rewrite (cut _ _ _ En) in H. apply all_app in H as (s1 & H1 & H).
    apply all_cons in H as (s2 & H2 & _). exists s1, s2. split; auto. exact (all_frame _ _ _ _ H1 U). }
  split; [|split].
  - intros p Hp E. cbn [In] in Hp.
    destruct Hp as [<-|[<-|[<-|[<-|[<-|[<-|[<-|[<-|[]]]]]]]]].
    + destruct (At 26%nat _ ["ctrl"] eq_refl ltac:(vm_compute; reflexivity)) as (s1 & s2 & X & Y).
      unfold exec in X. cbn in X. unfold getattr in X. rewrite Y, E in X. discriminate.
    + destruct (At 48%nat _ ["F3"] eq_refl ltac:(vm_compute; reflexivity)) as (s1 & s2 & X & Y).
      unfold exec in X. cbn in X. unfold getattr in X. rewrite Y, E in X. discriminate.
    + destruct (At 143%nat _ ["Fend"] eq_refl ltac:(vm_compute; reflexivity)) as (s1 & s2 & X & Y).
      unfold exec in X. cbn in X. unfold getattr in X. rewrite Y, E in X. discriminate.
    + destruct (At 145%nat _ ["P1"] eq_refl ltac:(vm_compute; reflexivity)) as (s1 & s2 & X & Y).
      unfold exec in X. cbn in X. unfold getattr in X. rewrite Y, E in X. discriminate.
    + destruct (At 90%nat _ ["flagSim"] eq_refl ltac:(vm_compute; reflexivity)) as (s1 & s2 & X & Y).
      unfold exec in X. cbn in X. unfold getattr in X. rewrite Y, E in X. discriminate.
    + destruct (At 118%nat _ ["dm_ind"] eq_refl ltac:(vm_compute; reflexivity)) as (s1 & s2 & X & Y).
      unfold exec in X. cbn in X. unfold getattr in X. rewrite Y, E in X. discriminate.
    + destruct (At 142%nat _ ["lambda0"] eq_refl ltac:(vm_compute; reflexivity)) as (s1 & s2 & X & Y).
      unfold exec in X. cbn in X. unfold getattr in X. rewrite Y, E in X. discriminate.
    + destruct (At 142%nat _ ["P1"; "D"] eq_refl ltac:(vm_compute; reflexivity)) as (s1 & s2 & X & Y).
      unfold exec in X. cbn in X. unfold getattr in X. rewrite Y, E in X.
      destruct (s1 ["lambda0"]); [|discriminate]. destruct (s1 ["P1"]); discriminate.
  - intros E. split; intros Hn; derived_by Hn; unfold getattr in Ee;
      rewrite (all_frame _ _ _ ["Nsbp"] H ltac:(vm_compute; reflexivity)), E in Ee; discriminate.
  - intros d Hd E Hn. cbn [In] in Hd. destruct Hd as [<-|[<-|[]]]; derived_by Hn; unfold getattr in Ee;
      [rewrite (all_frame _ _ _ ["dm1"; "Nact"] H ltac:(vm_compute; reflexivity)), E in Ee
      |rewrite (all_frame _ _ _ ["dm2"; "Nact"] H ltac:(vm_compute; reflexivity)), E in Ee]; inv_ok Ee; inv_ok Ee; discriminate.
Qed.

(* A concrete script: two DMs, simulation, its own voltage limit for DM 1 and a stale counter. *)
Definition script : store := fun p =>
  match find (fun e => if path_dec (fst e) p then true else false)
    [(["ctrl"], VObj); (["F3"], VObj); (["Fend"], VObj); (["P1"], VObj); (["P1"; "D"], VNum 2); (["lambda0"], VNum (1 / 2));
     (["flagSim"], VBool true); (["Nsbp"], VInt 3); (["dm_ind"], VArr [1; 2]); (["dm1"], VObj); (["dm1"; "Nact"], VInt 34);
     (["dm2"], VObj); (["dm2"; "Nact"], VInt 32); (["dm1"; "Vmax"], VNum 60); (["dm1"; "NactTotal"], VInt 7)] with
  | Some (_, v) => Some v | None => None end.
Example C77_example : acceptable script /\ forall home cpus, exists s',
  set_optional_variables home cpus script = Ok s' /\
  s' ["dm1"; "Vmax"] = Some (VNum 60) /\ s' ["dm1"; "NactTotal"] = Some (VInt 0) /\
  s' ["dm1"; "biasMap"] = Some (VMat 34 34 (60 / 2)) /\ s' ["dm2"; "biasMap"] = Some (VMat 32 32 (1000 / 2)) /\
  s' ["detector"; "tExpVec"] = Some (VArr [1; 1; 1]) /\ s' ["dm2"; "dV"] = Some (VInt 0) /\ s' ["dm3"; "dV"] = None.
Proof.
  assert (A : acceptable script).
  { split; [|split].
    - intros p k Hin. cbn [must_be In] in Hin.
      repeat (destruct Hin as [E|Hin]; [injection E as <- <-; eexists; (split; [vm_compute; reflexivity|]); cbn [of_kind];
        first [reflexivity | eexists; reflexivity | eexists; split; [reflexivity|lia]
              | eexists; split; [|left; reflexivity]; lra]|]). contradiction.
    - eexists. vm_compute. reflexivity.
    - intros p k v Hin. unfold if_given, created, dms in Hin. cbn [map app In] in Hin.
      repeat (destruct Hin as [E|Hin]; [injection E as <- <-; intros Hv; vm_compute in Hv;
        first [discriminate | injection Hv as <-; cbn [of_kind]; first [reflexivity | eexists; left; reflexivity]]|]). contradiction. }
  split; [exact A|]. intros home cpus. destruct (C77_acceptable_succeeds home cpus _ A) as (s' & H). exists s'.
  assert (V1 : s' ["dm1"; "Vmax"] = Some (VNum 60)).
  { apply (C77_script_values_kept _ _ _ _ _ _ H); [reflexivity|]. apply member_not. vm_compute. reflexivity. }
  destruct (C77_voltage_limits _ _ _ _ "dm1" true H ltac:(cbn; tauto) eq_refl) as (_ & _ & _ & _ & B1 & _).
  destruct (C77_voltage_limits _ _ _ _ "dm2" true H ltac:(cbn; tauto) eq_refl) as (_ & V2 & _ & _ & B2 & _).
  destruct (C77_default_vectors _ _ _ _ H) as (_ & W). destruct (W 3%Z ltac:(lia) eq_refl) as (_ & W2).
  split; [exact H|]. split; [exact V1|]. split; [apply (C77_counters_reset _ _ _ _ H); cbn; tauto|].
  split; [apply B1; [reflexivity|lia|reflexivity|exact V1]|].
  split; [apply B2; [reflexivity|lia|reflexivity|exact (V2 eq_refl)]|].
  split; [exact (W2 eq_refl)|].
  split; [apply (C77_increments _ _ _ _ [1; 2] 2 H); [reflexivity|lia|cbn; tauto]|].
  destruct (C77_increments _ _ _ _ [1; 2] 3 H eq_refl ltac:(lia)) as (_ & X). change (dm_name 3) with "dm3" in X. rewrite X; [reflexivity|].
  cbn. intros [E|[E|[]]]; lra.
Qed.
