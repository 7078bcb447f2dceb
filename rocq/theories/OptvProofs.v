(* Generic facts about the statement interpreter of OptvModel.v. *)
From Verif Require Import Base StrBase RBase OptvModel.
From Coq Require Import String.
Local Open Scope string_scope.

Definition same (a b : store) : Prop := forall p, a p = b p.
Lemma upd_eq s p v : upd s p v p = Some v.
Proof. unfold upd. now destruct (path_dec p p). Qed.
Lemma upd_ne s p v q : q <> p -> upd s p v q = s q.
Proof. unfold upd. destruct (path_dec p q); congruence. Qed.

Lemma rbind_ok {A B} (x : res A) (f : A -> res B) b : rbind x f = Ok b -> exists a, x = Ok a /\ f a = Ok b.
Proof. destruct x; [eauto|discriminate]. Qed.
Ltac inv_ok H :=
  match type of H with rbind _ _ = Ok _ => apply rbind_ok in H; let a := fresh "a" in let E := fresh "E" in
    destruct H as (a & E & H) end.

(* the four ways a statement can succeed *)
Lemma exec_cases s st s' : exec s st = Ok s' ->
  (eval_guards s (conds st) = Ok false /\ s' = s) \/
  (eval_guards s (conds st) = Ok true /\ (exists o, getobj s (removelast (target st)) = Ok o) /\
     only_missing st = true /\ s (target st) <> None /\ s' = s) \/
  (eval_guards s (conds st) = Ok true /\ getobj s (removelast (target st)) = Ok VObj /\
     (only_missing st = true -> s (target st) = None) /\
     exists v, eval_expr s (rhs st) = Ok v /\ s' = upd s (target st) v).
Proof.
  unfold exec, setattr. intros H. inv_ok H. destruct a; cbn [negb] in H.
  2: { left. split; [assumption|congruence]. }
  right. inv_ok H.
  destruct (only_missing st) eqn:Em.
  - destruct (s (target st)) eqn:Et.
    + left. repeat split; [assumption|eauto|congruence|congruence].
    + right. inv_ok H. rewrite E0 in H. cbn [rbind] in H.
      destruct a; try discriminate. repeat split; [assumption..|]. exists a0. split; [assumption|congruence].
  - right. inv_ok H. rewrite E0 in H. cbn [rbind] in H.
    destruct a; try discriminate. repeat split; [assumption|assumption|discriminate|]. exists a0. split; [assumption|congruence].
Qed.

Lemma exec_frame s st s' q : exec s st = Ok s' -> q <> target st -> s' q = s q.
Proof.
  intros H Hq. apply exec_cases in H as [(_ & ->)|[(_ & _ & _ & _ & ->)|(_ & _ & _ & v & _ & ->)]]; auto.
  now apply upd_ne.
Qed.
Lemma exec_keep s st s' q v : exec s st = Ok s' -> s q = Some v -> (target st = q -> only_missing st = true) -> s' q = Some v.
Proof.
  intros H Hq Hk. destruct (path_dec q (target st)) as [->|Hne].
  2: { now rewrite (exec_frame _ _ _ _ H Hne). }
  specialize (Hk eq_refl).
  apply exec_cases in H as [(_ & ->)|[(_ & _ & _ & _ & ->)|(_ & _ & Hn & v' & _ & ->)]]; auto.
  rewrite (Hn Hk) in Hq. discriminate.
Qed.
Lemma exec_present s st s' q : exec s st = Ok s' -> s q <> None -> s' q <> None.
Proof.
  intros H Hq. destruct (path_dec q (target st)) as [->|Hne].
  2: { now rewrite (exec_frame _ _ _ _ H Hne). }
  apply exec_cases in H as [(_ & ->)|[(_ & _ & _ & _ & ->)|(_ & _ & Hn & v' & _ & ->)]]; auto.
  rewrite upd_eq. discriminate.
Qed.

Lemma all_app s L1 L2 s' : exec_all s (L1 ++ L2) = Ok s' <-> exists s1, exec_all s L1 = Ok s1 /\ exec_all s1 L2 = Ok s'.
Proof.
  revert s; induction L1 as [|st L1 IH]; intros s; cbn [app exec_all].
  - split; [eauto|]. intros (s1 & E & H). injection E as <-. exact H.
  - destruct (exec s st) as [s2|e]; cbn [rbind]; [apply IH|].
    split; [discriminate|intros (? & ? & _); discriminate].
Qed.
Lemma all_cons s st L s' : exec_all s (st :: L) = Ok s' -> exists s1, exec s st = Ok s1 /\ exec_all s1 L = Ok s'.
Proof. cbn [exec_all]. apply rbind_ok. Qed.

(* q is never assigned by L *)
Definition untouched (q : path) (L : list stmt) : bool :=
  forallb (fun st => if path_dec (target st) q then false else true) L.
(* q is assigned by L only under `if not hasattr` *)
Definition guarded (q : path) (L : list stmt) : bool :=
  forallb (fun st => if path_dec (target st) q then only_missing st else true) L.

Lemma all_frame L : forall s s' q, exec_all s L = Ok s' -> untouched q L = true -> s' q = s q.
Proof.
  induction L as [|st L IH]; intros s s' q H U.
  - injection H as <-. reflexivity.
  - apply all_cons in H as (s1 & H1 & H2). cbn [untouched forallb] in U. apply andb_prop in U as (U1 & U2).
    rewrite (IH _ _ _ H2 U2). apply (exec_frame _ _ _ _ H1).
    destruct (path_dec (target st) q); [discriminate|congruence].
Qed.
Lemma all_keep L : forall s s' q v, exec_all s L = Ok s' -> s q = Some v -> guarded q L = true -> s' q = Some v.
Proof.
  induction L as [|st L IH]; intros s s' q v H Hq U.
  - injection H as <-. assumption.
  - apply all_cons in H as (s1 & H1 & H2). cbn [guarded forallb] in U. apply andb_prop in U as (U1 & U2).
    refine (IH _ _ _ _ H2 _ U2). apply (exec_keep _ _ _ _ _ H1 Hq).
    destruct (path_dec (target st) q); [auto|congruence].
Qed.
Lemma all_present L : forall s s' q, exec_all s L = Ok s' -> s q <> None -> s' q <> None.
Proof.
  induction L as [|st L IH]; intros s s' q H Hq.
  - injection H as <-. assumption.
  - apply all_cons in H as (s1 & H1 & H2). apply (IH _ _ _ H2). now apply (exec_present _ _ _ _ H1).
Qed.
Lemma untouched_guarded q L : untouched q L = true -> guarded q L = true.
Proof.
  unfold untouched, guarded. rewrite !forallb_forall. intros H st Hs. specialize (H st Hs).
  destruct (path_dec (target st) q); auto; discriminate.
Qed.

(* the first statement assigning q, with what precedes and follows it *)
Fixpoint split_at (q : path) (L : list stmt) : option (list stmt * stmt * list stmt) :=
  match L with
  | [] => None
  | st :: t => if path_dec (target st) q then Some ([], st, t)
               else match split_at q t with Some (a, x, b) => Some (st :: a, x, b) | None => None end
  end.
Lemma split_ok q L : forall a x b, split_at q L = Some (a, x, b) -> L = (a ++ x :: b)%list /\ target x = q /\ untouched q a = true.
Proof.
  induction L as [|st L IH]; intros a x b H; [discriminate|]. cbn [split_at] in H.
  destruct (path_dec (target st) q) as [E|E].
  - injection H as <- <- <-. auto.
  - destruct (split_at q L) as [[[a' x'] b']|]; [|discriminate]. injection H as <- <- <-.
    destruct (IH _ _ _ eq_refl) as (-> & H2 & H3). repeat split; auto.
    unfold untouched in *. cbn [forallb]. destruct (path_dec (target st) q); [congruence|exact H3].
Qed.

(* what an unconditional `if not hasattr` statement leaves when its target was missing *)
Lemma default_lemma L s s' q a x b : exec_all s L = Ok s' -> split_at q L = Some (a, x, b) ->
  conds x = [] -> s q = None -> guarded q b = true ->
  exists s1 v, exec_all s a = Ok s1 /\ eval_expr s1 (rhs x) = Ok v /\ exec_all (upd s1 q v) b = Ok s' /\ s' q = Some v.
Proof.
  intros H Hs Hc Hn Hg. apply split_ok in Hs as (-> & <- & Hu).
  apply all_app in H as (s1 & H1 & H2). apply all_cons in H2 as (s2 & H2 & H3).
  exists s1. pose proof (all_frame _ _ _ _ H1 Hu) as F. rewrite Hn in F.
  apply exec_cases in H2 as [(E & _)|[(_ & _ & _ & E & _)|(_ & _ & _ & v & Ev & ->)]].
  - rewrite Hc in E. discriminate.
  - congruence.
  - exists v. repeat split; auto. apply (all_keep _ _ _ _ _ H3); auto. apply upd_eq.
Qed.

(* equal stores behave equally *)
Lemma getattr_same a b p : same a b -> getattr a p = getattr b p.
Proof. intros H. unfold getattr. now rewrite H. Qed.
Lemma getobj_same a b p : same a b -> getobj a p = getobj b p.
Proof. intros H. destruct p; cbn [getobj]; auto using getattr_same. Qed.
Lemma guard_same a b g : same a b -> eval_guard a g = eval_guard b g.
Proof. intros H. destruct g; cbn [eval_guard]; rewrite ?(getattr_same _ _ _ H), ?(getobj_same _ _ _ H), ?(H p); reflexivity. Qed.
Lemma guards_same a b l : same a b -> eval_guards a l = eval_guards b l.
Proof. intros H. induction l as [|g l IH]; cbn [eval_guards]; [reflexivity|]. now rewrite (guard_same _ _ _ H), IH. Qed.
Lemma expr_same a b e : same a b -> eval_expr a e = eval_expr b e.
Proof. intros H. destruct e; cbn [eval_expr]; rewrite ?(fun p => getattr_same _ _ p H); reflexivity. Qed.

(* ---- running twice ---- *)
Definition guard_reads (g : guard) : list path :=
  match g with GTrue p _ => [p] | GHas p => [p; removelast p] | GUsed _ => [["dm_ind"]] end.
Definition expr_reads (e : expr) : list path :=
  match e with
  | EC _ => [] | EGet p => [p] | EOnes _ p => [p] | EHalf p q => [p; q]
  | EJoin _ => [["path"; "falco"]] | EMas => [["lambda0"]; ["P1"]; ["P1"; "D"]]
  end.
Lemma guard_reads_ok a b g : (forall p, In p (guard_reads g) -> a p = b p) -> eval_guard a g = eval_guard b g.
Proof.
  intros H. destruct g; cbn [eval_guard guard_reads In] in *; unfold getobj, getattr.
  - now rewrite H by tauto.
  - destruct (removelast p) eqn:E; rewrite ?H by tauto; reflexivity.
  - now rewrite H by tauto.
Qed.
Lemma guards_reads_ok a b l : (forall g p, In g l -> In p (guard_reads g) -> a p = b p) -> eval_guards a l = eval_guards b l.
Proof.
  induction l as [|g l IH]; intros H; cbn [eval_guards]; [reflexivity|].
  rewrite (guard_reads_ok a b g), IH; auto; intros; eapply H; cbn [In]; eauto.
Qed.
Lemma expr_reads_ok a b e : (forall p, In p (expr_reads e) -> a p = b p) -> eval_expr a e = eval_expr b e.
Proof. intros H. destruct e; cbn [eval_expr expr_reads In] in *; unfold getattr; rewrite ?H by tauto; reflexivity. Qed.

(* each statement's conditions, and the operands of an unconditional overwrite, are not assigned
   from there on; nor is the overwritten attribute again *)
Fixpoint stable (L : list stmt) : bool :=
  match L with
  | [] => true
  | st :: t =>
    (forallb (fun g => forallb (fun p => untouched p (st :: t)) (guard_reads g)) (conds st) &&
     guarded (removelast (target st)) (st :: t) &&
     (if only_missing st then true else
        forallb (fun p => untouched p (st :: t)) (expr_reads (rhs st)) && untouched (target st) t) &&
     stable t)%bool
  end.

Lemma exec_again st L s s1 s' : exec s st = Ok s1 -> exec_all s1 L = Ok s' -> stable (st :: L) = true ->
  forall z, same z s' -> exists z', exec z st = Ok z' /\ same z' s'.
Proof.
  intros H1 H2 Hs z Hz. cbn [stable] in Hs.
  apply andb_prop in Hs as (Hs & _). apply andb_prop in Hs as (Hs & Ho). apply andb_prop in Hs as (Hg & Hp).
  assert (Hall : exec_all s (st :: L) = Ok s') by (cbn [exec_all]; now rewrite H1).
  assert (Eg : eval_guards z (conds st) = eval_guards s (conds st)).
  { rewrite (guards_same _ _ _ Hz). apply guards_reads_ok. intros g p Ig Ip.
    rewrite forallb_forall in Hg. specialize (Hg g Ig). rewrite forallb_forall in Hg. specialize (Hg p Ip).
    exact (all_frame _ _ _ _ Hall Hg). }
  assert (Eo : forall o, getobj s (removelast (target st)) = Ok o -> getobj z (removelast (target st)) = Ok o).
  { intros o E. rewrite (getobj_same _ _ _ Hz). unfold getobj, getattr in *. destruct (removelast (target st)) as [|w q]; auto.
    destruct (s (w :: q)) as [u|] eqn:Eu; [|discriminate].
    now rewrite (all_keep _ _ _ _ _ Hall Eu Hp). }
  apply exec_cases in H1 as [(E & ->)|[(E & (o & Ego) & Em & Et & ->)|(E & Ego & Hn & v & Ev & ->)]]; unfold exec; rewrite Eg, E; cbn [rbind negb].
  - exists z. split; auto.
  - rewrite (Eo _ Ego). cbn [rbind]. rewrite Em. pose proof (all_present _ _ _ _ H2 Et) as Hpr.
    rewrite Hz. destruct (s' (target st)) eqn:Es; [|congruence]. exists z. split; auto.
  - rewrite (Eo _ Ego). cbn [rbind].
    destruct (only_missing st) eqn:Em.
    + assert (Hpr : s' (target st) <> None).
      { apply (all_present _ _ _ _ H2). rewrite upd_eq. discriminate. }
      rewrite Hz. destruct (s' (target st)) eqn:Es; [|congruence]. exists z. split; auto.
    + apply andb_prop in Ho as (Hr & Hu).
      assert (Ee : eval_expr z (rhs st) = Ok v).
      { rewrite (expr_same _ _ _ Hz), <- Ev. apply expr_reads_ok. intros p Ip.
        rewrite forallb_forall in Hr. exact (all_frame _ _ _ _ Hall (Hr p Ip)). }
      rewrite Ee. cbn [rbind]. unfold setattr. rewrite (Eo _ Ego). cbn [rbind].
      exists (upd z (target st) v). split; [reflexivity|]. intros q.
      destruct (path_dec q (target st)) as [->|Hne].
      * rewrite upd_eq, (all_frame _ _ _ _ H2 Hu), upd_eq. reflexivity.
      * now rewrite upd_ne.
Qed.

Lemma all_again L : forall s s', exec_all s L = Ok s' -> stable L = true ->
  forall z, same z s' -> exists z', exec_all z L = Ok z' /\ same z' s'.
Proof.
  induction L as [|st L IH]; intros s s' H Hs z Hz.
  - exists z. split; auto.
  - apply all_cons in H as (s1 & H1 & H2).
    destruct (exec_again _ _ _ _ _ H1 H2 Hs z Hz) as (z1 & E1 & Hz1).
    cbn [stable] in Hs. apply andb_prop in Hs as (_ & Hs).
    cbn [exec_all]. rewrite E1. cbn [rbind]. exact (IH _ _ H2 Hs z1 Hz1).
Qed.
