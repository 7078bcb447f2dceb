(* A small type system for the statement interpreter: a well-typed program never fails. *)
From Verif Require Import Base StrBase RBase OptvModel OptvSpec OptvProofs.
From Coq Require Import String.
Local Open Scope string_scope.

Inductive ty := TAny | TStr | TK (k : kind).
Definition has (t : ty) (v : value) : Prop :=
  match t with TAny => True | TStr => exists a, v = VStr a | TK k => of_kind k v end.
Definition kind_eqb (a b : kind) : bool :=
  match a, b with Object, Object | Yes_no, Yes_no | Count, Count | Number, Number | Nonzero, Nonzero => true | _, _ => false end.
Definition ty_eqb (a b : ty) : bool :=
  match a, b with TAny, TAny | TStr, TStr => true | TK x, TK y => kind_eqb x y | _, _ => false end.
Lemma ty_eqb_eq a b : ty_eqb a b = true -> a = b.
Proof. destruct a as [| |[]], b as [| |[]]; cbn; congruence. Qed.
Definition sub (a b : ty) : bool := match b with TAny => true | _ => ty_eqb a b end.
Lemma sub_ok a b v : sub a b = true -> has a v -> has b v.
Proof. destruct b; cbn [sub]; [cbn; auto| |]; intros H; apply ty_eqb_eq in H as ->; auto. Qed.

Definition env := list (path * ty).
Fixpoint look (G : env) (p : path) : option ty :=
  match G with [] => None | (q, t) :: r => if path_dec q p then Some t else look r p end.
Definition drop (p : path) (G : env) : env := filter (fun e => if path_dec (fst e) p then false else true) G.
(* every attribute listed in G is present with its type *)
Definition knows (G : env) (s : store) : Prop := forall p t, look G p = Some t -> exists v, s p = Some v /\ has t v.
(* every attribute that is present has its schema type *)
Definition fits (D : path -> ty) (s : store) : Prop := forall p v, s p = Some v -> has (D p) v.

Definition const_ty (v : value) : ty :=
  match v with
  | VObj => TK Object | VBool _ => TK Yes_no | VInt n => if Z.leb 0 n then TK Count else TAny
  | VNum _ => TK Number | VStr _ => TStr | _ => TAny
  end.
Lemma const_ok v : has (const_ty v) v.
Proof.
  destruct v; cbn; auto; eauto.
  destruct (Z.leb_spec 0 n); cbn; eauto.
Qed.

Definition known (G : env) (p : path) : bool := match look G p with Some _ => true | None => false end.
Definition typed (G : env) (p : path) (t : ty) : bool := match look G p with Some t' => ty_eqb t' t | None => false end.
Lemma known_ok G s p : knows G s -> known G p = true -> exists v, s p = Some v.
Proof. unfold known. intros H E. destruct (look G p) eqn:L; [|discriminate]. destruct (H _ _ L) as (v & Hv & _). eauto. Qed.
Lemma typed_ok G s p t : knows G s -> typed G p t = true -> exists v, s p = Some v /\ has t v.
Proof. unfold typed. intros H E. destruct (look G p) eqn:L; [|discriminate]. apply ty_eqb_eq in E as ->. exact (H _ _ L). Qed.
Definition parent_known (G : env) (p : path) : bool := match removelast p with [] => true | q => known G q end.
Definition parent_object (G : env) (p : path) : bool := match removelast p with [] => true | q => typed G q (TK Object) end.

Definition ty_guard (G : env) (g : guard) : bool :=
  match g with
  | GTrue p _ => typed G p (TK Yes_no)
  | GHas p => parent_known G p
  | GUsed _ => known G ["dm_ind"]
  end.
Definition learn (g : guard) : env := match g with GHas p => [(p, TAny)] | _ => [] end.
Definition ty_expr (G : env) (e : expr) : option ty :=
  match e with
  | EC v => Some (const_ty v)
  | EGet p => look G p
  | EOnes _ p => if typed G p (TK Count) then Some TAny else None
  | EHalf p q => if (typed G p (TK Number) && typed G q (TK Count))%bool then Some TAny else None
  | EJoin _ => if typed G ["path"; "falco"] TStr then Some TStr else None
  | EMas => if (typed G ["lambda0"] (TK Nonzero) && known G ["P1"] && typed G ["P1"; "D"] (TK Nonzero))%bool
            then Some (TK Number) else None
  end.
Definition ty_stmt (D : path -> ty) (G : env) (st : stmt) : option env :=
  if negb (forallb (ty_guard G) (conds st) && parent_object G (target st))%bool then None else
  match ty_expr (G ++ flat_map learn (conds st))%list (rhs st) with
  | None => None
  | Some t =>
    if negb (sub t (D (target st))) then None else
    if only_missing st then
      match conds st with [] => Some (if known G (target st) then G else (target st, D (target st)) :: G) | _ => Some G end
    else match conds st with [] => Some ((target st, t) :: G) | _ => Some (drop (target st) G) end
  end.
Fixpoint ty_prog (D : path -> ty) (G : env) (L : list stmt) : option env :=
  match L with [] => Some G | st :: r => match ty_stmt D G st with Some G1 => ty_prog D G1 r | None => None end end.

Lemma look_app G H p : look (G ++ H)%list p = match look G p with Some t => Some t | None => look H p end.
Proof. induction G as [|[q t] G IH]; cbn [app look]; [reflexivity|]. now destruct (path_dec q p). Qed.
Lemma look_drop p G q : look (drop p G) q = if path_dec q p then None else look G q.
Proof.
  induction G as [|[r t] G IH]; cbn [drop filter look fst].
  - now destruct (path_dec q p).
  - fold (drop p G). destruct (path_dec r p) as [->|Hn].
    + rewrite IH. destruct (path_dec q p), (path_dec p q); congruence.
    + cbn [look]. rewrite IH. destruct (path_dec r q), (path_dec q p); congruence.
Qed.

Lemma guards_ok G s l : knows G s -> forallb (ty_guard G) l = true ->
  exists b, eval_guards s l = Ok b /\ (b = true -> knows (G ++ flat_map learn l)%list s).
Proof.
  intros HG. induction l as [|g l IH]; intros H; cbn [forallb eval_guards flat_map] in *.
  - exists true. split; auto. rewrite app_nil_r. auto.
  - apply andb_prop in H as (H1 & H2). destruct (IH H2) as (b & Eb & Hb).
    assert (Eg : exists c, eval_guard s g = Ok c /\ (c = true -> knows (learn g) s)).
    { destruct g; cbn [ty_guard eval_guard learn] in *.
      - destruct (typed_ok _ _ _ _ HG H1) as (v & Ev & (bb & ->)). unfold getattr. rewrite Ev. cbn.
        eexists. split; [reflexivity|]. intros _ q t E; discriminate.
      - assert (Ep : exists o, getobj s (removelast p) = Ok o).
        { unfold parent_known in H1. unfold getobj, getattr. destruct (removelast p) as [|w r] eqn:E; [eauto|].
          destruct (known_ok _ _ _ HG H1) as (v & ->). eauto. }
        destruct Ep as (o & ->). cbn [rbind]. destruct (s p) eqn:Es; eexists; (split; [reflexivity|]); intros Ht; [|discriminate].
        intros q t. cbn [look]. destruct (path_dec p q) as [<-|]; [|discriminate]. intros E. injection E as <-. eexists. split; [eassumption|exact I].
      - destruct (known_ok _ _ _ HG H1) as (v & Ev). unfold getattr. rewrite Ev. cbn. eexists. split; [reflexivity|]. intros _ q t E; discriminate. }
    destruct Eg as (c & Ec & Hc). rewrite Ec. cbn [rbind]. destruct c.
    + exists b. split; auto. intros ->. intros p t. rewrite !look_app. specialize (Hb eq_refl p t). rewrite look_app in Hb.
      specialize (Hc eq_refl p t). destruct (look G p); auto. destruct (look (learn g) p); auto.
    + exists false. split; auto. discriminate.
Qed.

Lemma number_ok v : has (TK Number) v -> exists x, number v = Ok x.
Proof. intros (x & [->|(n & -> & _)]); cbn; eauto. Qed.
Lemma nonzero_ok v : has (TK Nonzero) v -> exists x, number v = Ok x /\ x <> 0.
Proof. intros (x & Hx & [->|(n & -> & ->)]); cbn; eauto. Qed.
Lemma count_ok v : has (TK Count) v -> exists n, dimension v = Ok n.
Proof. intros (n & -> & Hn). cbn. destruct (Z.ltb_spec n 0); [lia|eauto]. Qed.

Lemma expr_ok G s e t : knows G s -> ty_expr G e = Some t -> exists v, eval_expr s e = Ok v /\ has t v.
Proof.
  intros HG H. destruct e; cbn [ty_expr eval_expr] in *.
  - injection H as <-. exists v. split; auto. apply const_ok.
  - destruct (HG _ _ H) as (v & Ev & Hv). unfold getattr. rewrite Ev. eauto.
  - destruct (typed G p _) eqn:E; [|discriminate]. injection H as <-. destruct (typed_ok _ _ _ _ HG E) as (v & Ev & Hv).
    unfold getattr. rewrite Ev. cbn [rbind]. destruct (count_ok _ Hv) as (n & ->). cbn. eauto.
  - destruct (typed G vmax _) eqn:E; [|discriminate]. destruct (typed G nact _) eqn:E2; [|discriminate]. injection H as <-.
    destruct (typed_ok _ _ _ _ HG E) as (v & Ev & Hv). destruct (typed_ok _ _ _ _ HG E2) as (w & Ew & Hw).
    unfold getattr. rewrite Ev, Ew. cbn [rbind]. destruct (number_ok _ Hv) as (x & ->). cbn [rbind].
    destruct (count_ok _ Hw) as (n & ->). cbn. eauto.
  - destruct (typed G _ _) eqn:E; [|discriminate]. injection H as <-. destruct (typed_ok _ _ _ _ HG E) as (v & Ev & (a & ->)).
    unfold getattr. rewrite Ev. cbn [rbind]. eexists. split; [reflexivity|]. cbn. eauto.
  - destruct (typed G ["lambda0"] _) eqn:E1; [|discriminate]. destruct (known G ["P1"]) eqn:E2; [|discriminate].
    destruct (typed G ["P1"; "D"] _) eqn:E3; [|discriminate]. injection H as <-.
    destruct (typed_ok _ _ _ _ HG E1) as (v & Ev & Hv). destruct (known_ok _ _ _ HG E2) as (o & Eo).
    destruct (typed_ok _ _ _ _ HG E3) as (w & Ew & Hw).
    unfold getattr. rewrite Ev, Eo, Ew. cbn [rbind].
    destruct (nonzero_ok _ Hv) as (x & -> & Hx). cbn [rbind]. destruct (nonzero_ok _ Hw) as (y & -> & Hy). cbn [rbind].
    destruct (Req_EM_T y 0); [congruence|]. destruct (Req_EM_T x 0); [congruence|].
    eexists. split; [reflexivity|]. cbn. eauto.
Qed.

Lemma parent_ok G s p : knows G s -> parent_object G p = true -> getobj s (removelast p) = Ok VObj.
Proof.
  unfold parent_object, getobj, getattr. intros HG H. destruct (removelast p); auto.
  destruct (typed_ok _ _ _ _ HG H) as (v & -> & ->). reflexivity.
Qed.

Lemma stmt_ok D G G1 st s : knows G s -> fits D s -> ty_stmt D G st = Some G1 ->
  exists s1, exec s st = Ok s1 /\ knows G1 s1 /\ fits D s1.
Proof.
  intros HG HD H. unfold ty_stmt in H.
  destruct (forallb (ty_guard G) (conds st)) eqn:E1; [|discriminate].
  destruct (parent_object G (target st)) eqn:E2; [|discriminate]. cbn [andb negb] in H.
  destruct (ty_expr _ (rhs st)) as [t|] eqn:E3; [|discriminate].
  destruct (sub t (D (target st))) eqn:E4; [|discriminate]. cbn [negb] in H.
  destruct (guards_ok _ _ _ HG E1) as (b & Eb & Hb). pose proof (parent_ok _ _ _ HG E2) as Ep.
  unfold exec. rewrite Eb. cbn [rbind]. destruct b; cbn [negb].
  - rewrite Ep. cbn [rbind].
    destruct (expr_ok _ _ _ _ (Hb eq_refl) E3) as (v & Ev & Hv).
    assert (Hset : setattr s (target st) v = Ok (upd s (target st) v)) by (unfold setattr; rewrite Ep; reflexivity).
    assert (HD' : fits D (upd s (target st) v)).
    { intros p w. unfold upd. destruct (path_dec (target st) p) as [<-|]; [|apply HD]. intros E; injection E as <-. exact (sub_ok _ _ _ E4 Hv). }
    destruct (only_missing st) eqn:Em.
    + assert (Hnew : forall s1, (exists u, s1 (target st) = Some u /\ has (D (target st)) u) -> knows G s1 -> knows G1 s1).
      { intros s1 Hu HG1. destruct (conds st); injection H as <-; auto.
        destruct (known G (target st)); auto. intros p u. cbn [look]. destruct (path_dec (target st) p) as [<-|]; [|apply HG1].
        intros E; injection E as <-. exact Hu. }
      destruct (s (target st)) as [u|] eqn:Es.
      * exists s. split; [reflexivity|]. split; [|exact HD]. apply Hnew; auto. exists u. split; auto.
      * rewrite Ev. cbn [rbind]. rewrite Hset. eexists. split; [reflexivity|]. split; [|exact HD'].
        apply Hnew.
        -- exists v. rewrite upd_eq. split; auto. exact (sub_ok _ _ _ E4 Hv).
        -- intros p u Eu. destruct (HG _ _ Eu) as (w & Ew & Hw). exists w. split; auto. rewrite upd_ne; [assumption|congruence].
    + rewrite Ev. cbn [rbind]. rewrite Hset. eexists. split; [reflexivity|]. split; [|exact HD'].
      assert (Hd : forall p u, p <> target st -> look G p = Some u -> exists w, upd s (target st) v p = Some w /\ has u w).
      { intros p u Hne Eu. destruct (HG _ _ Eu) as (w & Ew & Hw). exists w. now rewrite upd_ne. }
      destruct (conds st); injection H as <-.
      * intros p u. cbn [look]. destruct (path_dec (target st) p) as [<-|Hne].
        -- intros E; injection E as <-. exists v. now rewrite upd_eq.
        -- apply Hd. congruence.
      * intros p u. rewrite look_drop. destruct (path_dec p (target st)); [discriminate|]. now apply Hd.
  - exists s. split; [reflexivity|]. split; [|exact HD].
    destruct (conds st) as [|g l]; [cbn in Eb; discriminate|].
    destruct (only_missing st); injection H as <-; [exact HG|].
    intros p u. rewrite look_drop. destruct (path_dec p (target st)); [discriminate|]. apply HG.
Qed.

Lemma prog_ok D L : forall G G1 s, knows G s -> fits D s -> ty_prog D G L = Some G1 ->
  exists s1, exec_all s L = Ok s1 /\ knows G1 s1 /\ fits D s1.
Proof.
  induction L as [|st L IH]; intros G G1 s HG HD H; cbn [ty_prog exec_all] in *.
  - injection H as <-. eauto.
  - destruct (ty_stmt D G st) as [G2|] eqn:E; [|discriminate].
    destruct (stmt_ok _ _ _ _ _ HG HD E) as (s2 & -> & HG2 & HD2). cbn [rbind]. eauto.
Qed.

(* the simulator / testbed pair of limits: whichever branch runs, the attribute ends up present *)
Lemma branch_true s s1 f p e b : s f = Some (VBool b) ->
  exec s (mkst [GTrue f b] p true e) = Ok s1 -> s1 p <> None.
Proof.
  intros Hf H. assert (Eg : eval_guards s [GTrue f b] = Ok true).
  { cbn [eval_guards eval_guard]. unfold getattr. rewrite Hf. cbn. now rewrite Bool.eqb_reflx. }
  apply exec_cases in H as [(E & _)|[(_ & _ & _ & E & ->)|(_ & _ & _ & v & _ & ->)]]; cbn [conds target] in *.
  - congruence.
  - exact E.
  - rewrite upd_eq. discriminate.
Qed.
Lemma either_branch s s' f p q e1 e2 e3 e4 b : s f = Some (VBool b) -> f <> p -> f <> q ->
  exec_all s [mkst [GTrue f true] q true e1; mkst [GTrue f true] p true e2;
              mkst [GTrue f false] q true e3; mkst [GTrue f false] p true e4] = Ok s' -> s' p <> None.
Proof.
  intros Hf Np Nq H. apply all_cons in H as (s1 & H1 & H). apply all_cons in H as (s2 & H2 & H).
  apply all_cons in H as (s3 & H3 & H). apply all_cons in H as (s4 & H4 & H). injection H as <-.
  assert (F1 : s1 f = Some (VBool b)) by (rewrite (exec_frame _ _ _ _ H1); auto).
  assert (F2 : s2 f = Some (VBool b)) by (rewrite (exec_frame _ _ _ _ H2); auto).
  assert (F3 : s3 f = Some (VBool b)) by (rewrite (exec_frame _ _ _ _ H3); auto).
  destruct b.
  - pose proof (branch_true _ _ _ _ _ _ F1 H2) as P. apply (exec_present _ _ _ _ H4), (exec_present _ _ _ _ H3), P.
  - exact (branch_true _ _ _ _ _ _ F3 H4).
Qed.
