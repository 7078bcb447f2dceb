(* Thread pool: interference freedom, one worker, and a race for two workers. *)
From Verif Require Import Base PoolModel PoolSpec.
Open Scope nat_scope.

Lemma set_nth_same {A} k (x : A) l : k < length l -> nth_error (set_nth k x l) k = Some x.
Proof. revert k; induction l as [|a l IH]; intros [|k] H; cbn in *; try lia; [reflexivity|]. apply IH; lia. Qed.
Lemma set_nth_other {A} k j (x : A) l : j <> k -> nth_error (set_nth k x l) j = nth_error l j.
Proof. revert k j; induction l as [|a l IH]; intros [|k] [|j] H; cbn; try reflexivity; try lia. apply IH; lia. Qed.
Lemma set_nth_length {A} k (x : A) l : length (set_nth k x l) = length l.
Proof. revert k; induction l as [|a l IH]; intros [|k]; cbn; auto. Qed.
Lemma set_nth_app {A} (a : list A) x y b : set_nth (length a) x (a ++ y :: b) = a ++ x :: b.
Proof. induction a as [|z a IH]; cbn; [reflexivity|]. now rewrite IH. Qed.

(* ---- interference freedom ---- *)
Fixpoint regs_read (c : code) : list nat :=
  match c with [] => [] | Wr _ _ :: t => regs_read t | Rd r :: t => r :: regs_read t end.
Fixpoint first_write (r : nat) (c : code) : option Z :=
  match c with [] => None | Wr k v :: t => if Nat.eqb k r then Some v else first_write r t | Rd _ :: t => first_write r t end.
Lemma regs_read_app a b : regs_read (a ++ b) = regs_read a ++ regs_read b.
Proof. induction a as [|[k v|k] a IH]; cbn; auto. now rewrite IH. Qed.
Lemma first_write_some r c v : first_write r c = Some v -> In (Wr r v) c.
Proof.
  induction c as [|[k x|k] c IH]; cbn; intros H; [discriminate| |auto].
  destruct (Nat.eqb_spec k r) as [->|]; [injection H as <-|]; auto.
Qed.
Lemma first_write_none r c : first_write r c = None -> forall x, ~ In (Wr r x) c.
Proof.
  induction c as [|[k x|k] c IH]; cbn; intros H y Hy; [auto| |].
  - destruct (Nat.eqb_spec k r) as [->|N]; [discriminate|]. destruct Hy as [Q|Q]; [injection Q as -> ->; lia|]. eapply IH; eauto.
  - destruct Hy as [Q|Q]; [discriminate|]. eapply IH; eauto.
Qed.

Section Free.
  Variables (m : mem) (jobs : list code).
  Hypothesis NI : no_interference jobs.
  Definition val (r : nat) : Z := match first_write r (concat jobs) with Some v => v | None => m r end.

  Lemma val_never r : never_written jobs r -> val r = m r.
  Proof.
    intros H. unfold val. destruct (first_write r (concat jobs)) as [v|] eqn:E; [|reflexivity].
    apply first_write_some, in_concat in E. destruct E as (c & Hc & Hi). exfalso. eapply H; eauto.
  Qed.
  Lemma val_written c r x : In c jobs -> In (Wr r x) c -> x = val r.
  Proof.
    intros Hc Hi. destruct (NI r) as [H|[[v Hv] _]]; [exfalso; eapply H; eauto|].
    unfold val. destruct (first_write r (concat jobs)) as [w|] eqn:E.
    - apply first_write_some, in_concat in E. destruct E as (d & Hd & Hi2). rewrite (Hv c x Hc Hi), (Hv d w Hd Hi2). reflexivity.
    - exfalso. apply (first_write_none _ _ E x). apply in_concat. eauto.
  Qed.
  Lemma own_first_split r pre rest : own_write_first r (pre ++ Rd r :: rest) -> exists x, In (Wr r x) pre.
  Proof.
    induction pre as [|[k v|k] pre IH]; cbn; intros H.
    - destruct H; congruence.
    - destruct H as [->|H]; [eauto|]. destruct (IH H) as [x Hx]; eauto.
    - destruct (IH (proj2 H)) as [x Hx]; eauto.
  Qed.

  Definition thread_ok (s : mem) (c : code) (t : thread) : Prop :=
    exists pre, c = pre ++ todo t /\ got t = map val (regs_read pre) /\ forall r x, In (Wr r x) pre -> s r = val r.
  Definition inv (p : pool) : Prop :=
    length (threads p) = length jobs /\
    (forall k t c, nth_error (threads p) k = Some t -> nth_error jobs k = Some c -> thread_ok (shared p) c t) /\
    forall r, never_written jobs r -> shared p r = m r.

  Lemma inv_launch : inv (launch m jobs).
  Proof.
    unfold inv, launch; cbn. rewrite map_length. repeat split; auto.
    intros k t c Ht Hc. rewrite nth_error_map, Hc in Ht. injection Ht as <-. exists []; cbn. split; [reflexivity|]. split; [reflexivity|]. intros ? ? [].
  Qed.
  Lemma inv_step T k p q : inv p -> step T k p = Some q -> inv q.
  Proof.
    intros (L & HT & HN) S. unfold step in S. destruct (nth_error (threads p) k) as [t|] eqn:Et; [|discriminate].
    destruct (may_run T k p t); [|discriminate].
    assert (Hk : k < length (threads p)) by (apply nth_error_Some; congruence).
    destruct (nth_error jobs k) as [c|] eqn:Ec; [|apply nth_error_None in Ec; lia].
    assert (Inc : In c jobs) by (eapply nth_error_In; eauto).
    destruct (HT k t c Et Ec) as (pre & Epre & Egot & Hpre).
    destruct (todo t) as [|[r v|r] rest] eqn:Etodo; [discriminate| |]; injection S as <-; unfold inv; cbn.
    - assert (Ev : v = val r) by (eapply val_written; eauto; rewrite Epre; apply in_or_app; right; now left).
      rewrite set_nth_length. split; [auto|]. split.
      + intros j u d Hu Hd. destruct (Nat.eq_dec j k) as [->|N].
        * rewrite set_nth_same in Hu by auto. injection Hu as <-. replace d with c by congruence. exists (pre ++ [Wr r v]); cbn.
          rewrite <- app_assoc; cbn. split; [auto|]. split; [rewrite regs_read_app; cbn; now rewrite app_nil_r|].
          intros r2 x Hx. unfold put. destruct (Nat.eqb_spec r2 r) as [->|N]; [auto|].
          apply in_app_or in Hx. destruct Hx as [Hx|[Hx|[]]]; [eauto|]. injection Hx as <- <-; lia.
        * rewrite set_nth_other in Hu by auto. destruct (HT j u d Hu Hd) as (pre2 & A & B & Cc). exists pre2. split; [auto|]. split; [auto|].
          intros r2 x Hx. unfold put. destruct (Nat.eqb_spec r2 r) as [->|N2]; [auto|]. eauto.
      + intros r2 Hr2. unfold put. destruct (Nat.eqb_spec r2 r) as [->|N2]; [|auto].
        exfalso. apply (Hr2 c v Inc). rewrite Epre. apply in_or_app; right; now left.
    - assert (Ev : shared p r = val r).
      { destruct (NI r) as [H|[_ H]]; [rewrite HN by auto; symmetry; now apply val_never|].
        destruct (own_first_split r pre rest) as [x Hx]; [rewrite <- Epre; auto|]. eauto. }
      rewrite set_nth_length. split; [auto|]. split; [|auto].
      intros j u d Hu Hd. destruct (Nat.eq_dec j k) as [->|N].
      + rewrite set_nth_same in Hu by auto. injection Hu as <-. replace d with c by congruence. exists (pre ++ [Rd r]); cbn.
        rewrite <- app_assoc; cbn. split; [auto|]. split.
        * rewrite regs_read_app, map_app, <- Egot; cbn. now rewrite Ev.
        * intros r2 x Hx. apply in_app_or in Hx. destruct Hx as [Hx|[Hx|[]]]; [eauto|discriminate].
      + rewrite set_nth_other in Hu by auto. eauto.
  Qed.
  Lemma inv_run T sched p q : inv p -> run T sched p = Some q -> inv q.
  Proof.
    revert p; induction sched as [|k s IH]; cbn; intros p H R; [now injection R as <-|].
    destruct (step T k p) as [p'|] eqn:E; [|discriminate]. eapply IH; [|eauto]. eapply inv_step; eauto.
  Qed.
  Lemma free_reads T sched l : pool_reads T m jobs sched = Some l -> l = map (fun c => map val (regs_read c)) jobs.
  Proof.
    unfold pool_reads. destruct (run T sched (launch m jobs)) as [p|] eqn:R; [|discriminate].
    destruct (finished p) eqn:F; [|discriminate]. injection 1 as <-.
    destruct (inv_run _ _ _ _ inv_launch R) as (L & HT & _).
    unfold finished in F. rewrite forallb_forall in F.
    assert (Hx : forall k, nth_error (map got (threads p)) k = nth_error (map (fun c => map val (regs_read c)) jobs) k).
    { intros k. rewrite !nth_error_map. destruct (nth_error (threads p) k) as [t|] eqn:Et.
      - destruct (nth_error jobs k) as [c|] eqn:Ec; [|apply nth_error_None in Ec; assert (k < length (threads p)) by (apply nth_error_Some; congruence); lia].
        cbn. f_equal. destruct (HT k t c Et Ec) as (pre & A & B & _).
        specialize (F t (nth_error_In _ _ Et)). destruct (todo t); [|discriminate]. rewrite app_nil_r in A. now subst.
      - destruct (nth_error jobs k) as [c|] eqn:Ec; [|reflexivity]. apply nth_error_None in Et.
        assert (k < length jobs) by (apply nth_error_Some; congruence). lia. }
    clear - Hx. revert Hx. generalize (map got (threads p)) (map (fun c => map val (regs_read c)) jobs).
    intros a; induction a as [|x a IH]; intros [|y b] H; [reflexivity|specialize (H 0); discriminate|specialize (H 0); discriminate|].
    f_equal; [specialize (H 0); cbn in H; congruence|]. apply IH. intros k. exact (H (S k)).
  Qed.

  Lemma code_reads c : In c jobs -> forall pre rest s, c = pre ++ rest ->
    (forall r, never_written jobs r -> s r = m r) -> (forall r x, In (Wr r x) pre -> s r = val r) ->
    snd (run_code s rest) = map val (regs_read rest) /\ forall r, never_written jobs r -> fst (run_code s rest) r = m r.
  Proof.
    intros Inc pre rest; revert pre; induction rest as [|[r v|r] rest IH]; intros pre s E HN HP; cbn.
    - auto.
    - apply (IH (pre ++ [Wr r v])); [now rewrite <- app_assoc| |].
      + intros r2 H2. unfold put. destruct (Nat.eqb_spec r2 r) as [->|]; [|auto]. exfalso. apply (H2 c v Inc). rewrite E. apply in_or_app; right; now left.
      + intros r2 x Hx. unfold put. assert (v = val r) by (eapply val_written; eauto; rewrite E; apply in_or_app; right; now left).
        destruct (Nat.eqb_spec r2 r) as [->|]; [auto|]. apply in_app_or in Hx. destruct Hx as [Hx|[Hx|[]]]; [eauto|]. injection Hx as <- <-; lia.
    - destruct (IH (pre ++ [Rd r]) s) as [A B]; [now rewrite <- app_assoc|auto| |].
      + intros r2 x Hx. apply in_app_or in Hx. destruct Hx as [Hx|[Hx|[]]]; [eauto|discriminate].
      + destruct (run_code s rest) as [s' l]; cbn in *. split; [|auto]. rewrite A. f_equal.
        destruct (NI r) as [H|[_ H]]; [rewrite HN by auto; symmetry; now apply val_never|].
        destruct (own_first_split r pre rest) as [x Hx]; [rewrite <- E; auto|]. eauto.
  Qed.
  Lemma serial_vals : serial_reads m jobs = map (fun c => map val (regs_read c)) jobs.
  Proof.
    assert (H : forall js s, (forall c, In c js -> In c jobs) -> (forall r, never_written jobs r -> s r = m r) ->
      serial_reads s js = map (fun c => map val (regs_read c)) js).
    { induction js as [|c js IH]; intros s Hin HN; [reflexivity|]. cbn.
      destruct (code_reads c (Hin c (or_introl eq_refl)) [] c s eq_refl HN) as [A B]; [intros ? ? []|].
      destruct (run_code s c) as [s' l]; cbn in *. rewrite A, IH; auto. }
    apply H; auto.
  Qed.
  Lemma free_serial T sched l : pool_reads T m jobs sched = Some l -> l = serial_reads m jobs.
  Proof. intros H. rewrite serial_vals. eapply free_reads; eauto. Qed.
End Free.

(* ---- running tasks one at a time ---- *)
Definition dn (l : list Z) : thread := mkth [] l true.
Definition fresh (c : code) : thread := mkth c [] false.
Lemma filter_started_dn l : length (filter started (map dn l)) = length l.
Proof. induction l; cbn; auto. Qed.
Lemma filter_started_fresh l : filter started (map fresh l) = [].
Proof. induction l; cbn; auto. Qed.
Lemma filter_active_dn l : filter active (map dn l) = [].
Proof. induction l; cbn; auto. Qed.
Lemma filter_active_fresh l : filter active (map fresh l) = [].
Proof. induction l; cbn; auto. Qed.
Lemma nth_error_mid {A} (a : list A) x b : nth_error (a ++ x :: b) (length a) = Some x.
Proof. rewrite nth_error_app2, Nat.sub_diag by lia. reflexivity. Qed.

(* a started task runs a prefix [d] of what it has left *)
Lemma run_started_pre T a d c g b s :
  run T (repeat (length a) (length d)) (mkpool s (a ++ mkth (d ++ c) g true :: b)) =
  Some (mkpool (fst (run_code s d)) (a ++ mkth c (g ++ snd (run_code s d)) true :: b)).
Proof.
  revert g s; induction d as [|[r v|r] d IH]; intros g s; cbn [length repeat run app].
  - cbn. now rewrite app_nil_r.
  - unfold step; cbn [threads shared]. rewrite nth_error_mid. cbn [may_run started todo orb got]. rewrite set_nth_app, IH. reflexivity.
  - unfold step; cbn [threads shared]. rewrite nth_error_mid. cbn [may_run started todo orb got]. rewrite set_nth_app, IH. cbn [run_code].
    destruct (run_code s d) as [s' l]; cbn [fst snd]. now rewrite <- app_assoc.
Qed.
Lemma run_started T a c g b s :
  run T (repeat (length a) (length c)) (mkpool s (a ++ mkth c g true :: b)) =
  Some (mkpool (fst (run_code s c)) (a ++ dn (g ++ snd (run_code s c)) :: b)).
Proof. pose proof (run_started_pre T a c [] g b s) as H. rewrite app_nil_r in H. exact H. Qed.
(* a task that may start runs a prefix *)
Lemma run_fresh_pre T a d c b s : d <> [] -> length (filter started (a ++ b)) = length a ->
  length (filter active (a ++ b)) < T ->
  run T (repeat (length a) (length d)) (mkpool s (a ++ fresh (d ++ c) :: b)) =
  Some (mkpool (fst (run_code s d)) (a ++ mkth c (snd (run_code s d)) true :: b)).
Proof.
  intros Hc Hs Ha. destruct d as [|i d]; [congruence|]. cbn [length repeat run app].
  assert (M : forall t, t = fresh (i :: d ++ c) -> may_run T (length a) (mkpool s (a ++ t :: b)) t = true).
  { intros t ->. unfold may_run, n_started, n_active; cbn [started fresh threads orb].
    rewrite !filter_app in *. cbn [filter started fresh active andb].
    rewrite Hs, Nat.eqb_refl; cbn. now apply Nat.ltb_lt. }
  unfold step; cbn [threads]. rewrite nth_error_mid. rewrite (M _ eq_refl). cbn [fresh todo got shared].
  destruct i as [r v|r]; rewrite set_nth_app, run_started_pre; cbn [run_code].
  - reflexivity.
  - destruct (run_code s d); reflexivity.
Qed.
Lemma run_fresh T a c b s : c <> [] -> length (filter started (a ++ b)) = length a ->
  length (filter active (a ++ b)) < T ->
  run T (repeat (length a) (length c)) (mkpool s (a ++ fresh c :: b)) =
  Some (mkpool (fst (run_code s c)) (a ++ dn (snd (run_code s c)) :: b)).
Proof. intros. pose proof (run_fresh_pre T a c [] b s) as Q. rewrite app_nil_r in Q. now apply Q. Qed.
Lemma run_app T a b p : run T (a ++ b) p = match run T a p with Some q => run T b q | None => None end.
Proof. revert p; induction a as [|k a IH]; intros p; cbn; [reflexivity|]. destruct (step T k p); auto. Qed.

Fixpoint serial_mem (m : mem) (jobs : list code) : mem :=
  match jobs with [] => m | c :: t => serial_mem (fst (run_code m c)) t end.
Lemma serial_reads_app m a b : serial_reads m (a ++ b) = serial_reads m a ++ serial_reads (serial_mem m a) b.
Proof. revert m; induction a as [|c a IH]; intros m; cbn; [reflexivity|]. destruct (run_code m c) as [m' l]; cbn. now rewrite IH. Qed.
Lemma serial_reads_length m jobs : length (serial_reads m jobs) = length jobs.
Proof. revert m; induction jobs as [|c j IH]; intros m; cbn; [reflexivity|]. destruct (run_code m c) as [m' l]; cbn. now rewrite IH. Qed.

Lemma run_block T dns jobs more s : 1 <= T -> (forall c, In c jobs -> c <> []) ->
  exists sched, run T sched (mkpool s (map dn dns ++ map fresh (jobs ++ more))) =
    Some (mkpool (serial_mem s jobs) (map dn (dns ++ serial_reads s jobs) ++ map fresh more)).
Proof.
  intros HT. revert dns s; induction jobs as [|c jobs IH]; intros dns s Hne; cbn [app serial_mem serial_reads].
  - exists []. cbn. now rewrite app_nil_r.
  - assert (Hc : c <> []) by (apply Hne; now left).
    destruct (IH (dns ++ [snd (run_code s c)]) (fst (run_code s c))) as [sch E]; [intros; apply Hne; now right|].
    exists (repeat (length (map dn dns)) (length c) ++ sch). rewrite run_app. cbn [map].
    rewrite run_fresh; [|auto| |].
    + rewrite !map_app in E. cbn [map] in E. rewrite <- !app_assoc in E. cbn [app] in E. rewrite map_app.
      etransitivity; [exact E|].
      destruct (run_code s c) as [s' l]; cbn [fst snd]. rewrite map_app. cbn [map]. rewrite <- app_assoc. reflexivity.
    + rewrite filter_app, filter_started_fresh, app_nil_r, filter_started_dn, map_length. reflexivity.
    + rewrite filter_app, filter_active_fresh, filter_active_dn. cbn; lia.
Qed.
Lemma finished_dn s l : finished (mkpool s (map dn l)) = true.
Proof. unfold finished; cbn. induction l; cbn; auto. Qed.
Lemma got_dn l : map got (map dn l) = l.
Proof. rewrite map_map. cbn. apply map_id. Qed.
(* the loop order is one of the schedules *)
Lemma serial_schedule T m jobs : 1 <= T -> (forall c, In c jobs -> c <> []) ->
  exists sched, pool_reads T m jobs sched = Some (serial_reads m jobs).
Proof.
  intros HT Hne. destruct (run_block T [] jobs [] m HT Hne) as [sch E]. exists sch. unfold pool_reads, launch.
  cbn [map app] in E. rewrite app_nil_r in E. change (fun c => mkth c [] false) with fresh. rewrite E.
  rewrite app_nil_r, finished_dn. cbn [threads]. now rewrite got_dn.
Qed.

(* ---- one worker ---- *)
Definition one_inv (m : mem) (jobs : list code) (p : pool) : Prop :=
  (exists l, threads p = map dn l /\ l = serial_reads m jobs) \/
  (exists l c g st rest, threads p = map dn l ++ mkth c g st :: map fresh rest /\ c <> [] /\ (st = false -> g = []) /\
     (forall d, In d rest -> d <> []) /\
     serial_reads m jobs = l ++ (g ++ snd (run_code (shared p) c)) :: serial_reads (fst (run_code (shared p) c)) rest).

Lemma one_launch m jobs : (forall c, In c jobs -> c <> []) -> one_inv m jobs (launch m jobs).
Proof.
  intros Hne. destruct jobs as [|c jobs]; [left; exists []; auto|]. right.
  exists [], c, [], false, jobs. cbn. split; [reflexivity|]. split; [apply Hne; now left|]. split; [auto|].
  split; [intros; apply Hne; now right|]. destruct (run_code m c); reflexivity.
Qed.
Lemma one_advance m jobs p l g rest s : 
  threads p = map dn l ++ dn g :: map fresh rest -> shared p = s -> (forall d, In d rest -> d <> []) ->
  serial_reads m jobs = l ++ g :: serial_reads s rest -> one_inv m jobs p.
Proof.
  intros E Es Hne ES. destruct rest as [|c rest].
  - left. exists (l ++ [g]). rewrite map_app. split; [exact E|]. now rewrite ES.
  - right. exists (l ++ [g]), c, [], false, rest. rewrite map_app, <- app_assoc. cbn [map app] in *. split; [exact E|].
    split; [apply Hne; now left|]. split; [auto|]. split; [intros; apply Hne; now right|].
    rewrite <- app_assoc. cbn [app]. rewrite ES, Es. cbn. destruct (run_code s c); reflexivity.
Qed.
Lemma one_step m jobs k p q : one_inv m jobs p -> step 1 k p = Some q -> one_inv m jobs q.
Proof.
  intros [(l & E & El)|(l & c & g & st & rest & E & Hc & Hg & Hr & ES)] S.
  - exfalso. unfold step in S. rewrite E, nth_error_map in S. destruct (nth_error l k); cbn in S; discriminate.
  - unfold step in S. destruct (nth_error (threads p) k) as [t|] eqn:Et; [|discriminate].
    destruct (may_run 1 k p t) eqn:M; [|discriminate].
    assert (Hk : k = length (map dn l)).
    { rewrite E in Et. destruct (Nat.lt_trichotomy k (length (map dn l))) as [H|[H|H]]; [|auto|].
      - rewrite nth_error_app1, nth_error_map in Et by auto. destruct (nth_error l k); cbn in Et; [|discriminate].
        injection Et as <-. cbn in S. discriminate.
      - exfalso. rewrite nth_error_app2 in Et by lia. destruct (k - length (map dn l)) as [|j] eqn:Ej; [lia|]. cbn in Et.
        rewrite nth_error_map in Et. destruct (nth_error rest j); cbn in Et; [|discriminate]. injection Et as <-.
        unfold may_run, n_started, n_active in M. rewrite E, !filter_app in M. cbn [fresh started orb filter] in M.
        rewrite filter_started_fresh, filter_active_fresh, filter_active_dn in M. cbn [app] in M. unfold active in M; cbn [started todo andb] in M.
        apply andb_true_iff in M. destruct M as [M1 M2]. apply Nat.eqb_eq in M1. apply Nat.ltb_lt in M2.
        destruct st.
        + destruct c; [congruence|]. cbn in M2. lia.
        + rewrite app_length, filter_started_dn in M1. rewrite map_length in H. cbn in M1. lia. }
    subst k. rewrite E, nth_error_mid in Et. injection Et as <-. cbn [todo got] in S. rewrite E in S.
    destruct c as [|[r v|r] c]; [congruence| |]; rewrite set_nth_app in S; injection S as <-; cbn [run_code] in ES.
    + destruct c as [|i c].
      * eapply one_advance; cbn; [reflexivity|reflexivity|auto|]. cbn in ES. now rewrite app_nil_r in ES.
      * right. exists l, (i :: c), g, true, rest. cbn [threads shared]. split; [reflexivity|]. split; [congruence|]. split; [congruence|]. auto.
    + destruct c as [|i c].
      * eapply one_advance; cbn; [reflexivity|reflexivity|auto|]. exact ES.
      * right. exists l, (i :: c), (g ++ [shared p r]), true, rest. cbn [threads shared]. split; [reflexivity|]. split; [congruence|].
        split; [congruence|]. split; [auto|]. rewrite ES. rewrite <- app_assoc. cbn [app].
        destruct (run_code (shared p) (i :: c)); reflexivity.
Qed.
Lemma one_worker m jobs sched l : (forall c, In c jobs -> c <> []) ->
  pool_reads 1 m jobs sched = Some l -> l = serial_reads m jobs.
Proof.
  intros Hne. unfold pool_reads. destruct (run 1 sched (launch m jobs)) as [p|] eqn:R; [|discriminate].
  destruct (finished p) eqn:F; [|discriminate]. injection 1 as <-.
  assert (I : one_inv m jobs p).
  { pose proof (one_launch m jobs Hne) as I0. revert R I0. generalize (launch m jobs).
    induction sched as [|k s IH]; cbn; intros p0 R I0; [now injection R as <-|].
    destruct (step 1 k p0) as [p'|] eqn:E; [|discriminate]. eapply IH; [exact R|]. eapply one_step; eauto. }
  destruct I as [(l & E & El)|(l & c & g & st & rest & E & Hc & _)].
  - rewrite E, got_dn. auto.
  - exfalso. unfold finished in F. rewrite E, forallb_app in F. cbn in F. apply andb_true_iff in F. destruct F as [_ F].
    destruct c; [congruence|discriminate].
Qed.

(* ---- two workers: a later task overwrites a field before the earlier one reads it ---- *)
Lemma race T m before a c a' c' after : 2 <= T -> a <> [] -> a' <> [] ->
  (forall d, In d before -> d <> []) -> (forall d, In d after -> d <> []) ->
  exists sched l tail, pool_reads T m (before ++ (a ++ c) :: (a' ++ c') :: after) sched =
    Some (l ++ (snd (run_code (serial_mem m before) a) ++
                snd (run_code (fst (run_code (fst (run_code (serial_mem m before) a)) a')) c)) :: tail) /\
    length l = length before.
Proof.
  intros HT Ha Ha' Hb Haf. set (k := length before).
  destruct (run_block T [] before ((a ++ c) :: (a' ++ c') :: after) m) as [s1 E1]; [lia|auto|].
  cbn [app map] in E1. set (L := serial_reads m before) in *. set (M := serial_mem m before) in *.
  assert (HL2 : length L = k) by apply serial_reads_length.
  assert (HL : length (map dn L) = k) by (rewrite map_length; auto).
  set (M0 := fst (run_code M a)). set (g0 := snd (run_code M a)).
  set (M1 := fst (run_code M0 a')). set (g1 := snd (run_code M0 a')).
  set (g := snd (run_code M1 c)). set (M2 := fst (run_code M1 c)).
  set (g' := snd (run_code M2 c')). set (M3 := fst (run_code M2 c')).
  destruct (run_block T (L ++ [g0 ++ g; g1 ++ g']) after [] M3) as [s4 E4]; [lia|auto|].
  rewrite app_nil_r in E4.
  exists (s1 ++ repeat k (length a) ++ repeat (S k) (length a') ++ repeat k (length c) ++ repeat (S k) (length c') ++ s4),
    L, ((g1 ++ g') :: serial_reads M3 after).
  split; [|exact HL2].
  unfold pool_reads, launch. change (fun c => mkth c [] false) with fresh. rewrite run_app, E1. cbn [map].
  rewrite run_app. rewrite <- HL at 1. rewrite run_fresh_pre; [|auto| |].
  2:{ rewrite filter_app. cbn [filter fresh started]. change (map (fun c0 => fresh c0) after) with (map fresh after).
      rewrite filter_started_fresh, app_nil_r, filter_started_dn, map_length. reflexivity. }
  2:{ rewrite filter_app. cbn [filter fresh started active andb]. rewrite filter_active_fresh, filter_active_dn. cbn; lia. }
  fold M0 g0. rewrite run_app.
  assert (A1 : forall x y b, map dn L ++ x :: y :: b = (map dn L ++ [x]) ++ y :: b) by (intros; now rewrite <- app_assoc).
  assert (HS : forall x, length (map dn L ++ [x]) = S k) by (intros; rewrite app_length, HL; cbn; lia).
  rewrite A1. rewrite <- (HS (mkth c g0 true)) at 1. rewrite run_fresh_pre; [|auto| |].
  2:{ rewrite !filter_app. cbn [filter fresh started]. rewrite filter_started_fresh, app_nil_r, !app_length, filter_started_dn, map_length. reflexivity. }
  2:{ rewrite !filter_app. rewrite filter_active_fresh, filter_active_dn, app_nil_r. cbn [app filter]. destruct (active _); cbn; lia. }
  fold M1 g1. rewrite run_app. rewrite <- A1. rewrite <- HL at 1. rewrite run_started. fold M2 g.
  rewrite run_app, A1. rewrite <- (HS (dn (g0 ++ g))) at 1. rewrite run_started. fold M3 g'. rewrite <- A1.
  rewrite map_app in E4. cbn [map] in E4. rewrite <- !app_assoc in E4. cbn [app] in E4. rewrite E4.
  rewrite app_nil_r, finished_dn. cbn [threads]. rewrite got_dn. reflexivity.
Qed.
