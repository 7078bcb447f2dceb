From Verif Require Import Base RBase CtrlModel CtrlProofs DmModel DmSpec DmProofs EfcSpec EfcProofs JacModel JacSpec JacProofs WfscModel WfscSpec.
Open Scope R_scope.

(* ---- loop structure ---- *)
Section Loop.
  Variables planned adefc : bool.
  Variable sched : list (list Z).
  Variable relinItrVec : list Z.
  Variable delta : nat -> Z -> list R.
  Notation iteration := (iteration planned adefc sched relinItrVec delta).
  Notation iterations := (iterations planned adefc sched relinItrVec delta).
  Notation loop := (loop planned adefc sched relinItrVec delta).

  Lemma iteration_ind i ind ind' s r : (planned = true \/ ind = ind') -> iteration i ind s = Ok r -> iteration i ind' s = Ok r.
  Proof.
    intros H. unfold WfscModel.iteration, select_dms. destruct planned; auto. destruct H as [H| ->]; [discriminate|auto].
  Qed.
  Lemma iteration_use i ind s ind' s' c e : iteration i ind s = Ok (ind', s', c, e) ->
    ind' = (if planned then nth i sched [] else ind) /\ c = snapshot s.
  Proof.
    unfold WfscModel.iteration, select_dms. destruct planned.
    - destruct (nth_error sched i) as [l|] eqn:E; cbn [rbind]; [|discriminate].
      destruct (if negb adefc && flagRelin relinItrVec i then enforce_used l s else Ok s); cbn [rbind]; [|discriminate].
      destruct (add_used l (delta i) w); cbn [rbind]; [|discriminate].
      destruct (enforce_used l w0); cbn [rbind]; [|discriminate]. intros [= <- <- <- <-].
      split; auto. symmetry. now apply nth_error_nth.
    - cbn [rbind]. destruct (if negb adefc && flagRelin relinItrVec i then enforce_used ind s else Ok s); cbn [rbind]; [|discriminate].
      destruct (add_used ind (delta i) w); cbn [rbind]; [|discriminate].
      destruct (enforce_used ind w0); cbn [rbind]; [|discriminate]. intros [= <- <- <- <-]. auto.
  Qed.

  (* states s_0 ... s_n of a run, each obtained from the previous by one iteration *)
  Lemma iterations_trace : forall m k ind s sf cs es, iterations (seq k m) ind s = Ok (sf, cs, es) ->
    exists st : nat -> wst, st 0%nat = s /\ st m = sf /\ length cs = m /\ length es = m /\
      forall t, (t < m)%nat -> exists s' c e ind', 
        iteration (k + t) ind' (st t) = Ok (if planned then nth (k + t) sched [] else ind, s', c, e) /\
        ind' = (if planned then ind' else ind) /\
        s' = st (S t) /\ nth_error cs t = Some c /\ nth_error es t = Some e /\ c = snapshot (st t).
  Proof.
    induction m as [|m IH]; intros k ind s sf cs es E; cbn [seq WfscModel.iterations] in E.
    - injection E as <- <- <-. exists (fun _ => s). repeat split; auto. intros; lia.
    - destruct (iteration k ind s) as [[[[ind1 s1] c] e]|] eqn:E1; cbn [rbind] in E; [|discriminate].
      destruct (iterations (seq (S k) m) ind1 s1) as [[[sf' cs'] es']|] eqn:E2; cbn [rbind] in E; [|discriminate].
      injection E as <- <- <-. destruct (iteration_use _ _ _ _ _ _ _ E1) as [Hi Hc].
      destruct (IH _ _ _ _ _ _ E2) as (st & S0 & Sm & L1 & L2 & St).
      exists (fun t => match t with O => s | S t' => st t' end). split; [auto|]. split; [auto|].
      split; [cbn; lia|]. split; [cbn; lia|].
      intros [|t] Ht.
      + exists s1, c, e, ind. rewrite Nat.add_0_r, <- Hi. cbn. repeat split; auto. now destruct planned.
      + destruct (St t ltac:(lia)) as (s' & c' & e' & ind' & A & A' & B & C & D & F).
        exists s', c', e', ind'. replace (k + S t)%nat with (S k + t)%nat by lia.
        split; [|split; [|auto]].
        * rewrite A. do 4 f_equal. destruct planned; auto.
        * destruct planned; auto. congruence.
  Qed.

  Lemma loop_trace n ind s sf cs es : loop n ind s = Ok (sf, cs, es) ->
    (0 < n)%nat /\ exists st : nat -> wst, st 0%nat = s /\ st n = sf /\ length cs = S n /\ length es = n /\
      (forall t, (t <= n)%nat -> nth_error cs t = Some (snapshot (st t))) /\
      forall t, (t < n)%nat -> exists e ind',
        iteration t ind' (st t) = Ok (in_use planned sched ind t, st (S t), snapshot (st t), e) /\
        ind' = (if planned then ind' else ind) /\ nth_error es t = Some e.
  Proof.
    unfold WfscModel.loop. destruct (iterations (seq 0 n) ind s) as [[[sf' cs'] es']|] eqn:E; cbn [rbind]; [|discriminate].
    intros H. destruct n as [|n]; [discriminate|]. injection H as <- <- <-. split; [lia|].
    destruct (iterations_trace _ _ _ _ _ _ _ E) as (st & S0 & Sn & L1 & L2 & St).
    exists st. split; [auto|]. split; [auto|]. split; [rewrite app_length; cbn; lia|]. split; [auto|]. split.
    - intros t Ht. destruct (Nat.eq_dec t (S n)) as [->|].
      + rewrite nth_error_app2 by lia. rewrite L1, Nat.sub_diag. cbn. now rewrite Sn.
      + rewrite nth_error_app1 by lia. destruct (St t ltac:(lia)) as (s' & c & e & ind' & _ & _ & _ & C & _ & F).
        now rewrite C, F.
    - intros t Ht. destruct (St t Ht) as (s' & c & e & ind' & A & A' & B & C & D & F).
      exists e, ind'. subst s' c. unfold in_use. cbn [Nat.add] in A. auto.
  Qed.

  (* ---- one iteration seen by one DM ---- *)
  Lemma iteration_dms i ind s ind' s' c e : iteration i ind s = Ok (ind', s', c, e) ->
    let relin := (negb adefc && flagRelin relinItrVec i)%bool in
    dm_step relin (usedb ind' 1) (w1 s) (delta i 1) (w1 s') /\
    dm_step relin (usedb ind' 2) (w2 s) (delta i 2) (w2 s') /\
    v_step (usedb ind' 8) (w8 s) (delta i 8) (w8 s') /\
    v_step (usedb ind' 9) (w9 s) (delta i 9) (w9 s').
  Proof.
    unfold WfscModel.iteration. destruct (select_dms planned sched i ind) as [l|]; cbn [rbind]; [|discriminate].
    cbn zeta. generalize (negb adefc && flagRelin relinItrVec i)%bool. intros relin.
    destruct (if relin then enforce_used l s else Ok s) as [sa|] eqn:E1; cbn [rbind]; [|discriminate].
    destruct (add_used l (delta i) sa) as [sb|] eqn:E2; cbn [rbind]; [|discriminate].
    destruct (enforce_used l sb) as [sc|] eqn:E3; cbn [rbind]; [|discriminate]. intros [= <- <- <- <-].
    unfold add_used in E2. unfold enforce_used in E3.
    destruct (if usedb l 1 then zip_with Rplus (cV (w1 sa)) (delta i 1) else Ok (cV (w1 sa))) as [v1|] eqn:A1; cbn [rbind] in E2; [|discriminate].
    destruct (if usedb l 2 then zip_with Rplus (cV (w2 sa)) (delta i 2) else Ok (cV (w2 sa))) as [v2|] eqn:A2; cbn [rbind] in E2; [|discriminate].
    destruct (if usedb l 8 then zip_with Rplus (w8 sa) (delta i 8) else Ok (w8 sa)) as [v8|] eqn:A8; cbn [rbind] in E2; [|discriminate].
    destruct (if usedb l 9 then zip_with Rplus (w9 sa) (delta i 9) else Ok (w9 sa)) as [v9|] eqn:A9; cbn [rbind] in E2; [|discriminate].
    injection E2 as <-. cbn [w1 w2 w8 w9] in E3.
    match type of E3 with rbind ?x _ = _ => destruct x as [d1|] eqn:C1 end; cbn [rbind] in E3; [|discriminate].
    match type of E3 with rbind ?x _ = _ => destruct x as [d2|] eqn:C2 end; cbn [rbind] in E3; [|discriminate].
    injection E3 as <-. cbn [w1 w2 w8 w9].
    assert (P : (if relin then if usedb l 1 then enforce (w1 s) = Ok (w1 sa) else w1 sa = w1 s else w1 sa = w1 s) /\
                (if relin then if usedb l 2 then enforce (w2 s) = Ok (w2 sa) else w2 sa = w2 s else w2 sa = w2 s) /\
                w8 sa = w8 s /\ w9 sa = w9 s).
    { destruct relin; [|inversion E1; subst sa; auto]. unfold enforce_used in E1.
      destruct (usedb l 1); [destruct (enforce (w1 s)) eqn:B1|]; cbn [rbind] in E1; try discriminate;
      (destruct (usedb l 2); [destruct (enforce (w2 s)) eqn:B2|]; cbn [rbind] in E1; try discriminate; inversion E1; subst sa; auto). }
    destruct P as (P1 & P2 & P8 & P9). unfold dm_step, v_step.
    assert (SV : forall d : dmr, set_cV d (cV d) = d) by (intros []; reflexivity).
    split; [|split; [|split]].
    - destruct (usedb l 1); [|injection A1 as <-; injection C1 as <-; rewrite SV; destruct relin; auto].
      exists (w1 sa), v1. destruct relin; auto.
    - destruct (usedb l 2); [|injection A2 as <-; injection C2 as <-; rewrite SV; destruct relin; auto].
      exists (w2 sa), v2. destruct relin; auto.
    - rewrite P8 in A8. destruct (usedb l 8); [auto|injection A8 as <-; auto].
    - rewrite P9 in A9. destruct (usedb l 9); [auto|injection A9 as <-; auto].
  Qed.
End Loop.

(* ---- an unconstrained mirror ---- *)
(* same parameters, whatever the command *)
Record same_par (n : nat) (d d' : dmr) : Prop := mksp {
  sp_ok : dm_ok n d'; sp_free : free d'; sp_bias : biasMap d' = biasMap d;
  sp_min : cVmin d' = cVmin d; sp_max : cVmax d' = cVmax d }.

Lemma nonzero_none {X} (f : X -> bool) l : (forall x, In x l -> f x = false) -> nonzero f l = [].
Proof.
  unfold nonzero. generalize 0%Z. induction l as [|x l IH]; intros k H; auto. cbn.
  rewrite (H x (or_introl eq_refl)). apply IH. intros y Hy. apply H. now right.
Qed.

Lemma enforce_free n d : dm_ok n d -> free d -> in_limits n d (val (cV d)) ->
  exists d', enforce d = Ok d' /\ cV d' = cV d /\ same_par n d d'.
Proof.
  intros Hok (F1 & F2 & F3 & F4 & F5) HL.
  destruct (enforce_ok n d Hok) as (d' & E & Hok' & EN & EDd & EB & Emin & Emax & ET & EM & HD & (np & nv & P1 & P2 & P3 & P4) & HP & HV).
  exists d'. split; [auto|].
  assert (ND : forall i, ~ is_dead d i).
  { intros i H. unfold is_dead in H. destruct (dead_map d) as [m|] eqn:Em; [rewrite (F5 m i eq_refl) in H; discriminate|rewrite F1 in H; destruct H]. }
  assert (HVi : forall i, (i < n)%nat -> val (cV d') i = val (cV d) i).
  { intros i Hi. rewrite HV by auto.
    assert (C0 : copies d i = None) by (unfold copies; rewrite F4; reflexivity). rewrite C0.
    specialize (HL i Hi). unfold limf, pinf, v0f.
    assert (D : deadb d i = false) by (destruct (deadb d i) eqn:Ed; auto; apply deadb_iff in Ed; exfalso; eapply ND; eauto).
    rewrite D. destruct (Rlt_dec (cVmax d) (val (cV d) i + val (biasMap d) i)); [lra|].
    destruct (Rlt_dec (val (cV d) i + val (biasMap d) i) (cVmin d)); [lra|].
    unfold pin_of. rewrite F2. reflexivity. }
  assert (Heq : cV d' = cV d).
  { apply nth_ext with (d := 0) (d' := 0).
    - destruct Hok as (_ & _ & L & _), Hok' as (_ & _ & L' & _). congruence.
    - intros i Hi. apply HVi. destruct Hok' as (_ & _ & L' & _). lia. }
  split; [exact Heq|]. split; auto.
  (* nothing new is pinned: recompute *)
  unfold enforce, enforce_constraints in E.
  destruct (get_dead_map R d) as [dm|] eqn:Edm; cbn [rbind] in E; [|discriminate].
  destruct (zip_with (mask_dead R 0) (cV d) dm) as [V0|] eqn:EV0; cbn [rbind] in E; [|discriminate].
  destruct (zip_with Rplus V0 (biasMap d)) as [Vt|] eqn:EVt; cbn [rbind] in E; [|discriminate].
  assert (Ldm : length dm = n /\ forall i, nth i dm false = false).
  { unfold get_dead_map in Edm. destruct (dead_map d) as [m|] eqn:Em.
    - injection Edm as <-. destruct Hok as (_ & _ & _ & _ & _ & Hm & _). split; [now apply Hm|]. intros i. now apply F5.
    - rewrite F1 in Edm. cbn in Edm. injection Edm as <-. rewrite repeat_length.
      destruct Hok as (H0 & H1 & _). split; [rewrite H1; lia|]. intros i. apply nth_repeat. }
  destruct Ldm as [Ldm Ndm].
  pose proof Hok as (_ & _ & LV & LB & _).
  destruct (zip_with_ok (mask_dead R 0) (cV d) dm n LV Ldm) as (V0' & EV0' & LV0 & NV0).
  rewrite EV0 in EV0'. injection EV0' as <-.
  destruct (zip_with_ok Rplus V0 (biasMap d) n LV0 LB) as (Vt' & EVt' & LVt & NVt).
  rewrite EVt in EVt'. injection EVt' as <-.
  assert (Vti : forall i, (i < n)%nat -> nth_error Vt i = Some (val (cV d) i + val (biasMap d) i)).
  { intros i Hi. apply NVt; [|apply nth_nth_error; lia].
    rewrite (NV0 i (val (cV d) i) (nth i dm false)); [|apply nth_nth_error; lia|apply nth_nth_error; lia].
    rewrite Ndm. reflexivity. }
  assert (Lo : nonzero (fun x => Rltb x (cVmin d)) Vt = []).
  { apply nonzero_none. intros x Hx. apply In_nth_error in Hx. destruct Hx as [i Hi].
    assert (Hin : (i < n)%nat) by (rewrite <- LVt; apply nth_error_Some; congruence).
    rewrite Vti in Hi by auto. injection Hi as <-. destruct (Rltb _ _) eqn:Ex; auto. apply Rltb_iff in Ex. specialize (HL i Hin). lra. }
  assert (Hi : nonzero (fun x => Rltb (cVmax d) x) Vt = []).
  { apply nonzero_none. intros x Hx. apply In_nth_error in Hx. destruct Hx as [i Hi].
    assert (Hin : (i < n)%nat) by (rewrite <- LVt; apply nth_error_Some; congruence).
    rewrite Vti in Hi by auto. injection Hi as <-. destruct (Rltb _ _) eqn:Ex; auto. apply Rltb_iff in Ex. specialize (HL i Hin). lra. }
  rewrite Lo, Hi, F2, F3, F4 in E. cbn in E. injection E as <-.
  unfold free. cbn. repeat split; auto. intros m i [= <-]. apply Ndm.
Qed.

Lemma free_step n relin used d x d' : dm_ok n d -> free d -> in_limits n d (val (cV d)) ->
  (used = true -> length x = n) ->
  (used = true -> in_limits n d (fun i => val (cV d) i + val x i)) ->
  dm_step relin used d x d' ->
  same_par n d d' /\ forall i, (i < n)%nat -> val (cV d') i = val (cV d) i + (if used then val x i else 0).
Proof.
  intros Hok Hf HL Hx HL' HS. unfold dm_step in HS. destruct used.
  2:{ subst d'. split; [split; auto|]. intros; ring. }
  destruct HS as (d1 & v & E1 & Ev & E2). specialize (Hx eq_refl). specialize (HL' eq_refl).
  assert (Q : cV d1 = cV d /\ same_par n d d1).
  { destruct relin; [|subst d1; split; [auto|split; auto]].
    destruct (enforce_free n d Hok Hf HL) as (d1' & E & A & B). rewrite E in E1. injection E1 as <-. auto. }
  destruct Q as [Q1 [Q2 Q3 Q4 Q5 Q6]].
  assert (L1 : length (cV d1) = n) by apply Q2.
  destruct (zip_with_ok Rplus (cV d1) x n L1 Hx) as (v' & Ev' & Lv & Nv). rewrite Ev in Ev'. injection Ev' as <-.
  assert (Vv : forall i, (i < n)%nat -> val v i = val (cV d) i + val x i).
  { intros i Hi. unfold val. apply nth_error_nth. rewrite <- Q1. apply Nv; apply nth_nth_error; lia. }
  assert (Ok2 : dm_ok n (set_cV d1 v)).
  { destruct Q2 as (A1 & A2 & A3 & A4 & A5 & A6 & A7 & A8 & A9). unfold dm_ok. cbn. repeat split; auto. }
  assert (F2 : free (set_cV d1 v)) by exact Q3.
  assert (L2 : in_limits n (set_cV d1 v) (val (cV (set_cV d1 v)))).
  { intros i Hi. cbn [set_cV cV cVmin cVmax biasMap]. rewrite Q4, Q5, Q6, Vv by auto. apply HL'; auto. }
  destruct (enforce_free n _ Ok2 F2 L2) as (d2 & E & A & [B1 B2 B3 B4 B5]). rewrite E in E2. injection E2 as <-.
  cbn in A, B3, B4, B5. split; [split; auto; congruence|].
  intros i Hi. rewrite A. apply Vv; auto.
Qed.

(* ---- weights ---- *)
Lemma weight_all_spec W star_of stars G p c m : NoDup stars ->
  weight_all W star_of stars G p c m =
  if in_dec Nat.eq_dec (star_of m) stars then cscale (W p (star_of m)) (G p c m) else G p c m.
Proof.
  revert G. induction stars as [|s t IH]; intros G ND; [reflexivity|].
  apply NoDup_cons_iff in ND. destruct ND as [Hs ND]. cbn [weight_all]. rewrite IH by auto. unfold weight_star.
  destruct (Nat.eqb_spec (star_of m) s) as [e|e].
  - destruct (in_dec Nat.eq_dec (star_of m) t) as [H|H]; [rewrite e in H; contradiction|].
    destruct (in_dec Nat.eq_dec (star_of m) (s :: t)) as [H'|H']; [now rewrite e|]. exfalso. apply H'. now left.
  - destruct (in_dec Nat.eq_dec (star_of m) t) as [H|H]; destruct (in_dec Nat.eq_dec (star_of m) (s :: t)) as [H'|H']; auto.
    + exfalso. apply H'. now right.
    + destruct H' as [H'|H']; [congruence|contradiction].
Qed.

Lemma jac_iters_weights W star_of nstars : forall steps fresh h o base k t G,
  (gref o < fresh)%nat ->
  (forall b, base = Some b -> forall p c m, (star_of m < nstars)%nat -> h (gref o) p c m = cscale (W p (star_of m) ^ k) (b p c m)) ->
  nth_error (snd (jac_iters W star_of nstars fresh steps h o)) t = Some G ->
  forall b n, since steps base k t = (Some b, n) ->
  forall p c m, (star_of m < nstars)%nat -> G p c m = cscale (W p (star_of m) ^ n) (b p c m).
Proof.
  induction steps as [|[g u] steps IH]; intros fresh h o base k t G Hf Hb Ht b n Hs p c m Hm.
  - cbn in Ht. destruct t; discriminate.
  - cbn [jac_iters] in Ht. destruct (jac_iter W star_of nstars fresh g u h o) as [[h1 o1] ug] eqn:E1.
    destruct (jac_iters W star_of nstars (S fresh) steps h1 o1) as [[h2 o2] gs] eqn:E2. cbn [snd] in Ht.
    unfold jac_iter in E1.
    set (base' := match g with Some x => Some x | None => base end).
    set (k' := match g with Some _ => O | None => k end).
    assert (HS : since ((g, u) :: steps) base k t =
              match t with O => (base', if u then S k' else k') | S t' => since steps base' (if u then S k' else k') t' end).
    { cbn [since]. unfold base', k'. destruct g; reflexivity. }
    rewrite HS in Hs. clear HS.
    (* heap before weighting *)
    assert (Q : exists h0 r, (r < S fresh)%nat /\ o1 = mkjobj r /\ h1 = apply_weights W star_of nstars u h0 o1 /\ ug = h1 r /\
       forall b, base' = Some b -> forall p c m, (star_of m < nstars)%nat -> h0 r p c m = cscale (W p (star_of m) ^ k') (b p c m)).
    { destruct g as [g|].
      - injection E1 as <- <- <-. exists (hset h fresh g), fresh. split; [lia|]. split; [reflexivity|]. split; [reflexivity|]. split; [reflexivity|].
        intros b' Hb' p' c' m' _. unfold base' in Hb'. injection Hb' as <-. unfold hset. rewrite Nat.eqb_refl. unfold k', cscale. cbn.
        destruct (g p' c' m'); cbn; f_equal; ring.
      - injection E1 as <- <- <-. destruct o as [r]. cbn [gref copy_shallow] in *. exists h, r. split; [lia|]. split; [reflexivity|]. split; [reflexivity|]. split; [reflexivity|].
        intros b' Hb'. unfold base' in Hb'. apply Hb; auto. }
    destruct Q as (h0 & r & Hr & -> & Eh1 & -> & Hb0).
    assert (H1 : forall b, base' = Some b -> forall p c m, (star_of m < nstars)%nat ->
              h1 r p c m = cscale (W p (star_of m) ^ (if u then S k' else k')) (b p c m)).
    { intros b' Hb' p' c' m' Hm'. rewrite Eh1. unfold apply_weights. destruct u; [|now apply Hb0].
      unfold hset. cbn [gref]. rewrite Nat.eqb_refl, weight_all_spec by apply seq_NoDup.
      destruct (in_dec Nat.eq_dec (star_of m') (seq 0 nstars)) as [_|Hn]; [|exfalso; apply Hn; apply in_seq; lia].
      rewrite (Hb0 b' Hb' p' c' m' Hm'). unfold cscale. cbn. f_equal; ring. }
    destruct t as [|t].
    + cbn in Ht. injection Ht as <-. injection Hs as Hb' <-. apply H1; auto.
    + cbn [nth_error] in Ht. eapply (IH (S fresh) h1 (mkjobj r) base' (if u then S k' else k') t G); eauto.
      rewrite E2. exact Ht.
Qed.

(* ---- a mirror over a whole run ---- *)
Lemma same_par_trans n a b c : same_par n a b -> same_par n b c -> same_par n a c.
Proof. intros [A1 A2 A3 A4 A5] [B1 B2 B3 B4 B5]. split; auto; congruence. Qed.

Lemma mirror_run n (relin used : nat -> bool) (x : nat -> list R) (st : nat -> dmr) N :
  dm_ok n (st 0%nat) -> free (st 0%nat) ->
  (forall t, (t < N)%nat -> dm_step (relin t) (used t) (st t) (x t) (st (S t))) ->
  (forall t, (t < N)%nat -> used t = true -> length (x t) = n) ->
  (forall t, (t <= N)%nat -> in_limits n (st 0%nat) (fun i => val (cV (st 0%nat)) i + applied used x t i)) ->
  forall t, (t <= N)%nat -> same_par n (st 0%nat) (st t) /\
    forall i, (i < n)%nat -> val (cV (st t)) i = val (cV (st 0%nat)) i + applied used x t i.
Proof.
  intros H0 F0 HS HX HL. induction t as [|t IH]; intros Ht.
  - split; [split; auto|]. intros i Hi. unfold applied. cbn. ring.
  - destruct (IH ltac:(lia)) as [SP HV].
    assert (Lt : in_limits n (st t) (val (cV (st t)))).
    { intros i Hi. destruct SP as [_ _ S3 S4 S5]. rewrite S3, S4, S5, HV by auto. apply (HL t); auto; lia. }
    destruct (free_step n (relin t) (used t) (st t) (x t) (st (S t))) as [SP' HV'].
    + apply SP.
    + apply SP.
    + exact Lt.
    + intros Hu. apply HX; auto; lia.
    + intros Hu i Hi. destruct SP as [_ _ S3 S4 S5]. rewrite S3, S4, S5, HV by auto.
      specialize (HL (S t) Ht i Hi). unfold applied in *. cbn [rsum] in HL. rewrite Hu in HL.
      rewrite <- Rplus_assoc in HL. exact HL.
    + apply HS; lia.
    + split; [eapply same_par_trans; eauto|]. intros i Hi. rewrite HV', HV by auto. unfold applied. cbn [rsum]. ring.
Qed.

Lemma v_run n (used : nat -> bool) (x : nat -> list R) (st : nat -> list R) N :
  length (st 0%nat) = n ->
  (forall t, (t < N)%nat -> v_step (used t) (st t) (x t) (st (S t))) ->
  forall t, (t <= N)%nat -> length (st t) = n /\
    forall i, (i < n)%nat -> val (st t) i = val (st 0%nat) i + applied used x t i.
Proof.
  intros H0 HS. induction t as [|t IH]; intros Ht.
  - split; auto. intros i Hi. unfold applied. cbn. ring.
  - destruct (IH ltac:(lia)) as [L HV]. specialize (HS t Ht). unfold v_step in HS.
    destruct (used t) eqn:U.
    + unfold zip_with in HS at 1. destruct (Nat.eqb_spec (length (st t)) (length (x t))) as [El|]; [|discriminate].
      destruct (zip_with_ok Rplus (st t) (x t) n L) as (w & Ew & Lw & Nw); [congruence|].
      unfold zip_with in Ew. rewrite (proj2 (Nat.eqb_eq _ _) El) in Ew. rewrite Ew in HS. injection HS as <-.
      split; auto. intros i Hi.
      assert (Hw : nth_error w i = Some (val (st t) i + val (x t) i)) by (apply Nw; apply nth_nth_error; lia).
      unfold val at 1. rewrite (nth_error_nth w i 0 Hw).
      unfold applied. cbn [rsum]. rewrite U. fold (applied used x t i). rewrite HV by auto. ring.
    + rewrite HS. split; auto. intros i Hi. rewrite HV by auto. unfold applied. cbn [rsum]. rewrite U. ring.
Qed.

(* ---- no failure ---- *)
Lemma add_enforce n d x : dm_ok n d -> length x = n -> exists v d', zip_with Rplus (cV d) x = Ok v /\
  dm_ok n (set_cV d v) /\ enforce (set_cV d v) = Ok d' /\ dm_ok n d'.
Proof.
  intros Hok Hx. assert (L : length (cV d) = n) by apply Hok.
  destruct (zip_with_ok Rplus (cV d) x n L Hx) as (v & Ev & Lv & _).
  assert (Ok2 : dm_ok n (set_cV d v)).
  { destruct Hok as (A1 & A2 & A3 & A4 & A5 & A6 & A7 & A8 & A9). unfold dm_ok. cbn. repeat split; auto. }
  destruct (enforce_ok n _ Ok2) as (d' & E & Hok' & _). exists v, d'. auto.
Qed.

Definition wst_ok (n1 n2 n8 n9 : nat) (s : wst) : Prop :=
  dm_ok n1 (w1 s) /\ dm_ok n2 (w2 s) /\ length (w8 s) = n8 /\ length (w9 s) = n9.

Section Total.
  Variables planned adefc : bool.
  Variable sched : list (list Z).
  Variable relinItrVec : list Z.
  Variable delta : nat -> Z -> list R.
  Variables n1 n2 n8 n9 : nat.
  Hypothesis Hd : forall t, length (delta t 1%Z) = n1 /\ length (delta t 2%Z) = n2 /\ length (delta t 8%Z) = n8 /\ length (delta t 9%Z) = n9.

  Lemma enforce_used_ok ind s : wst_ok n1 n2 n8 n9 s -> exists s', enforce_used ind s = Ok s' /\ wst_ok n1 n2 n8 n9 s'.
  Proof.
    intros (A & B & C & D). unfold enforce_used.
    destruct (enforce_ok _ _ A) as (d1 & E1 & O1 & _). destruct (enforce_ok _ _ B) as (d2 & E2 & O2 & _).
    destruct (usedb ind 1); [rewrite E1|]; (destruct (usedb ind 2); [rewrite E2|]); cbn [rbind]; eexists; split; try reflexivity; repeat split; auto; try (apply O1 || apply O2 || apply A || apply B).
  Qed.
  Lemma add_used_ok ind t s : wst_ok n1 n2 n8 n9 s -> exists s', add_used ind (delta t) s = Ok s' /\ wst_ok n1 n2 n8 n9 s'.
  Proof.
    intros (A & B & C & D). destruct (Hd t) as (X1 & X2 & X8 & X9). unfold add_used.
    destruct (add_enforce _ _ _ A X1) as (v1 & _ & E1 & O1 & _). destruct (add_enforce _ _ _ B X2) as (v2 & _ & E2 & O2 & _).
    destruct (zip_with_ok Rplus _ _ _ C X8) as (v8 & E8 & L8 & _). destruct (zip_with_ok Rplus _ _ _ D X9) as (v9 & E9 & L9 & _).
    assert (SV : forall d : dmr, set_cV d (cV d) = d) by (intros []; reflexivity).
    assert (Q1 : exists v, (if usedb ind 1 then zip_with Rplus (cV (w1 s)) (delta t 1%Z) else Ok (cV (w1 s))) = Ok v /\ dm_ok n1 (set_cV (w1 s) v)).
    { destruct (usedb ind 1); [exists v1; auto|exists (cV (w1 s)); rewrite SV; auto]. }
    assert (Q2 : exists v, (if usedb ind 2 then zip_with Rplus (cV (w2 s)) (delta t 2%Z) else Ok (cV (w2 s))) = Ok v /\ dm_ok n2 (set_cV (w2 s) v)).
    { destruct (usedb ind 2); [exists v2; auto|exists (cV (w2 s)); rewrite SV; auto]. }
    assert (Q8 : exists v, (if usedb ind 8 then zip_with Rplus (w8 s) (delta t 8%Z) else Ok (w8 s)) = Ok v /\ length v = n8).
    { destruct (usedb ind 8); [exists v8; auto|exists (w8 s); auto]. }
    assert (Q9 : exists v, (if usedb ind 9 then zip_with Rplus (w9 s) (delta t 9%Z) else Ok (w9 s)) = Ok v /\ length v = n9).
    { destruct (usedb ind 9); [exists v9; auto|exists (w9 s); auto]. }
    destruct Q1 as (u1 & -> & P1). destruct Q2 as (u2 & -> & P2). destruct Q8 as (u8 & -> & P8). destruct Q9 as (u9 & -> & P9).
    cbn [rbind]. eexists; split; [reflexivity|]. split; [exact P1|]. split; [exact P2|]. split; auto.
  Qed.
  Lemma iterations_ok : forall m k ind s, (planned = true -> (k + m <= length sched)%nat) -> wst_ok n1 n2 n8 n9 s ->
    exists r, WfscModel.iterations planned adefc sched relinItrVec delta (seq k m) ind s = Ok r /\ wst_ok n1 n2 n8 n9 (fst (fst r)).
  Proof.
    induction m as [|m IH]; intros k ind s Hs Hw; [eexists; split; [reflexivity|auto]|].
    cbn [seq WfscModel.iterations]. unfold iteration.
    assert (Q : exists l, select_dms planned sched k ind = Ok l).
    { unfold select_dms. destruct planned; [|eauto]. destruct (nth_error sched k) eqn:E; [eauto|].
      apply nth_error_None in E. specialize (Hs eq_refl). lia. }
    destruct Q as [l ->]. cbn [rbind].
    assert (Q : exists s1, (if negb adefc && flagRelin relinItrVec k then enforce_used l s else Ok s) = Ok s1 /\ wst_ok n1 n2 n8 n9 s1).
    { destruct (negb adefc && flagRelin relinItrVec k); [apply enforce_used_ok; auto|eauto]. }
    destruct Q as (s1 & -> & W1). cbn [rbind].
    destruct (add_used_ok l k s1 W1) as (s2 & -> & W2). cbn [rbind].
    destruct (enforce_used_ok l s2 W2) as (s3 & -> & W3). cbn [rbind].
    destruct (IH (S k) l s3) as (r & E & W); auto; [intros H; specialize (Hs H); lia|].
    destruct r as [[sf cs] es]. rewrite E. cbn [rbind]. eexists; split; [reflexivity|exact W].
  Qed.
  Lemma loop_ok N ind s : (0 < N)%nat -> (planned = true -> (N <= length sched)%nat) -> wst_ok n1 n2 n8 n9 s ->
    exists sf cs es, WfscModel.loop planned adefc sched relinItrVec delta N ind s = Ok (sf, cs, es).
  Proof.
    intros H0 Hs Hw. unfold WfscModel.loop. destruct (iterations_ok N 0 ind s) as ([[sf cs] es] & E & _); auto.
    rewrite E. cbn [rbind]. destruct N; [lia|]. eauto.
  Qed.
End Total.

(* ---- intensities ---- *)
Definition count (m : list bool) : nat := length (filter (fun b => b) m).
Lemma select_place : forall m v, length v = count m -> select m (place m v) = v.
Proof.
  unfold count. induction m as [|[|] m IH]; intros v H; cbn in *.
  - destruct v; [auto|discriminate].
  - destruct v as [|x v]; [discriminate|]. cbn. rewrite IH; auto.
  - apply IH; auto.
Qed.
(* the second mask contained in the first *)
Definition inside (score corr : list bool) : Prop :=
  length score = length corr /\ forall i, nth i score false = true -> nth i corr false = true.
Lemma select_place_inside : forall corr score v, inside score corr -> length v = count corr ->
  select score (place corr v) = select (select corr score) v.
Proof.
  unfold count, inside. induction corr as [|c corr IH]; intros score v [L H] Hv.
  - destruct score; [|discriminate]. reflexivity.
  - destruct score as [|s score]; [discriminate|]. cbn in L.
    assert (H' : forall i, nth i score false = true -> nth i corr false = true) by (intros i; apply (H (S i))).
    destruct c.
    + cbn in Hv. destruct v as [|x v]; [discriminate|]. cbn. destruct s; cbn; rewrite IH; auto.
    + assert (s = false) by (destruct s; auto; specialize (H 0%nat eq_refl); discriminate). subst s.
      cbn in *. apply IH; auto.
Qed.
Lemma vecl_length n f : length (vecl n f) = n.
Proof. unfold vecl. now rewrite map_length, seq_length. Qed.
Lemma mean_vecl n f : mean (vecl n f) = rsum n f / INR n.
Proof. unfold mean. rewrite vecl_length. unfold vecl. now rewrite rsuml_map_seq. Qed.
Lemma select_map {X Y} (f : X -> Y) m l : select m (map f l) = map f (select m l).
Proof. revert m. induction l as [|x l IH]; intros [|b m]; auto. cbn. destruct b; cbn; now rewrite IH. Qed.
Lemma rsuml_rsum_swap (l : list nat) N (f : nat -> nat -> R) :
  rsuml (map (fun p => rsum N (fun m => f m p)) l) = rsum N (fun m => rsuml (map (f m) l)).
Proof. induction l as [|p l IH]; cbn; [symmetry; apply rsum_zero; auto|]. rewrite IH, rsum_plus. reflexivity. Qed.
Lemma mean_sum (l : list nat) N (f : nat -> nat -> R) :
  mean (map (fun p => rsum N (fun m => f m p)) l) = rsum N (fun m => mean (map (f m) l)).
Proof.
  unfold mean. rewrite map_length, rsuml_rsum_swap. unfold Rdiv. rewrite <- rsum_scal_r. apply rsum_ext. intros k _. now rewrite map_length.
Qed.
Lemma mean_scal (l : list nat) (c : R) (f : nat -> R) : mean (map (fun p => c * f p) l) = c * mean (map f l).
Proof.
  unfold mean. rewrite !map_length. unfold Rdiv.
  assert (H : rsuml (map (fun p => c * f p) l) = c * rsuml (map f l)) by (induction l as [|p l IH]; cbn; [ring|]; rewrite IH; ring).
  rewrite H. ring.
Qed.
