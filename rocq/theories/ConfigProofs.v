From Verif Require Import Base StrBase ConfigModel ConfigSpec.
From Coq Require Import FunctionalExtensionality.
Local Open Scope list_scope.

(* ---- dictionaries ---- *)
Lemma assoc_upd {A} k v (d : list (string * A)) k' : assoc k' (upd k v d) = if String.eqb k' k then Some v else assoc k' d.
Proof.
  induction d as [|[k0 w] d IH]; cbn.
  - destruct (String.eqb k' k); reflexivity.
  - destruct (String.eqb_spec k k0) as [->|Hne]; cbn.
    + destruct (String.eqb_spec k' k0); reflexivity.
    + rewrite IH. destruct (String.eqb_spec k' k0) as [->|]; [|reflexivity].
      destruct (String.eqb_spec k0 k); [congruence|reflexivity].
Qed.
Lemma assoc_none {A} k (d : list (string * A)) : assoc k d = None <-> ~ In k (map fst d).
Proof.
  induction d as [|[k0 w] d IH]; cbn; [tauto|]. destruct (String.eqb_spec k k0) as [->|Hne].
  - split; [discriminate|]. intros H. exfalso. apply H. now left.
  - rewrite IH. split; [intros H [E|E]; [congruence|now apply H]|intros H E; apply H; now right].
Qed.
Lemma assoc_in {A} k v (d : list (string * A)) : assoc k d = Some v -> In (k, v) d.
Proof.
  induction d as [|[k0 w] d IH]; cbn; [discriminate|]. destruct (String.eqb_spec k k0) as [->|Hne]; [intros [= ->]; now left|right; auto].
Qed.

Definition go_merge (pb : bool) := fix go (b acc : list (string * tree)) : list (string * tree) :=
  match b with
  | [] => acc
  | (k, v) :: t => go t (upd k (match assoc k acc with None => v | Some w => merge pb w v end) acc)
  end.
Lemma merge_dict pb a b : merge pb (TDict a) (TDict b) = TDict (go_merge pb b a).
Proof. reflexivity. Qed.

Lemma go_assoc pb b : NoDup (map fst b) -> forall a k,
  assoc k (go_merge pb b a) =
  match assoc k a, assoc k b with
  | None, x => x
  | Some w, None => Some w
  | Some w, Some v => Some (merge pb w v)
  end.
Proof.
  induction b as [|[k0 v0] b IH]; intros ND a k; cbn [go_merge assoc].
  - destruct (assoc k a); reflexivity.
  - inversion ND as [|? ? Hni ND']; subst. rewrite (IH ND'). rewrite assoc_upd.
    destruct (String.eqb_spec k k0) as [->|Hne].
    + apply assoc_none in Hni. rewrite Hni. destruct (assoc k0 a); reflexivity.
    + reflexivity.
Qed.

Lemma wf_sub d k v : wf (TDict d) -> assoc k d = Some v -> wf v.
Proof. intros H E. inversion H; subst. eapply H2. eapply assoc_in. exact E. Qed.
Lemma wf_nodup d : wf (TDict d) -> NoDup (map fst d).
Proof. intros H. now inversion H. Qed.

(* one level *)
Lemma merge_level pb a b k : wf (TDict b) ->
  get (merge pb (TDict a) (TDict b)) [k] =
  match assoc k a, assoc k b with
  | None, x => x
  | Some w, None => Some w
  | Some w, Some v => Some (merge pb w v)
  end.
Proof.
  intros H. rewrite merge_dict. cbn [get]. rewrite go_assoc by now apply wf_nodup.
  destruct (assoc k a), (assoc k b); reflexivity.
Qed.
Lemma get_cons t k r : get t (k :: r) = match get t [k] with Some v => get v r | None => None end.
Proof. cbn. destruct t; auto. destruct (assoc k d); auto. Qed.

(* conservative: an atomic keyword wins *)
Lemma base_atom_wins p : forall base nxt v, wf nxt -> get base p = Some v -> atomic v -> get (merge true base nxt) p = Some v.
Proof.
  induction p as [|k r IH]; intros base nxt v Hw Hg Ha.
  - cbn in Hg. injection Hg as ->. destruct v; try contradiction; destruct nxt; reflexivity.
  - destruct base as [n|o|l|d]; try discriminate. destruct nxt as [n|o|l|e].
    + exact Hg.
    + exact Hg.
    + exact Hg.
    + rewrite get_cons, merge_level by exact Hw. cbn [get] in Hg. destruct (assoc k d) as [w|] eqn:E; [|discriminate].
      destruct (assoc k e) as [x|] eqn:E2; [|exact Hg]. apply IH; auto. eapply wf_sub; eauto.
Qed.
(* a default the keywords do not mention is kept (any strategy) *)
Lemma silent_keeps pb p : forall base nxt v, wf nxt -> get nxt p = Some v -> silent base p -> get (merge pb base nxt) p = Some v.
Proof.
  induction p as [|k r IH]; intros base nxt v Hw Hg (q & k1 & r1 & d & Ep & Gq & An).
  - destruct q; discriminate.
  - destruct nxt as [n|o|l|e]; try discriminate. cbn [get] in Hg. destruct (assoc k e) as [x|] eqn:E; [|discriminate].
    destruct q as [|k2 q].
    + cbn in Ep, Gq. injection Ep as <- <-. injection Gq as ->. rewrite get_cons, merge_level by exact Hw. rewrite An, E. exact Hg.
    + cbn in Ep. injection Ep as <- Ep. destruct base as [|?|?|a]; try discriminate. cbn [get] in Gq.
      destruct (assoc k a) as [w|] eqn:E1; [|discriminate].
      rewrite get_cons, merge_level by exact Hw. rewrite E1, E. apply IH; [eapply wf_sub; eauto|exact Hg|].
      exists q, k1, r1, d. auto.
Qed.
Lemma lists_append pb p : forall base nxt a b, wf nxt -> get base p = Some (TList a) -> get nxt p = Some (TList b) ->
  get (merge pb base nxt) p = Some (TList (a ++ b)).
Proof.
  induction p as [|k r IH]; intros base nxt a b Hw Ga Gb.
  - cbn in Ga, Gb. injection Ga as ->. injection Gb as ->. reflexivity.
  - destruct base as [|?|?|d]; try discriminate. destruct nxt as [|?|?|e]; try discriminate.
    cbn [get] in Ga, Gb. destruct (assoc k d) as [w|] eqn:E1; [|discriminate]. destruct (assoc k e) as [x|] eqn:E2; [|discriminate].
    rewrite get_cons, merge_level by exact Hw. rewrite E1, E2. apply IH; auto. eapply wf_sub; eauto.
Qed.
(* keyword entries absent from the defaults are kept as they are *)
Lemma new_keeps pb p : forall base nxt v, wf nxt -> get base p = Some v -> silent nxt p -> get (merge pb base nxt) p = Some v.
Proof.
  induction p as [|k r IH]; intros base nxt v Hw Hg (q & k1 & r1 & d & Ep & Gq & An).
  - destruct q; discriminate.
  - destruct base as [|?|?|a]; try discriminate. cbn [get] in Hg. destruct (assoc k a) as [x|] eqn:E; [|discriminate].
    destruct q as [|k2 q].
    + cbn in Ep, Gq. injection Ep as <- <-. injection Gq as ->. rewrite get_cons, merge_level by exact Hw. rewrite An, E. exact Hg.
    + cbn in Ep. injection Ep as <- Ep. destruct nxt as [|?|?|e]; try discriminate. cbn [get] in Gq.
      destruct (assoc k e) as [w|] eqn:E1; [|discriminate].
      rewrite get_cons, merge_level by exact Hw. rewrite E1, E. apply IH; [eapply wf_sub; eauto|exact Hg|].
      exists q, k1, r1, d. auto.
Qed.
(* always_merger: an atomic new value wins *)
Lemma next_atom_wins p : forall base nxt v, wf nxt -> get nxt p = Some v -> atomic v ->
  (p = [] \/ exists d, base = TDict d) ->
  get (merge false base nxt) p = Some v.
Proof.
  induction p as [|k r IH]; intros base nxt v Hw Hg Ha Hb.
  - cbn in Hg. injection Hg as ->. destruct v; try contradiction; destruct base; reflexivity.
  - destruct Hb as [Hb|(d & ->)]; [discriminate|].
    destruct nxt as [|?|?|e]; try discriminate. cbn [get] in Hg. destruct (assoc k e) as [x|] eqn:E; [|discriminate].
    rewrite get_cons, merge_level by exact Hw. rewrite E. destruct (assoc k d) as [w|] eqn:E1; [|exact Hg].
    destruct r as [|k2 r].
    + apply IH; auto. eapply wf_sub; eauto.
    + destruct x as [|?|?|x]; try discriminate. destruct w as [n|o|l|w].
      * exact Hg.
      * exact Hg.
      * exact Hg.
      * apply IH; auto; [eapply wf_sub; eauto|right; eauto].
Qed.

(* ---- C12 ---- *)
Section Access.
  Context {A : Type}.
  Variable methods : string -> option A.
  Lemma step_attrs o a k : match a with SetAttr k _ | SetItem k _ | ReadAttr k | ReadItem k => k <> "data"%string end ->
    assoc k (o_attrs (step A methods o a)) = match a with SetAttr k' v => if String.eqb k k' then Some v else assoc k (o_attrs o) | _ => assoc k (o_attrs o) end /\
    assoc k (o_data (step A methods o a)) = match a with SetItem k' v => if String.eqb k k' then Some v else assoc k (o_data o) | _ => assoc k (o_data o) end.
  Proof.
    destruct a as [k' v|k' v|k'|k']; intros Hd; cbn [step set_attr set_item o_attrs o_data]; rewrite ?assoc_upd; auto.
    - unfold read_attr. destruct (String.eqb_spec k' "data"); [contradiction|]. destruct (assoc k' (o_attrs o)); auto.
      destruct (methods k'); auto. unfold getattr_hook. destruct (String.eqb_spec k' "data"); [contradiction|].
      destruct (assoc k' (o_data o)); auto.
    - unfold read_item, getattr_hook. destruct (String.eqb_spec k' "data"); [contradiction|]. destruct (assoc k' (o_data o)); auto.
  Qed.
  Lemma run_last l : forall o k, avoids_data l ->
    assoc k (o_attrs (run_ops A methods o l)) = last_attr k l (assoc k (o_attrs o)) /\
    assoc k (o_data (run_ops A methods o l)) = last_item k l (assoc k (o_data o)).
  Proof.
    induction l as [|a l IH]; intros o k Hd; [auto|]. cbn [run_ops fold_left].
    destruct (IH (step A methods o a) k) as [E1 E2]; [intros b Hb; apply Hd; now right|].
    pose proof (step_attrs o a k (Hd a (or_introl eq_refl))) as [S1 S2].
    unfold run_ops in *. rewrite E1, E2, S1, S2. destruct a; auto.
  Qed.
End Access.

(* ---- C13 ---- *)
Section Lazy.
  Variable val : Type.
  Variable data : list (string * slot val).
  Variable body : nat -> code val.
  Notation reads := (reads val data body).
  Notation evaluates := (evaluates val data body).
  Notation runs := (runs val data body).
  Notation means := (means val data body).
  Notation gives := (gives val data body).
  Notation Circular := (Circular val).

  Scheme reads_mut := Minimality for ConfigModel.reads Sort Prop
    with evaluates_mut := Minimality for ConfigModel.evaluates Sort Prop
    with runs_mut := Minimality for ConfigModel.runs Sort Prop.
  Scheme means_mut := Minimality for ConfigSpec.means Sort Prop with gives_mut := Minimality for ConfigSpec.gives Sort Prop.

  Definition code_ind2 (P : code val -> Prop) (HR : forall v, P (Ret _ v)) (HT : forall e, P (Throw _ e))
    (HD : forall k ok m, (forall v, P (ok v)) -> match m with Some c => P c | None => True end -> P (Read _ k ok m)) : forall c, P c :=
    fix go c := match c with
    | Ret _ v => HR v
    | Throw _ e => HT e
    | Read _ k ok m => HD k ok m (fun v => go (ok v)) (match m with Some c => go c | None => I end)
    end.

  Lemma set_reset F id : F id = false -> set_flag (set_flag F id true) id false = F.
  Proof.
    intros H. apply functional_extensionality. intros j. unfold set_flag. destruct (Nat.eqb_spec j id) as [->|]; congruence.
  Qed.

  Lemma reads_restore : forall F k F' r, reads F k F' r -> F' = F.
  Proof.
    apply (reads_mut val data body (fun F k F' r => F' = F) (fun F id F' r => F' = F) (fun F c F' r => F' = F)); intros; subst; auto.
    now apply set_reset.
  Qed.
  Lemma evaluates_restore : forall F id F' r, evaluates F id F' r -> F' = F.
  Proof.
    apply (evaluates_mut val data body (fun F k F' r => F' = F) (fun F id F' r => F' = F) (fun F c F' r => F' = F)); intros; subst; auto.
    now apply set_reset.
  Qed.
  Lemma runs_restore : forall F c F' r, runs F c F' r -> F' = F.
  Proof.
    apply (runs_mut val data body (fun F k F' r => F' = F) (fun F id F' r => F' = F) (fun F c F' r => F' = F)); intros; subst; auto.
    now apply set_reset.
  Qed.

  (* soundness: a non-circular result is the meaning *)
  Lemma reads_sound : forall F k F' r, reads F k F' r -> r <> Circular -> means k r.
  Proof.
    apply (reads_mut val data body (fun F k F' r => r <> Circular -> means k r)
             (fun F id F' r => r <> Circular -> gives (body id) r) (fun F c F' r => r <> Circular -> gives c r)).
    - intros. now constructor.
    - intros. now constructor.
    - intros F k id F' r E _ IH Hr. eapply m_lazy; eauto.
    - intros. congruence.
    - intros F id F1 r _ _ IH Hr. auto.
    - intros. constructor.
    - intros. constructor.
    - intros F k ok m F1 v F2 r _ IH1 _ IH2 Hr. eapply g_read; [apply IH1; discriminate|auto].
    - intros F k ok c F1 F2 r _ IH1 _ IH2 Hr. eapply g_default; [apply IH1; discriminate|auto].
    - intros F k ok m F1 r _ IH Hv Hc Hr. destruct r as [v|e|]; [exfalso; now apply (Hv v)| |congruence].
      apply g_error; auto.
  Qed.

  (* determinism of the meaning *)
  Lemma means_det : forall k r, means k r -> forall r', means k r' -> r' = r.
  Proof.
    apply (means_mut val data body (fun k r => forall r', means k r' -> r' = r) (fun c r => forall r', gives c r' -> r' = r)).
    - intros k E r' H. inversion H; subst; congruence.
    - intros k v E r' H. inversion H; subst; congruence.
    - intros k id r E _ IH r' H. inversion H; subst; try congruence. assert (id0 = id) by congruence. subst. auto.
    - intros v r' H. now inversion H.
    - intros e r' H. now inversion H.
    - intros k ok m v r _ IH1 _ IH2 r' H. inversion H; subst.
      + match goal with Hm : means k (Val _ _) |- _ => apply IH1 in Hm; injection Hm as -> end. auto.
      + match goal with Hm : means k (Err _ _) |- _ => apply IH1 in Hm; discriminate end.
      + match goal with Hm : means k (Err _ _) |- _ => apply IH1 in Hm; discriminate end.
    - intros k ok c r _ IH1 _ IH2 r' H. inversion H; subst.
      + match goal with Hm : means k (Val _ _) |- _ => apply IH1 in Hm; discriminate end.
      + auto.
      + match goal with Hm : means k (Err _ _) |- _ => apply IH1 in Hm; injection Hm as -> end. discriminate.
    - intros k ok m e _ IH Hc r' H. inversion H; subst.
      + match goal with Hm : means k (Val _ _) |- _ => apply IH in Hm; discriminate end.
      + match goal with Hm : means k (Err _ _) |- _ => apply IH in Hm; injection Hm as <- end. discriminate.
      + match goal with Hm : means k (Err _ _) |- _ => apply IH in Hm; now rewrite Hm end.
  Qed.

  (* a fuelled evaluator of the meaning *)
  Fixpoint ev_code (rd : string -> option (outcome val)) (c : code val) : option (outcome val) :=
    match c with
    | Ret _ v => Some (Val _ v)
    | Throw _ e => Some (Err _ e)
    | Read _ k ok m =>
        match rd k with
        | None => None
        | Some (Val _ v) => ev_code rd (ok v)
        | Some (Err _ AttributeError) => match m with Some c => ev_code rd c | None => Some (Err _ AttributeError) end
        | Some r => Some r
        end
    end.
  Fixpoint ev (n : nat) (k : string) : option (outcome val) :=
    match n with
    | O => None
    | S n => match assoc k data with
             | None => Some (Err _ AttributeError)
             | Some (Plain _ v) => Some (Val _ v)
             | Some (Lazy _ id) => ev_code (ev n) (body id)
             end
    end.
  Lemma ev_code_mono rd rd' c : (forall k r, rd k = Some r -> rd' k = Some r) -> forall r, ev_code rd c = Some r -> ev_code rd' c = Some r.
  Proof.
    intros H. induction c as [v|e|k ok m IHok IHm] using code_ind2; intros r E; [exact E|exact E|]. cbn [ev_code] in *.
    destruct (rd k) as [x|] eqn:Ek; [|discriminate]. rewrite (H k x Ek). destruct x as [v|e|]; [now apply IHok| |exact E].
    destruct e; try exact E. destruct m as [c|]; [now apply IHm|exact E].
  Qed.
  Lemma ev_mono n : forall m k r, (n <= m)%nat -> ev n k = Some r -> ev m k = Some r.
  Proof.
    induction n as [|n IH]; intros m k r Hm E; [discriminate|]. destruct m as [|m]; [lia|]. cbn [ev] in *.
    destruct (assoc k data) as [[v|id]|]; auto. eapply ev_code_mono; [|exact E]. intros k' r' E'. eapply IH; [|exact E']. lia.
  Qed.
  Lemma means_ev : forall k r, means k r -> exists n, ev n k = Some r.
  Proof.
    apply (means_mut val data body (fun k r => exists n, ev n k = Some r) (fun c r => exists n, ev_code (ev n) c = Some r)).
    - intros k E. exists 1%nat. cbn. now rewrite E.
    - intros k v E. exists 1%nat. cbn. now rewrite E.
    - intros k id r E _ (n & H). exists (S n). cbn. now rewrite E.
    - intros v. now exists 0%nat.
    - intros e. now exists 0%nat.
    - intros k ok m v r _ (n1 & H1) _ (n2 & H2). exists (n1 + n2)%nat. cbn.
      rewrite (ev_mono n1 (n1 + n2) k (Val val v)) by (auto; lia). eapply ev_code_mono; [|exact H2]. intros. eapply ev_mono; [|eassumption]. lia.
    - intros k ok c r _ (n1 & H1) _ (n2 & H2). exists (n1 + n2)%nat. cbn.
      rewrite (ev_mono n1 (n1 + n2) k (Err val AttributeError)) by (auto; lia). eapply ev_code_mono; [|exact H2]. intros. eapply ev_mono; [|eassumption]. lia.
    - intros k ok m e _ (n & H) Hc. exists n. cbn. rewrite H. destruct e; auto. destruct m; [discriminate|reflexivity].
  Qed.
  Lemma ev_no_circular n : forall k, ev n k <> Some Circular.
  Proof.
    induction n as [|n IH]; intros k; [discriminate|]. cbn. destruct (assoc k data) as [[v|id]|]; try discriminate.
    generalize (body id). intros c. induction c as [v|e|k' ok m IHok IHm] using code_ind2; [discriminate|discriminate|]. cbn.
    destruct (ev n k') as [r|] eqn:E; [|discriminate]. destruct r as [v|e|]; [apply IHok| |now apply IH in E].
    destruct e; try discriminate. destruct m as [c|]; [apply IHm|discriminate].
  Qed.

  (* the first fuel at which an Eval object has a result *)
  Definition hasres (n id : nat) : Prop := exists r, ev_code (ev n) (body id) = Some r.
  Lemma hasres_dec n id : {hasres n id} + {~ hasres n id}.
  Proof. unfold hasres. destruct (ev_code (ev n) (body id)) as [r|]; [left; eauto|right; intros (r & H); discriminate]. Qed.

  (* flags of Evals that need more than n levels do not disturb *)
  Lemma ev_complete n : forall k r F, ev n k = Some r ->
    (forall id, F id = true -> forall m, (S m < n)%nat \/ S m = n -> ~ hasres m id) -> reads F k F r.
  Proof.
    induction n as [n IH] using (well_founded_induction lt_wf). intros k r F E HF. destruct n as [|n]; [discriminate|].
    cbn [ev] in E. destruct (assoc k data) as [[v|id]|] eqn:Ek.
    - injection E as <-. now constructor.
    - (* least level at which body id has a result *)
      assert (L : exists m, (m <= n)%nat /\ hasres m id /\ forall j, (j < m)%nat -> ~ hasres j id).
      { assert (G : forall b, hasres b id -> exists m, (m <= b)%nat /\ hasres m id /\ forall j, (j < m)%nat -> ~ hasres j id).
        { induction b as [b IHb] using (well_founded_induction lt_wf). intros Hb.
          assert (D : (exists j, (j < b)%nat /\ hasres j id) \/ (forall j, (j < b)%nat -> ~ hasres j id)).
          { clear -b. induction b as [|b [(j & Hj & H)|H]]; [right; intros; lia|left; exists j; split; [lia|exact H]|].
            destruct (hasres_dec b id) as [Y|N]; [left; exists b; split; [lia|exact Y]|right].
            intros j Hj. destruct (Nat.eq_dec j b) as [->|]; [exact N|apply H; lia]. }
          destruct D as [(j & Hj & H)|H]; [destruct (IHb j Hj H) as (m & ? & ?); exists m; split; [lia|auto]|exists b; auto]. }
        apply G. exists r. exact E. }
      destruct L as (m & Hm & (r' & Er) & Hmin).
      assert (r' = r).
      { assert (X : ev_code (ev n) (body id) = Some r'); [|congruence].
        eapply ev_code_mono; [|exact Er]. intros k' x Hx. eapply ev_mono; [|exact Hx]. exact Hm. }
      subst r'. clear E.
      eapply r_lazy; [exact Ek|].
      assert (Fid : F id = false).
      { destruct (F id) eqn:FE; [|reflexivity]. exfalso. apply (HF id FE m); [lia|]. now exists r. }
      assert (R : runs (set_flag F id true) (body id) (set_flag F id true) r).
      { (* reads at level m under F with id flagged *)
        assert (RD : forall k' x, ev m k' = Some x -> reads (set_flag F id true) k' (set_flag F id true) x).
        { intros k' x Hx. apply (IH m); [lia|exact Hx|]. intros id' FI j Hj. unfold set_flag in FI.
          destruct (Nat.eqb_spec id' id) as [Q|Q]; [rewrite Q; apply Hmin; lia|apply (HF id' FI); lia]. }
        revert Er. generalize (body id) r. clear -RD.
        intros c. induction c as [v|e|k ok mm IHok IHm] using code_ind2; intros r E; cbn [ev_code] in E.
        - injection E as <-. constructor.
        - injection E as <-. constructor.
        - destruct (ev m k) as [x|] eqn:Ek; [|discriminate]. pose proof (RD k x Ek) as Rk. destruct x as [v|e|].
          + eapply u_read; [exact Rk|]. now apply IHok.
          + assert (C : e = AttributeError /\ (exists c, mm = Some c /\ ev_code (ev m) c = Some r) \/ caught val (Err _ e) mm = false /\ r = Err _ e).
            { destruct e; try (right; injection E as <-; split; reflexivity).
              destruct mm as [c|]; [left; split; [reflexivity|eauto]|right; injection E as <-; split; reflexivity]. }
            destruct C as [(-> & c & -> & Ec)|[Hc ->]].
            * eapply u_caught; [exact Rk|]. now apply IHm.
            * eapply u_error; [exact Rk|discriminate|exact Hc].
          + exfalso. now apply ev_no_circular in Ek. }
      rewrite <- (set_reset F id Fid) at 2. now apply e_run.
    - injection E as <-. now constructor.
  Qed.

  (* totality: the Eval objects stored in the configuration that are not in progress *)
  Definition ids : list nat := flat_map (fun e => match snd e with Lazy _ id => [id] | Plain _ _ => [] end) data.
  Definition idle (F : flags) : nat := length (filter (fun id => negb (F id)) ids).
  Lemma idle_drop F id : In id ids -> F id = false -> (idle (set_flag F id true) < idle F)%nat.
  Proof.
    intros Hin Hf. unfold idle.
    assert (G : forall l, (length (filter (fun j => negb (set_flag F id true j)) l) <= length (filter (fun j => negb (F j)) l))%nat).
    { induction l as [|j l IH]; [cbn; lia|]. cbn. unfold set_flag at 1. destruct (Nat.eqb_spec j id) as [->|]; [rewrite Hf; cbn; lia|].
      destruct (F j); cbn; lia. }
    revert Hin. generalize ids. induction l as [|j l IH]; intros Hin; [contradiction|]. cbn.
    unfold set_flag at 1. destruct (Nat.eqb_spec j id) as [->|Hne].
    - rewrite Hf. cbn. pose proof (G l). lia.
    - destruct Hin as [->|Hin]; [congruence|]. specialize (IH Hin). destruct (F j); cbn; lia.
  Qed.
  Lemma in_ids k id : assoc k data = Some (Lazy _ id) -> In id ids.
  Proof. intros H. apply assoc_in in H. apply in_flat_map. exists (k, Lazy _ id). split; [exact H|now left]. Qed.
  Lemma runs_total F : (forall k, exists r, reads F k F r) -> forall c, exists r, runs F c F r.
  Proof.
    intros H c. induction c as [v|e|k ok m IHok IHm] using code_ind2.
    - eexists. constructor.
    - eexists. constructor.
    - destruct (H k) as (x & Hx). destruct x as [v|e|].
      + destruct (IHok v) as (r & Hr). exists r. eapply u_read; eauto.
      + destruct (caught val (Err _ e) m) eqn:C.
        * destruct e; try discriminate. destruct m as [c|]; [|discriminate]. destruct IHm as (r & Hr). exists r. eapply u_caught; eauto.
        * exists (Err _ e). eapply u_error; [exact Hx|discriminate|exact C].
      + exists Circular. eapply u_error; [exact Hx|discriminate|reflexivity].
  Qed.
  Lemma reads_total n : forall F, (idle F <= n)%nat -> forall k, exists r, reads F k F r.
  Proof.
    induction n as [|n IH]; intros F Hn k; destruct (assoc k data) as [[v|id]|] eqn:E.
    - exists (Val _ v). now apply r_plain.
    - destruct (F id) eqn:Fi; [exists Circular; eapply r_lazy; [exact E|now constructor]|].
      pose proof (idle_drop F id (in_ids k id E) Fi). lia.
    - eexists. now apply r_missing.
    - exists (Val _ v). now apply r_plain.
    - destruct (F id) eqn:Fi; [exists Circular; eapply r_lazy; [exact E|now constructor]|].
      pose proof (idle_drop F id (in_ids k id E) Fi) as D.
      assert (D2 : (idle (set_flag F id true) <= n)%nat) by lia.
      destruct (runs_total (set_flag F id true) (IH (set_flag F id true) D2) (body id)) as (r & Hr).
      exists r. eapply r_lazy; [exact E|]. rewrite <- (set_reset F id Fi) at 2. now apply e_run.
    - eexists. now apply r_missing.
  Qed.

  (* determinism of evaluation *)
  Lemma reads_det : forall F k F1 r1, reads F k F1 r1 -> forall F2 r2, reads F k F2 r2 -> r2 = r1.
  Proof.
    apply (reads_mut val data body (fun F k F1 r1 => forall F2 r2, reads F k F2 r2 -> r2 = r1)
             (fun F id F1 r1 => forall F2 r2, evaluates F id F2 r2 -> r2 = r1) (fun F c F1 r1 => forall F2 r2, runs F c F2 r2 -> r2 = r1)).
    - intros F k E F2 r2 H. inversion H; subst; congruence.
    - intros F k v E F2 r2 H. inversion H; subst; congruence.
    - intros F k id F' r E _ IH F2 r2 H. inversion H; subst; try congruence. assert (id0 = id) by congruence. subst. eauto.
    - intros F id Hf F2 r2 H. inversion H; subst; [reflexivity|congruence].
    - intros F id F1 r Hf _ IH F2 r2 H. inversion H; subst; [congruence|eauto].
    - intros F v F2 r2 H. now inversion H.
    - intros F e F2 r2 H. now inversion H.
    - intros F k ok m F1 v F2 r R1 IH1 R2 IH2 F3 r3 H. pose proof (reads_restore _ _ _ _ R1). subst F1. inversion H; subst.
      + match goal with Hm : reads F k ?G (Val _ _) |- _ => pose proof (reads_restore _ _ _ _ Hm); subst G; apply IH1 in Hm; injection Hm as -> end. eauto.
      + match goal with Hm : reads F k _ (Err _ _) |- _ => apply IH1 in Hm; discriminate end.
      + match goal with Hm : reads F k _ r3 |- _ => apply IH1 in Hm; subst r3 end.
        match goal with Hn : forall v, _ <> Val _ v |- _ => exfalso; exact (Hn _ eq_refl) end.
    - intros F k ok c F1 F2 r R1 IH1 R2 IH2 F3 r3 H. pose proof (reads_restore _ _ _ _ R1). subst F1. inversion H; subst.
      + match goal with Hm : reads F k _ (Val _ _) |- _ => apply IH1 in Hm; discriminate end.
      + match goal with Hm : reads F k ?G (Err _ _) |- _ => pose proof (reads_restore _ _ _ _ Hm); subst G end. eauto.
      + match goal with Hm : reads F k _ r3 |- _ => apply IH1 in Hm; subst r3 end. discriminate.
    - intros F k ok m F1 r R IH Hv Hc F3 r3 H. inversion H; subst.
      + match goal with Hm : reads F k _ (Val _ _) |- _ => apply IH in Hm; subst r end. exfalso. now apply (Hv v).
      + match goal with Hm : reads F k _ (Err _ _) |- _ => apply IH in Hm; subst r end. discriminate.
      + match goal with Hm : reads F k _ r3 |- _ => now apply IH in Hm end.
  Qed.

  Definition none : flags := fun _ => false.
  Lemma reads_means k r : r <> Circular -> (reads none k none r <-> means k r).
  Proof.
    intros Hr. split; [intros H; eapply reads_sound; eauto|]. intros H. destruct (means_ev k r H) as (n & E).
    eapply ev_complete; [exact E|]. discriminate.
  Qed.
  Lemma reads_circular k : reads none k none Circular <-> forall r, ~ means k r.
  Proof.
    split.
    - intros H r M. destruct (means_ev k r M) as (n & E).
      assert (R : reads none k none r) by (eapply ev_complete; [exact E|discriminate]).
      pose proof (reads_det _ _ _ _ R _ _ H) as Q. subst r. now apply ev_no_circular in E.
    - intros H. destruct (reads_total (idle none) none (le_n _) k) as (r & R). destruct r as [v|e|]; [| |exact R].
      + exfalso. apply (H (Val _ v)). now apply reads_means.
      + exfalso. apply (H (Err _ e)). now apply reads_means.
  Qed.

  (* a configuration whose references can be ranked always has a meaning *)
  Lemma ranked_means (rank : nat -> nat) :
    (forall id k id', mentions val (body id) k -> assoc k data = Some (Lazy _ id') -> (rank id' < rank id)%nat) ->
    forall k, exists r, means k r.
  Proof.
    intros Hr. assert (G : forall n id, (rank id < n)%nat -> exists r, gives (body id) r).
    { induction n as [|n IH]; intros id Hn; [lia|].
      assert (K : forall k, mentions val (body id) k -> exists r, means k r).
      { intros k Hk. destruct (assoc k data) as [[v|id']|] eqn:E; [exists (Val _ v); now apply m_plain| |eexists; now apply m_missing].
        destruct (IH id') as (r & H); [pose proof (Hr id k id' Hk E); lia|]. exists r. eapply m_lazy; eauto. }
      revert K. generalize (body id). intros c. induction c as [v|e|k ok m IHok IHm] using code_ind2; intros K; try (eexists; now constructor).
      destruct (K k (mn_here _ _ _ _)) as (x & Hx). destruct x as [v|e|].
      - destruct (IHok v) as (r & H); [intros k' Hk'; apply K; now apply mn_ok with v|]. exists r. eapply g_read; eauto.
      - destruct (caught val (Err _ e) m) eqn:C.
        + destruct e; try discriminate. destruct m as [c|]; [|discriminate].
          destruct IHm as (r & H); [intros k' Hk'; apply K; now apply mn_default|]. exists r. eapply g_default; eauto.
        + exists (Err _ e). now apply g_error.
      - exfalso. destruct (means_ev _ _ Hx) as (j & E). now apply ev_no_circular in E. }
    intros k. destruct (assoc k data) as [[v|id]|] eqn:E; [exists (Val _ v); now apply m_plain| |eexists; now apply m_missing].
    destruct (G (S (rank id)) id (le_n _)) as (r & H). exists r. eapply m_lazy; eauto.
  Qed.
End Lazy.
