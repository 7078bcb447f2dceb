From Coq Require Import Sorted Permutation.
From Verif Require Import Base RBase CtrlModel CtrlProofs DmModel DmSpec DmProofs EfcSpec EfcProofs JacModel JacSpec JacProofs.
Open Scope Z_scope.

Lemma index_of_spec x l j : NoDup l -> index_of x l = Some j <-> nth_error l j = Some x.
Proof.
  intros ND. revert j. induction l as [|y l IH]; intros j.
  - split; [discriminate|destruct j; discriminate].
  - apply NoDup_cons_iff in ND. destruct ND as [Hy ND]. cbn [index_of].
    destruct (Z.eqb_spec y x) as [->|Hne].
    + split; [intros [= <-]; reflexivity|]. destruct j; [auto|]. cbn. intros H. apply nth_error_In in H. contradiction.
    + destruct j as [|j]; cbn.
      * split; [destruct (index_of x l); discriminate|congruence].
      * rewrite <- (IH ND j). destruct (index_of x l); cbn; split; congruence.
Qed.
Lemma index_of_in x l : In x l -> exists j, index_of x l = Some j.
Proof.
  induction l as [|y l IH]; intros H; [destruct H|]. cbn [index_of].
  destruct (Z.eqb_spec y x); [eauto|]. destruct H as [H|H]; [congruence|]. destruct (IH H) as [j ->]. cbn. eauto.
Qed.

Lemma nonzero_single act i a : NoDup act -> nth_error act i = Some a -> nonzero (Z.eqb a) act = [Z.of_nat i].
Proof.
  assert (N : forall act k, ~ In a act -> nonzero_from (Z.eqb a) k act = []).
  { induction act0 as [|y l IH]; intros k H; cbn; auto. destruct (Z.eqb_spec a y) as [->|]; [exfalso; apply H; now left|].
    apply IH. intros Hi; apply H; now right. }
  assert (T : forall act k i, NoDup act -> nth_error act i = Some a -> nonzero_from (Z.eqb a) k act = [k + Z.of_nat i]).
  { induction act0 as [|y l IH]; intros k [|j] ND E; try discriminate; apply NoDup_cons_iff in ND; destruct ND as [Hy ND]; cbn in E |- *.
    - injection E as ->. rewrite Z.eqb_refl, N by auto. f_equal. lia.
    - destruct (Z.eqb_spec a y) as [->|Hne]; [apply nth_error_In in E; contradiction|].
      rewrite (IH (k + 1) j ND E). f_equal. lia. }
  intros ND E. unfold nonzero. rewrite (T act 0 i ND E). f_equal.
Qed.

Section Ties.
  Variable M : nat.
  Variable act : list Z.
  Hypothesis ND : NoDup act.
  Variable d : jdm.
  Hypothesis Hact : jact d = act.
  Hypothesis Hl : jlist d = false.
  Let n := length act.

  Lemma tie_step (G : jacc) a b i j t : rect n M G -> nth_error act i = Some a -> nth_error act j = Some b -> i <> j ->
    exists G', rect n M G' /\
      ties_loop pixv vzero vadd2 d ((a, b) :: t) G = ties_loop pixv vzero vadd2 d t G' /\
      forall k m p, (m < M)%nat -> pv G' k m p =
        if Nat.eqb k j then (0, 0)%R else if Nat.eqb k i then cadd (pv G i m p) (pv G j m p) else pv G k m p.
  Proof.
    intros HR Ha Hb Hij. pose proof HR as [L F].
    assert (Hi : (i < n)%nat) by (apply nth_error_Some; congruence).
    assert (Hj : (j < n)%nat) by (apply nth_error_Some; congruence).
    destruct (nth_error G i) as [ci|] eqn:Ei; [|apply nth_error_None in Ei; lia].
    destruct (nth_error G j) as [cj|] eqn:Ej; [|apply nth_error_None in Ej; lia].
    rewrite Forall_forall in F.
    assert (Lci : length ci = M) by (apply F; eapply nth_error_In; eauto).
    assert (Lcj : length cj = M) by (apply F; eapply nth_error_In; eauto).
    set (s := col_add pixv vadd2 ci cj). set (G1 := upd_nth i s G).
    set (G2 := upd_nth j (map (fun _ => vzero) cj) G1).
    assert (Ls : length s = M) by (unfold s, col_add; rewrite map_length, combine_length; lia).
    exists G2. split; [|split].
    - unfold G2. apply rect_upd; [|now rewrite map_length]. unfold G1. apply rect_upd; auto.
    - cbn [ties_loop]. unfold positions. rewrite Hl, Hact. cbn [rbind].
      rewrite (nonzero_single act i a), (nonzero_single act j b) by auto. cbn [rbind].
      unfold add_cols. cbn [gather]. rewrite L, !np_index_ok by lia. cbn [rbind]. rewrite !Nat2Z.id, Ei, Ej. cbn [rbind length Nat.eqb combine map scatter_pairs].
      rewrite L, np_index_ok by lia. cbn [rbind scatter_pairs]. rewrite Nat2Z.id. fold s. fold G1.
      unfold zero_cols. cbn [gather]. unfold G1 at 1 2. rewrite upd_nth_length, L, np_index_ok by lia. cbn [rbind].
      rewrite nth_error_upd_other by lia. rewrite Nat2Z.id, Ej. cbn [rbind map scatter_pairs].
      unfold G1 at 1. rewrite upd_nth_length, L, np_index_ok by lia. cbn [rbind]. rewrite Nat2Z.id. reflexivity.
    - intros k m p Hm. unfold pv, ent, G2, G1.
      destruct (Nat.eqb_spec k j) as [->|Hkj].
      + rewrite nth_error_upd_same by (rewrite upd_nth_length; lia).
        rewrite nth_error_map. destruct (nth_error cj m) eqn:E; [reflexivity|reflexivity].
      + rewrite nth_error_upd_other by auto. destruct (Nat.eqb_spec k i) as [->|Hki].
        * rewrite nth_error_upd_same by lia. rewrite Ei, Ej. unfold s, col_add. rewrite nth_error_map.
          destruct (nth_error ci m) as [x|] eqn:Ex; [|apply nth_error_None in Ex; lia].
          destruct (nth_error cj m) as [y|] eqn:Ey; [|apply nth_error_None in Ey; lia].
          assert (E : nth_error (combine ci cj) m = Some (x, y)).
          { clear - Ex Ey. revert cj m Ex Ey. induction ci as [|u ci IH]; intros [|v cj] [|m] Ex Ey; cbn in *; try discriminate; auto; congruence. }
          rewrite E. reflexivity.
        * now rewrite nth_error_upd_other.
  Qed.

  Lemma av_pv G x j m p : nth_error act j = Some x -> av act G x m p = pv G j m p.
  Proof. intros H. unfold av. rewrite (proj2 (index_of_spec x act j ND) H). reflexivity. Qed.

  Lemma tie_step_av (G : jacc) a b t : rect n M G -> In a act -> In b act -> a <> b ->
    exists G', rect n M G' /\
      ties_loop pixv vzero vadd2 d ((a, b) :: t) G = ties_loop pixv vzero vadd2 d t G' /\
      forall x m p, In x act -> (m < M)%nat -> av act G' x m p =
        if x =? b then (0, 0)%R else if x =? a then cadd (av act G a m p) (av act G b m p) else av act G x m p.
  Proof.
    intros HR Ha Hb Hab. apply In_nth_error in Ha, Hb. destruct Ha as [i Hi], Hb as [j Hj].
    assert (Hij : i <> j) by (intros ->; congruence).
    destruct (tie_step G a b i j t HR Hi Hj Hij) as (G' & R' & E & N). exists G'. split; [auto|]. split; [auto|].
    intros x m p Hx Hm. apply In_nth_error in Hx. destruct Hx as [k Hk].
    rewrite !(av_pv _ _ _ _ _ Hk), (av_pv _ _ _ _ _ Hi), (av_pv _ _ _ _ _ Hj), N by auto.
    assert (Q : forall k' y, nth_error act k' = Some y -> (k =? k')%nat = (x =? y)).
    { intros k' y Hk'. destruct (Nat.eqb_spec k k') as [->|Hne]; destruct (Z.eqb_spec x y) as [->|Hne']; auto; try congruence.
      exfalso. apply Hne. eapply (proj1 (NoDup_nth_error act) ND); [apply nth_error_Some; congruence|congruence]. }
    rewrite (Q j b Hj), (Q i a Hi). reflexivity.
  Qed.

  Lemma rsum_pair_change k f f' i j : (i < k)%nat -> (j < k)%nat -> i <> j ->
    (forall q, (q < k)%nat -> q <> i -> q <> j -> f' q = f q) -> (f' i + f' j = f i + f j)%R -> rsum k f' = rsum k f.
  Proof.
    intros Hi Hj Hij H E.
    set (di := fun q => if Nat.eqb q i then (f' i - f i)%R else 0%R).
    set (dj := fun q => if Nat.eqb q j then (f' j - f j)%R else 0%R).
    rewrite (rsum_ext k f' (fun q => f q + (di q + dj q))%R).
    - rewrite rsum_plus, rsum_plus. rewrite (rsum_single k i di), (rsum_single k j dj); auto.
      + unfold di, dj. rewrite !Nat.eqb_refl. lra.
      + intros q _ Hq. unfold dj. destruct (Nat.eqb_spec q j); [congruence|auto].
      + intros q _ Hq. unfold di. destruct (Nat.eqb_spec q i); [congruence|auto].
    - intros q Hq. unfold di, dj. destruct (Nat.eqb_spec q i) as [e1|e1]; destruct (Nat.eqb_spec q j) as [e2|e2]; try congruence; try (rewrite ?e1, ?e2; lra).
      rewrite H by auto. lra.
  Qed.

  Lemma tie_step_predict (G : jacc) a b t u : rect n M G -> In a act -> In b act -> a <> b -> u a = u b ->
    exists G', rect n M G' /\
      ties_loop pixv vzero vadd2 d ((a, b) :: t) G = ties_loop pixv vzero vadd2 d t G' /\
      forall m p, (m < M)%nat -> predict act G' u m p = predict act G u m p.
  Proof.
    intros HR Ha Hb Hab Hu. apply In_nth_error in Ha, Hb. destruct Ha as [i Hi], Hb as [j Hj].
    assert (Hij : i <> j) by (intros ->; congruence).
    assert (Li : (i < length act)%nat) by (apply nth_error_Some; congruence).
    assert (Lj : (j < length act)%nat) by (apply nth_error_Some; congruence).
    destruct (tie_step G a b i j t HR Hi Hj Hij) as (G' & R' & E & N). exists G'. split; [auto|]. split; [auto|].
    intros m p Hm. unfold predict.
    assert (Ui : u (nth i act 0) = u a) by (f_equal; apply nth_error_nth; auto).
    assert (Uj : u (nth j act 0) = u b) by (f_equal; apply nth_error_nth; auto).
    f_equal; apply rsum_pair_change with (i := i) (j := j); auto.
    - intros q _ Hqi Hqj. rewrite N by auto. destruct (Nat.eqb_spec q j); [congruence|]. destruct (Nat.eqb_spec q i); [congruence|auto].
    - rewrite Ui, Uj, !N, !Nat.eqb_refl by auto. destruct (Nat.eqb_spec i j); [congruence|]. rewrite Hu. unfold cadd. cbn. ring.
    - intros q _ Hqi Hqj. rewrite N by auto. destruct (Nat.eqb_spec q j); [congruence|]. destruct (Nat.eqb_spec q i); [congruence|auto].
    - rewrite Ui, Uj, !N, !Nat.eqb_refl by auto. destruct (Nat.eqb_spec i j); [congruence|]. rewrite Hu. unfold cadd. cbn. ring.
  Qed.

  (* one step as a function of the whole matrix *)
  Lemma tie_step_all (G : jacc) a b : rect n M G -> In a act -> In b act -> a <> b ->
    exists G', rect n M G' /\
      (forall t, ties_loop pixv vzero vadd2 d ((a, b) :: t) G = ties_loop pixv vzero vadd2 d t G') /\
      (forall x m p, In x act -> (m < M)%nat -> av act G' x m p =
        if x =? b then (0, 0)%R else if x =? a then cadd (av act G a m p) (av act G b m p) else av act G x m p) /\
      (forall u, u a = u b -> forall m p, (m < M)%nat -> predict act G' u m p = predict act G u m p).
  Proof.
    intros HR Ha Hb Hab.
    destruct (tie_step_av G a b [] HR Ha Hb Hab) as (G' & R' & E & N). cbn [ties_loop] in E.
    exists G'. split; [auto|].
    assert (HG : forall t G2, ties_loop pixv vzero vadd2 d ((a, b) :: []) G = Ok G2 ->
              ties_loop pixv vzero vadd2 d ((a, b) :: t) G = ties_loop pixv vzero vadd2 d t G2).
    { intros t G2. cbn [ties_loop]. destruct (positions d a); cbn [rbind]; [|discriminate].
      destruct (positions d b); cbn [rbind]; [|discriminate].
      destruct (add_cols pixv vadd2 G l l0); cbn [rbind]; [|discriminate].
      destruct (zero_cols pixv vzero j l0); cbn [rbind]; [|discriminate]. congruence. }
    split; [intros t; apply HG; exact E|]. split; [auto|].
    intros u Hu m p Hm. destruct (tie_step_predict G a b [] u HR Ha Hb Hab Hu) as (G2 & R2 & E2 & N2).
    cbn [ties_loop] in E2. rewrite E in E2. injection E2 as <-. auto.
  Qed.

  Lemma ties_conserve : forall ties (G : jacc), rect n M G ->
    Forall (fun '(a, b) => In a act /\ In b act /\ a <> b) ties ->
    exists G', ties_loop pixv vzero vadd2 d ties G = Ok G' /\ rect n M G' /\
      forall u, (forall a b, In (a, b) ties -> u a = u b) ->
        forall m p, (m < M)%nat -> predict act G' u m p = predict act G u m p.
  Proof.
    induction ties as [|[a b] t IH]; intros G HR HF.
    - exists G. split; [reflexivity|]. split; auto.
    - apply Forall_cons_iff in HF. destruct HF as [(Ha & Hb & Hab) HF].
      destruct (tie_step_all G a b HR Ha Hb Hab) as (G1 & R1 & E1 & _ & P1).
      destruct (IH G1 R1 HF) as (G' & E' & R' & N').
      exists G'. split; [rewrite E1; auto|]. split; [auto|].
      intros u Hu m p Hm. rewrite (N' u) by (auto; intros; apply Hu; now right).
      apply P1; auto. apply Hu. now left.
  Qed.

  Lemma ties_columns : forall ties (G G' : jacc), rect n M G ->
    Forall (fun '(a, b) => In a act /\ In b act /\ a <> b) ties ->
    (forall a b, In (a, b) ties -> ~ In a (map snd ties)) -> NoDup (map snd ties) ->
    ties_loop pixv vzero vadd2 d ties G = Ok G' ->
    forall x m p, In x act -> (m < M)%nat -> av act G' x m p =
      if in_dec Z.eq_dec x (map snd ties) then (0, 0)%R
      else cadd (av act G x m p) (csum (map (fun b => av act G b m p) (followers ties x))).
  Proof.
    induction ties as [|[a b] t IH]; intros G G' HR HF HC HN E x m p Hx Hm.
    - cbn in E. injection E as <-. cbn. unfold cadd; cbn. destruct (av act G x m p); cbn; f_equal; ring.
    - apply Forall_cons_iff in HF. destruct HF as [(Ha & Hb & Hab) HF].
      cbn [map snd] in HN. apply NoDup_cons_iff in HN. destruct HN as [Hbt HN].
      destruct (tie_step_all G a b HR Ha Hb Hab) as (G1 & R1 & E1 & N1 & _).
      rewrite E1 in E.
      assert (HC' : forall a0 b0, In (a0, b0) t -> ~ In a0 (map snd t)).
      { intros a0 b0 Hi Hs. apply (HC a0 b0 (or_intror Hi)). now right. }
      rewrite (IH G1 G' R1 HF HC' HN E x m p Hx Hm).
      assert (Q : map (fun b0 => av act G1 b0 m p) (followers t x) = map (fun b0 => av act G b0 m p) (followers t x)).
      { apply map_ext_in. intros b0 Hb0. unfold followers in Hb0. apply in_map_iff in Hb0.
        destruct Hb0 as ([a1 b1] & Eb & Hf). cbn in Eb. subst b1. apply filter_In in Hf. destruct Hf as [Hf _].
        assert (Hin : In b0 (map snd t)) by (apply in_map_iff; exists (a1, b0); auto).
        rewrite Forall_forall in HF. destruct (HF _ Hf) as (_ & Hb0 & _).
        rewrite N1 by auto. destruct (Z.eqb_spec b0 b) as [->|]; [contradiction|].
        destruct (Z.eqb_spec b0 a) as [->|]; auto. exfalso. apply (HC a b (or_introl eq_refl)). cbn. now right. }
      rewrite Q. rewrite N1 by auto. cbn [map snd followers filter].
      assert (Hna : ~ In a (b :: map snd t)) by (apply (HC a b); now left).
      destruct (in_dec Z.eq_dec x (map snd t)) as [Hi|Hi]; destruct (in_dec Z.eq_dec x (b :: map snd t)) as [Hi'|Hi']; auto.
      + exfalso; apply Hi'; now right.
      + destruct Hi' as [->|Hi']; [|contradiction]. rewrite Z.eqb_refl.
        assert (F0 : followers t x = []).
        { unfold followers. replace (filter (fun '(a0, _) => a0 =? x) t) with (@nil (Z * Z)); [reflexivity|].
          symmetry. destruct (filter (fun '(a0, _) => a0 =? x) t) as [|[a1 b1] l] eqn:Ef; auto. exfalso.
          assert (Hf : In (a1, b1) (filter (fun '(a0, _) => a0 =? x) t)) by (rewrite Ef; now left).
          apply filter_In in Hf. destruct Hf as [Hf Heq]. apply Z.eqb_eq in Heq. subst a1.
          apply (HC x b1 (or_intror Hf)). now left. }
        rewrite F0. unfold cadd. cbn. f_equal; ring.
      + destruct (Z.eqb_spec x b) as [->|Hxb]; [exfalso; apply Hi'; now left|].
        unfold followers. cbn [filter]. rewrite (Z.eqb_sym a x). destruct (Z.eqb_spec x a) as [->|Hxa].
        * cbn [map snd csum]. unfold cadd. cbn [fst snd]. f_equal; ring.
        * reflexivity.
  Qed.
End Ties.
