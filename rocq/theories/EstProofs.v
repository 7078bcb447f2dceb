From Verif Require Import Base RBase EstModel EstSpec.
Open Scope Z_scope.

Section Probing.
  Variable V : Type.
  Variable vadd : V -> V -> V.
  Variables zero1 zero2 : V.
  Variable Img : Type.
  Variable image : nat -> nat -> V -> V -> Img.
  Variable gen : nat -> Img -> nat -> res V.
  Variables (which : Z) (Npairs Nsbp stars : nat).
  Variables (Nact1 Nact2 : Z).
  Hypothesis Hw : which = 1 \/ which = 2.
  Variables (ind : list Z) (nom1 nom2 : V).
  Hypothesis Hin : existsb (Z.eqb which) ind = true.

  Definition Inv (s : pst V) : Prop :=
    p_islist s = false /\ p_ind s = ind /\
    (existsb (Z.eqb 1) ind = false -> p_v1 s = nom1) /\ (existsb (Z.eqb 2) ind = false -> p_v2 s = nom2).

  Lemma sees_inv s k : Inv s -> sees V s k = existsb (Z.eqb k) ind.
  Proof. intros (H1 & H2 & _). unfold sees. now rewrite H1, H2. Qed.

  Let P := probe_one V vadd Img image gen which nom1 nom2.

  Lemma probe_one_ok star sb I0 i c s : Inv s -> gen star I0 i = Ok c ->
    exists s', P star sb I0 i s = (s', Ok (vadd (if which =? 1 then nom1 else nom2) c)) /\ Inv s' /\
      p_log s' = p_log s ++ [exposure_at sb (with_probe vadd which nom1 nom2 c)].
  Proof using Hw Hin.
    intros HI Hg. unfold P, probe_one, mbind, lift, when_dm, expose, mret, set_v1, set_v2. rewrite Hg.
    rewrite (sees_inv s 1 HI). destruct HI as (I1 & I2 & I3 & I4).
    destruct (existsb (Z.eqb 1) ind) eqn:E1; cbn [sees p_islist p_ind p_v1 p_v2 p_log]; rewrite ?I1, ?I2;
      unfold sees; cbn [p_islist p_ind]; rewrite ?I1, ?I2;
      destruct (existsb (Z.eqb 2) ind) eqn:E2; cbn [p_islist p_ind p_v1 p_v2 p_log];
      eexists; (split; [reflexivity|]); (split; [unfold Inv; cbn [p_islist p_ind p_v1 p_v2]; rewrite ?E1, ?E2; repeat split; auto; discriminate|]);
      cbn [p_log]; f_equal; f_equal; unfold exposure_at, with_probe; destruct Hw as [->| ->]; cbn [Z.eqb Pos.eqb fst snd];
      rewrite ?E1, ?E2 in Hin; try discriminate; rewrite ?I3, ?I4 by reflexivity; reflexivity.
  Qed.

  Lemma probes_ok star sb I0 (cmd : nat -> V) l : forall s, Inv s -> (forall i, In i l -> gen star I0 i = Ok (cmd i)) ->
    exists s', mfor V l (P star sb I0) s = (s', Ok (map (fun i => vadd (if which =? 1 then nom1 else nom2) (cmd i)) l)) /\ Inv s' /\
      p_log s' = p_log s ++ map (fun i => exposure_at sb (with_probe vadd which nom1 nom2 (cmd i))) l.
  Proof using Hw Hin.
    induction l as [|i l IH]; intros s HI Hg.
    - exists s. split; [reflexivity|]. split; [exact HI|]. cbn. now rewrite app_nil_r.
    - destruct (probe_one_ok star sb I0 i (cmd i) s HI (Hg i (or_introl eq_refl))) as (s1 & E1 & H1 & L1).
      destruct (IH s1 H1 (fun j Hj => Hg j (or_intror Hj))) as (s2 & E2 & H2 & L2).
      exists s2. split; [|split; [exact H2|]].
      + cbn [mfor]. unfold mbind at 1. rewrite E1. unfold mbind. rewrite E2. reflexivity.
      + rewrite L2, L1, <- app_assoc. reflexivity.
  Qed.

  Lemma probes_inv star sb I0 l : forall s s' r, mfor V l (P star sb I0) s = (s', Ok r) ->
    forall i, In i l -> exists c, gen star I0 i = Ok c.
  Proof using.
    induction l as [|i l IH]; intros s s' r E j Hj; [contradiction|].
    cbn [mfor] in E. unfold mbind at 1 in E. destruct (P star sb I0 i s) as [s1 [a|e]] eqn:E1; [|discriminate].
    destruct Hj as [<-|Hj].
    - unfold P, probe_one, mbind at 1, lift in E1. destruct (gen star I0 i) as [c|e]; [eauto|discriminate].
    - unfold mbind at 1 in E. destruct (mfor V l (P star sb I0) s1) as [s2 [b|e]] eqn:E2; [|discriminate].
      eapply IH; eauto.
  Qed.

  Lemma nth_error_map_seq {B} (f : nat -> B) n k : (k < n)%nat -> nth_error (map f (seq 0 n)) k = Some (f k).
  Proof. intros H. rewrite nth_error_map, nth_error_nth' with (d := 0%nat) by now rewrite seq_length. rewrite seq_nth by exact H. reflexivity. Qed.

  (* during the model calls the other DM stays at its nominal command *)
  Definition Inv2 (s : pst V) : Prop :=
    Inv s /\ (which <> 1 -> p_v1 s = nom1) /\ (which <> 2 -> p_v2 s = nom2).

  Lemma set_which_ok v s : Inv2 s -> exists s', set_which V which v s = (s', Ok tt) /\ Inv2 s' /\ p_log s' = p_log s /\
    (p_v1 s', p_v2 s') = (if which =? 1 then (v, nom2) else (nom1, v)).
  Proof using Hw Hin.
    intros ((I1 & I2 & I3 & I4) & J1 & J2). unfold set_which, set_v1, set_v2.
    destruct (Z.eqb_spec which 1) as [W|W]; eexists; (split; [reflexivity|]); unfold Inv2, Inv; cbn [p_islist p_ind p_v1 p_v2 p_log].
    - split; [|split; [reflexivity|f_equal; apply J2; rewrite W; discriminate]].
      split; [|split; [congruence|exact J2]]. split; [exact I1|]. split; [exact I2|]. split; [|exact I4].
      intros Q. rewrite W in Hin. congruence.
    - assert (W2 : which = 2) by (destruct Hw; [contradiction|assumption]).
      split; [|split; [reflexivity|f_equal; now apply J1]].
      split; [|split; [exact J1|congruence]]. split; [exact I1|]. split; [exact I2|]. split; [exact I3|].
      intros Q. rewrite W2 in Hin. congruence.
  Qed.

  Lemma model_pair_ok star sb (cmd : nat -> V) cmds k s : Inv2 s ->
    nth_error cmds (2 * k) = Some (vadd (if which =? 1 then nom1 else nom2) (cmd (2 * k)%nat)) ->
    nth_error cmds (2 * k + 1) = Some (vadd (if which =? 1 then nom1 else nom2) (cmd (2 * k + 1)%nat)) ->
    exists s', model_pair V which star sb cmds k s = (s', Ok tt) /\ Inv2 s' /\
      p_log s' = p_log s ++ [model_at star sb (with_probe vadd which nom1 nom2 (cmd (2 * k)%nat));
                             model_at star sb (with_probe vadd which nom1 nom2 (cmd (2 * k + 1)%nat))].
  Proof using Hw Hin.
    intros HI N1 N2. unfold model_pair. rewrite N1, N2.
    destruct (set_which_ok (vadd (if which =? 1 then nom1 else nom2) (cmd (2 * k)%nat)) s HI) as (s1 & E1 & H1 & L1 & V1).
    unfold mbind at 1. rewrite E1. unfold mbind at 1, model_call at 1.
    set (s2 := mkpst _ _ _ _ _).
    assert (H2 : Inv2 s2) by exact H1.
    destruct (set_which_ok (vadd (if which =? 1 then nom1 else nom2) (cmd (2 * k + 1)%nat)) s2 H2) as (s3 & E3 & H3 & L3 & V3).
    unfold mbind at 1. rewrite E3. unfold model_call.
    eexists. split; [reflexivity|]. split; [exact H3|]. cbn [p_log]. rewrite L3. unfold s2. cbn [p_log]. rewrite L1, <- app_assoc.
    cbn [app]. revert V1 V3. unfold model_at, with_probe. destruct (which =? 1); cbn [fst snd];
      intros V1 V3; injection V1 as A1 A2; injection V3 as A3 A4.
    all: rewrite A1, A2, A3, A4; reflexivity.
  Qed.

  Lemma model_pairs_ok star sb (cmd : nat -> V) cmds l : forall s, Inv2 s ->
    (forall k, In k l -> nth_error cmds (2 * k) = Some (vadd (if which =? 1 then nom1 else nom2) (cmd (2 * k)%nat)) /\
       nth_error cmds (2 * k + 1) = Some (vadd (if which =? 1 then nom1 else nom2) (cmd (2 * k + 1)%nat))) ->
    exists s' r, mfor V l (model_pair V which star sb cmds) s = (s', Ok r) /\ Inv2 s' /\
      p_log s' = p_log s ++ flat_map (fun k => [model_at star sb (with_probe vadd which nom1 nom2 (cmd (2 * k)%nat));
                             model_at star sb (with_probe vadd which nom1 nom2 (cmd (2 * k + 1)%nat))]) l.
  Proof using Hw Hin.
    induction l as [|k l IH]; intros s HI HN.
    - exists s, []. split; [reflexivity|]. split; [exact HI|]. cbn. now rewrite app_nil_r.
    - destruct (HN k (or_introl eq_refl)) as [N1 N2].
      destruct (model_pair_ok star sb cmd cmds k s HI N1 N2) as (s1 & E1 & H1 & L1).
      destruct (IH s1 H1 (fun j Hj => HN j (or_intror Hj))) as (s2 & r & E2 & H2 & L2).
      exists s2, (tt :: r). split; [|split; [exact H2|]].
      + cbn [mfor]. unfold mbind at 1. rewrite E1. unfold mbind. rewrite E2. reflexivity.
      + rewrite L2, L1, <- app_assoc. reflexivity.
  Qed.

  (* both mirrors of the same size, or DM1 probing *)
  Hypothesis Hsize : which = 1 \/ Nact1 = Nact2.
  Let B := subband V vadd Img image gen which Npairs Nact1 Nact2 nom1 nom2.

  Lemma when_dm_skip s k m : Inv s -> existsb (Z.eqb k) ind = false -> when_dm V k m s = (s, Ok tt).
  Proof. intros HI E. unfold when_dm. now rewrite (sees_inv s k HI), E. Qed.

  Lemma nominal1 s : Inv s -> exists s', when_dm V 1 (set_v1 V nom1) s = (s', Ok tt) /\ Inv s' /\ p_v1 s' = nom1 /\ p_log s' = p_log s.
  Proof.
    intros HI. pose proof HI as (I1 & I2 & I3 & I4). unfold when_dm, set_v1. rewrite (sees_inv s 1 HI).
    destruct (existsb (Z.eqb 1) ind) eqn:E1; eexists; (split; [reflexivity|]); unfold Inv; cbn [p_islist p_ind p_v1 p_v2 p_log]; rewrite ?E1;
      repeat split; auto; discriminate.
  Qed.
  Lemma nominal2 s : Inv s -> p_v1 s = nom1 -> exists s', when_dm V 2 (set_v2 V nom2) s = (s', Ok tt) /\ Inv2 s' /\ p_v1 s' = nom1 /\ p_v2 s' = nom2 /\ p_log s' = p_log s.
  Proof.
    intros HI HV. pose proof HI as (I1 & I2 & I3 & I4). unfold when_dm, set_v2. rewrite (sees_inv s 2 HI).
    destruct (existsb (Z.eqb 2) ind) eqn:E1; eexists; (split; [reflexivity|]); unfold Inv2, Inv; cbn [p_islist p_ind p_v1 p_v2 p_log]; rewrite ?E1;
      repeat split; auto; discriminate.
  Qed.

  Lemma subband_run star sb (cmd : nat -> V) s : p_islist s = false -> p_ind s = ind ->
    (forall i, (i < 2 * Npairs)%nat -> gen star (image (length (p_log s)) sb nom1 nom2) i = Ok (cmd i)) ->
    exists s', B star sb s = (s', Ok tt) /\ Inv s' /\
      p_log s' = p_log s ++ probing_block vadd which Npairs nom1 nom2 star sb cmd.
  Proof using Hw Hin Hsize.
    intros H1 H2 Hg. unfold B, subband. unfold mbind at 1, set_v1 at 1. unfold mbind at 1, set_v2 at 1.
    unfold mbind at 1, expose at 1. cbn [p_ind p_islist p_v1 p_v2 p_log].
    set (s1 := mkpst _ _ _ _ _).
    assert (I1 : Inv s1) by (unfold Inv, s1; cbn; auto).
    destruct (probes_ok star sb (image (length (p_log s)) sb nom1 nom2) cmd (seq 0 (2 * Npairs)) s1 I1) as (s2 & E2 & I2 & L2).
    { intros i Hi. apply Hg. apply in_seq in Hi. lia. }
    unfold mbind at 1. fold P. rewrite E2. unfold mbind at 1.
    replace ((which =? 2) && negb (Nact1 =? Nact2) && negb (Nat.eqb Npairs 0))%bool with false
      by (destruct Hsize as [->| ->]; [reflexivity|rewrite Z.eqb_refl; now rewrite andb_false_r]).
    unfold mret at 1.
    destruct (nominal1 s2 I2) as (sa & Ea & Ia & Va & La). unfold mbind at 1. rewrite Ea.
    destruct (nominal2 sa Ia Va) as (s3 & E3 & I3 & V1 & V2 & L3'). unfold mbind at 1. rewrite E3.
    assert (L3 : p_log s3 = p_log s2) by congruence.
    unfold mbind at 1, model_call at 1. set (s4 := mkpst _ _ _ _ _).
    assert (I4 : Inv2 s4) by exact I3.
    destruct (model_pairs_ok star sb cmd (map (fun i => vadd (if which =? 1 then nom1 else nom2) (cmd i)) (seq 0 (2 * Npairs))) (seq 0 Npairs) s4 I4)
      as (s5 & r & E5 & I5 & L5).
    { intros k Hk. apply in_seq in Hk. split; apply (nth_error_map_seq (fun i => vadd (if which =? 1 then nom1 else nom2) (cmd i))); lia. }
    unfold mbind at 1. rewrite E5. exists s5. split; [reflexivity|]. split; [exact (proj1 I5)|].
    rewrite L5. unfold s4. cbn [p_log]. rewrite V1, V2, L3, L2. unfold s1. cbn [p_log].
    unfold probing_block. rewrite <- !app_assoc. reflexivity.
  Qed.

  Lemma subband_inv star sb s s' : B star sb s = (s', Ok tt) ->
    forall i, (i < 2 * Npairs)%nat -> exists c, gen star (image (length (p_log s)) sb nom1 nom2) i = Ok c.
  Proof.
    unfold B, subband. unfold mbind at 1, set_v1 at 1. unfold mbind at 1, set_v2 at 1.
    unfold mbind at 1, expose at 1. cbn [p_ind p_islist p_v1 p_v2 p_log]. unfold mbind at 1.
    destruct (mfor V (seq 0 (2 * Npairs)) _ _) as [s2 [l|e]] eqn:E; [|discriminate]. intros _ i Hi.
    eapply probes_inv; [exact E|]. apply in_seq. lia.
  Qed.

  Notation block_ok := (EstSpec.block_ok V vadd Img image gen which Npairs nom1 nom2).
  Notation blocks := (EstSpec.blocks V vadd Img image gen which Npairs nom1 nom2).
  Lemma blocks_app a b before l l' : blocks a before l -> blocks b (before ++ l) l' -> blocks (a ++ b) before (l ++ l').
  Proof.
    intros H. revert l'. induction H as [|star sb t before l1 l2 H1 H2 IH]; intros l' Hb.
    - rewrite app_nil_r in Hb. exact Hb.
    - cbn. rewrite <- app_assoc. econstructor; [exact H1|]. apply IH. now rewrite <- app_assoc.
  Qed.

  Lemma row_inv star l : forall s s' r, p_islist s = false -> p_ind s = ind -> mfor V l (B star) s = (s', Ok r) ->
    p_islist s' = false /\ p_ind s' = ind /\ (l <> [] -> Inv s') /\
    exists lg, blocks (map (fun sb => (star, sb)) l) (p_log s) lg /\ p_log s' = p_log s ++ lg.
  Proof using Hw Hin Hsize.
    induction l as [|sb l IH]; intros s s' r H1 H2 E.
    - injection E as <- <-. split; [exact H1|]. split; [exact H2|]. split; [congruence|]. exists []. split; [constructor|now rewrite app_nil_r].
    - cbn [mfor] in E. unfold mbind at 1 in E. destruct (B star sb s) as [s1 [[]|e]] eqn:E1; [|discriminate].
      set (cmd := fun i => match gen star (image (length (p_log s)) sb nom1 nom2) i with Ok c => c | Raise _ => nom1 end).
      assert (Hc : forall i, (i < 2 * Npairs)%nat -> gen star (image (length (p_log s)) sb nom1 nom2) i = Ok (cmd i)).
      { intros i Hi. destruct (subband_inv star sb s s1 E1 i Hi) as (c & Ec). unfold cmd. now rewrite Ec. }
      destruct (subband_run star sb cmd s H1 H2 Hc) as (s1' & E1' & I1 & L1). rewrite E1 in E1'. injection E1' as <-.
      unfold mbind at 1 in E. destruct (mfor V l (B star) s1) as [s2 [b|e]] eqn:E2; [|discriminate]. injection E as <- _.
      destruct (IH s1 s2 b (proj1 I1) (proj1 (proj2 I1)) E2) as (J1 & J2 & J3 & lg & J4 & J5).
      split; [exact J1|]. split; [exact J2|]. split.
      + intros _. destruct l as [|x l]; [|apply J3; discriminate]. injection E2 as <- _. exact I1.
      + exists (probing_block vadd which Npairs nom1 nom2 star sb cmd ++ lg). split.
        * cbn [map]. constructor; [exists cmd; auto|]. rewrite <- L1. exact J4.
        * rewrite J5, L1, <- app_assoc. reflexivity.
  Qed.

  Lemma stars_inv l sbs : forall s s' r, p_islist s = false -> p_ind s = ind ->
    mfor V l (fun star => mfor V sbs (B star)) s = (s', Ok r) ->
    p_islist s' = false /\ p_ind s' = ind /\ (l <> [] -> sbs <> [] -> Inv s') /\
    exists lg, blocks (list_prod l sbs) (p_log s) lg /\ p_log s' = p_log s ++ lg.
  Proof using Hw Hin Hsize.
    induction l as [|star l IH]; intros s s' r H1 H2 E.
    - injection E as <- <-. split; [exact H1|]. split; [exact H2|]. split; [congruence|]. exists []. split; [constructor|now rewrite app_nil_r].
    - cbn [mfor] in E. unfold mbind at 1 in E. destruct (mfor V sbs (B star) s) as [s1 [a|e]] eqn:E1; [|discriminate].
      destruct (row_inv star sbs s s1 a H1 H2 E1) as (K1 & K2 & K3 & lg1 & K4 & K5).
      unfold mbind at 1 in E. destruct (mfor V l _ s1) as [s2 [b|e]] eqn:E2; [|discriminate]. injection E as <- _.
      destruct (IH s1 s2 b K1 K2 E2) as (J1 & J2 & J3 & lg & J4 & J5).
      split; [exact J1|]. split; [exact J2|]. split.
      + intros _ Hs. destruct l as [|x l]; [|apply J3; [discriminate|exact Hs]]. injection E2 as <- _. now apply K3.
      + exists (lg1 ++ lg). split.
        * cbn [list_prod]. apply blocks_app; [exact K4|]. rewrite <- K5. exact J4.
        * rewrite J5, K5, <- app_assoc. reflexivity.
  Qed.

  (* success *)
  Hypothesis Hgen : forall star I0 i, exists c, gen star I0 i = Ok c.
  Lemma row_ok star l : forall s, p_islist s = false -> p_ind s = ind ->
    exists s' r, mfor V l (B star) s = (s', Ok r) /\ p_islist s' = false /\ p_ind s' = ind.
  Proof using Hw Hin Hsize Hgen.
    induction l as [|sb l IH]; intros s H1 H2.
    - exists s, []. auto.
    - set (cmd := fun i => match gen star (image (length (p_log s)) sb nom1 nom2) i with Ok c => c | Raise _ => nom1 end).
      destruct (subband_run star sb cmd s H1 H2) as (s1 & E1 & I1 & _).
      { intros i _. unfold cmd. destruct (Hgen star (image (length (p_log s)) sb nom1 nom2) i) as (c & ->). reflexivity. }
      destruct (IH s1 (proj1 I1) (proj1 (proj2 I1))) as (s2 & r & E2 & K).
      exists s2, (tt :: r). split; [|exact K]. cbn [mfor]. unfold mbind at 1. rewrite E1. unfold mbind. now rewrite E2.
  Qed.
  Lemma stars_ok l sbs : forall s, p_islist s = false -> p_ind s = ind ->
    exists s' r, mfor V l (fun star => mfor V sbs (B star)) s = (s', Ok r) /\ p_islist s' = false /\ p_ind s' = ind.
  Proof using Hw Hin Hsize Hgen.
    induction l as [|star l IH]; intros s H1 H2.
    - exists s, []. auto.
    - destruct (row_ok star sbs s H1 H2) as (s1 & a & E1 & K1 & K2). destruct (IH s1 K1 K2) as (s2 & r & E2 & K).
      exists s2, (a :: r). split; [|exact K]. cbn [mfor]. unfold mbind at 1. rewrite E1. unfold mbind. now rewrite E2.
  Qed.
End Probing.
