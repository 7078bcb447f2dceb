From Coq Require Import Setoid.
From Verif Require Import StrBase Base RBase CtrlModel CtrlProofs DmModel UtilModel UtilSpec UtilProofs DmSurfModel DmSurfSpec.
Open Scope Z_scope.

(* ---- orientation ---- *)
Lemma r90_1 {X} (a : arr X) : rot90 a 1 = rot90_1 a. Proof. reflexivity. Qed.
Lemma r90_2 {X} (a : arr X) : rot90 a 2 = rot90_2 a. Proof. reflexivity. Qed.
Lemma r90_3 {X} (a : arr X) : rot90 a 3 = rot90_3 a. Proof. reflexivity. Qed.
Lemma r90_m1 {X} (a : arr X) : rot90 a (-1) = rot90_3 a. Proof. reflexivity. Qed.
Lemma r90_m2 {X} (a : arr X) : rot90 a (-2) = rot90_2 a. Proof. reflexivity. Qed.
Lemma r90_m3 {X} (a : arr X) : rot90 a (-3) = rot90_1 a. Proof. reflexivity. Qed.
Lemma orient_surf_ok {X} (o : string) flip k (H : arr X) N :
  In (lower o, (flip, k)) orientation_table -> nr H = N -> nc H = N ->
  exists H', orient_surf (Some o) H = Ok H' /\ nr H' = N /\ nc H' = N /\
    forall r c r' c', on_grid N r c -> on_grid N r' c' -> moves_to N flip k r c r' c' -> px H' r' c' = px H r c.
Proof.
  intros HI Hr Hc. unfold orient_surf.
  cbn [In orientation_table] in HI.
  destruct HI as [HI|[HI|[HI|[HI|[HI|[HI|[HI|[HI|[]]]]]]]]];
    injection HI as E1 E2 E3; rewrite <- E1; subst flip k; cbn [String.eqb Ascii.eqb Bool.eqb];
    (eexists; split; [reflexivity|]); rewrite ?r90_1, ?r90_2, ?r90_3, ?r90_m1, ?r90_m2, ?r90_m3;
    unfold rot90_1, rot90_2, rot90_3, fliplr; cbn [nr nc px];
    (split; [auto|]; split; [auto|]);
    intros r c r' c' [G1 G2] [G3 G4] M; unfold moves_to, symmetry, centred, quarter_turn, mirror_x in M; cbn [Nat.iter nat_rect fst snd] in M;
    apply pair_equal_spec in M; destruct M as [M1 M2]; f_equal; lia.
Qed.
Lemma orient_surf_bad {X} o (H : arr X) : ~ In (lower o) (map fst orientation_table) -> orient_surf (Some o) H = Raise ValueError.
Proof.
  intros Hn. unfold orient_surf. cbn [map fst orientation_table] in Hn.
  repeat match goal with |- context [String.eqb (lower o) ?s] =>
    destruct (String.eqb_spec (lower o) s) as [E|_]; [exfalso; apply Hn; rewrite E; cbn; tauto|] end.
  reflexivity.
Qed.
Lemma orient_poke_ok (o : string) flip k N : 
  In (lower o, (flip, k)) orientation_table ->
  exists M, orient_poke (Some o) N = Ok M /\ nr M = N /\ nc M = N /\
    forall r c r' c', on_grid N r c -> on_grid N r' c' -> moves_to N flip k r c r' c' -> px M r c = r' * N + c'.
Proof.
  intros HI. unfold orient_poke.
  cbn [In orientation_table] in HI.
  destruct HI as [HI|[HI|[HI|[HI|[HI|[HI|[HI|[HI|[]]]]]]]]];
    injection HI as E1 E2 E3; rewrite <- E1; subst flip k; cbn [String.eqb Ascii.eqb Bool.eqb];
    (eexists; split; [reflexivity|]); rewrite ?r90_1, ?r90_2, ?r90_3, ?r90_m1, ?r90_m2, ?r90_m3;
    unfold rot90_1, rot90_2, rot90_3, fliplr; cbn [nr nc px];
    (split; [auto|]; split; [auto|]);
    intros r c r' c' [G1 G2] [G3 G4] M; unfold moves_to, symmetry, centred, quarter_turn, mirror_x in M; cbn [Nat.iter nat_rect fst snd] in M;
    apply pair_equal_spec in M; destruct M as [M1 M2]; (f_equal; [f_equal|]; lia).
Qed.
Lemma orient_poke_bad o N : ~ In (lower o) (map fst orientation_table) -> orient_poke (Some o) N = Raise ValueError.
Proof.
  intros Hn. unfold orient_poke. cbn [map fst orientation_table] in Hn.
  repeat match goal with |- context [String.eqb (lower o) ?s] =>
    destruct (String.eqb_spec (lower o) s) as [E|_]; [exfalso; apply Hn; rewrite E; cbn; tauto|] end.
  reflexivity.
Qed.
Lemma moves_to_total N flip k r c : (k < 4)%nat -> on_grid N r c -> exists r' c', on_grid N r' c' /\ moves_to N flip k r c r' c'.
Proof.
  intros Hk [G1 G2]. unfold moves_to, symmetry, centred, on_grid.
  destruct k as [|[|[|[|k]]]]; [| | | |lia]; destruct flip; unfold quarter_turn, mirror_x; cbn [Nat.iter nat_rect fst snd].
  - exists r, (N-1-c). split; [lia|]. f_equal; lia.
  - exists r, c. split; [lia|]. f_equal; lia.
  - exists c, r. split; [lia|]. f_equal; lia.
  - exists (N-1-c), r. split; [lia|]. f_equal; lia.
  - exists (N-1-r), c. split; [lia|]. f_equal; lia.
  - exists (N-1-r), (N-1-c). split; [lia|]. f_equal; lia.
  - exists (N-1-c), (N-1-r). split; [lia|]. f_equal; lia.
  - exists c, (N-1-r). split; [lia|]. f_equal; lia.
Qed.
Lemma quarter_turn_inj p q : quarter_turn p = quarter_turn q -> p = q.
Proof. destruct p, q; unfold quarter_turn; cbn [fst snd]. intros H. apply pair_equal_spec in H. f_equal; lia. Qed.
Lemma symmetry_inj flip k p q : symmetry flip k p = symmetry flip k q -> p = q.
Proof.
  unfold symmetry. induction k as [|k IH]; cbn [Nat.iter nat_rect].
  - destruct p, q, flip; unfold mirror_x; cbn [fst snd]; intros E; apply pair_equal_spec in E; try (destruct E; subst); f_equal; lia.
  - intros H. apply IH. apply quarter_turn_inj. exact H.
Qed.
Lemma moves_to_inj N flip k r1 c1 r2 c2 r c : moves_to N flip k r1 c1 r c -> moves_to N flip k r2 c2 r c -> r1 = r2 /\ c1 = c2.
Proof.
  unfold moves_to. intros H1 H2. rewrite H1 in H2. apply symmetry_inj in H2. unfold centred in H2. apply pair_equal_spec in H2. lia.
Qed.
Lemma moves_to_fun N flip k r c r1 c1 r2 c2 : moves_to N flip k r c r1 c1 -> moves_to N flip k r c r2 c2 -> r1 = r2 /\ c1 = c2.
Proof. unfold moves_to. intros H1 H2. rewrite <- H2 in H1. unfold centred in H1. apply pair_equal_spec in H1. lia. Qed.
(* for N >= 2 the corner actuator (0,0) and its right neighbour tell the options apart *)
Lemma symmetries_distinct N f1 k1 f2 k2 : 2 <= N -> (k1 < 4)%nat -> (k2 < 4)%nat ->
  (forall r c r' c', on_grid N r c -> on_grid N r' c' -> moves_to N f1 k1 r c r' c' -> moves_to N f2 k2 r c r' c') ->
  f1 = f2 /\ k1 = k2.
Proof.
  intros HN H1 H2 H.
  assert (T : forall r c, on_grid N r c -> symmetry f1 k1 (centred N r c) = symmetry f2 k2 (centred N r c)).
  { intros r c G. destruct (moves_to_total N f1 k1 r c H1 G) as (r' & c' & G' & M).
    pose proof (H _ _ _ _ G G' M) as M'. unfold moves_to in *. congruence. }
  assert (A : symmetry f1 k1 (centred N 0 0) = symmetry f2 k2 (centred N 0 0)) by (apply T; unfold on_grid; lia).
  assert (B : symmetry f1 k1 (centred N 0 1) = symmetry f2 k2 (centred N 0 1)) by (apply T; unfold on_grid; lia).
  unfold symmetry, centred in A, B. 
  destruct k1 as [|[|[|[|k1]]]]; try lia; destruct k2 as [|[|[|[|k2]]]]; try lia; destruct f1, f2; auto;
    exfalso; unfold quarter_turn, mirror_x in A, B; cbn [Nat.iter nat_rect fst snd] in A, B; apply pair_equal_spec in A, B; lia.
Qed.

(* ---- neighbour rule ---- *)
Lemma for_each_ok {X} (f : X -> res unit) l : for_each f l = Ok tt <-> forall x, In x l -> f x = Ok tt.
Proof.
  induction l as [|x l IH]; cbn [for_each In]; [split; auto; intros _ ? []|].
  destruct (f x) as [[]|e] eqn:E; cbn [rbind].
  - rewrite IH. split; [intros H y [<-|Hy]; auto|auto].
  - split; [discriminate|]. intros H. specialize (H x (or_introl eq_refl)). congruence.
Qed.
Lemma for_each_err {X} (f : X -> res unit) e l : (forall x, In x l -> f x = Ok tt \/ f x = Raise e) ->
  for_each f l = Ok tt \/ for_each f l = Raise e.
Proof.
  induction l as [|x l IH]; intros H; cbn [for_each]; auto.
  destruct (H x (or_introl eq_refl)) as [->| ->]; cbn [rbind]; auto. apply IH. intros; apply H; now right.
Qed.

Lemma table_in_grid N jj ii k : 2 <= N -> on_grid N jj ii -> In k (nbr_table N jj ii) ->
  on_grid N (jj + fst k) (ii + snd k) /\ adjacent jj ii (jj + fst k) (ii + snd k).
Proof.
  intros HN [G1 G2] H. unfold nbr_table in H. unfold on_grid, adjacent.
  assert (Q : forall a b, (a, b) <> (0, 0) -> (jj, ii) <> (jj + a, ii + b)).
  { intros a b Hne [= E1 E2]. apply Hne. f_equal; lia. }
  destruct (Z.eqb_spec jj 0), (Z.eqb_spec ii 0), (Z.ltb_spec ii (N-1)), (Z.ltb_spec jj (N-1)); cbn in H;
   repeat (destruct H as [<-|H]; [cbn [fst snd]; (split; [lia|split; [apply Q; discriminate|lia]])|]); destruct H.
Qed.
(* every adjacent pair is examined, from one side or the other *)
Lemma table_covers N r c r' c' : 2 <= N -> on_grid N r c -> on_grid N r' c' -> adjacent r c r' c' ->
  In (r' - r, c' - c) (nbr_table N r c) \/ In (r - r', c - c') (nbr_table N r' c').
Proof.
  intros HN [G1 G2] [G3 G4] (Hne & D1 & D2).
  assert (Hne' : ~ (r = r' /\ c = c')) by (intros [-> ->]; now apply Hne).
  unfold nbr_table.
  assert (HR : r - r' = -1 \/ r - r' = 0 \/ r - r' = 1) by lia.
  assert (HC : c - c' = -1 \/ c - c' = 0 \/ c - c' = 1) by lia.
  destruct HR as [HR|[HR|HR]], HC as [HC|[HC|HC]]; try lia;
    replace (r' - r) with (-(r - r')) by lia; replace (c' - c) with (-(c - c')) by lia; rewrite HR, HC;
    destruct (Z.eqb_spec r 0), (Z.eqb_spec c 0), (Z.ltb_spec c (N-1)), (Z.ltb_spec r (N-1)); try lia;
    destruct (Z.eqb_spec r' 0), (Z.eqb_spec c' 0), (Z.ltb_spec c' (N-1)), (Z.ltb_spec r' (N-1)); try lia;
    cbn; tauto.
Qed.

Section Nbr.
  Context {A : Type} (exceeds : A -> A -> bool).
  Lemma at2_ok (a : arr A) N r c : nr a = N -> nc a = N -> on_grid N r c -> at2 A a r c = Ok (px a r c).
  Proof.
    intros Hr Hc [G1 G2]. unfold at2. rewrite !np_index_ok by lia. cbn [rbind]. rewrite !Z2Nat.id by lia. reflexivity.
  Qed.
  Lemma nbr_rule (Vin : arr A) N : 2 <= N -> nr Vin = N -> nc Vin = N ->
    (forall x y, exceeds x y = exceeds y x) ->
    (apply_neighbor_rule A exceeds Vin N = Ok Vin /\
       forall r c r' c', on_grid N r c -> on_grid N r' c' -> adjacent r c r' c' -> exceeds (px Vin r c) (px Vin r' c') = false) \/
    (apply_neighbor_rule A exceeds Vin N = Raise ValueError /\
       exists r c r' c', on_grid N r c /\ on_grid N r' c' /\ adjacent r c r' c' /\ exceeds (px Vin r c) (px Vin r' c') = true).
  Proof.
    intros HN Hr Hc Hs. unfold apply_neighbor_rule.
    assert (CP : forall jj ii k, on_grid N jj ii -> In k (nbr_table N jj ii) ->
       check_pair A exceeds Vin jj ii k = if exceeds (px Vin jj ii) (px Vin (jj + fst k) (ii + snd k)) then Raise ValueError else Ok tt).
    { intros jj ii k G Hk. destruct (table_in_grid N jj ii k HN G Hk) as [G' _]. unfold check_pair.
      rewrite !(at2_ok Vin N) by auto. reflexivity. }
    set (F := fun jj => for_each (fun ii => for_each (check_pair A exceeds Vin jj ii) (nbr_table N jj ii)) (zrange N)).
    assert (HE : for_each F (zrange N) = Ok tt \/ for_each F (zrange N) = Raise ValueError).
    { apply for_each_err. intros jj Hj. apply in_zrange in Hj. unfold F. apply for_each_err. intros ii Hi. apply in_zrange in Hi.
      apply for_each_err. intros k Hk. rewrite CP by (auto; unfold on_grid; lia).
      destruct (exceeds _ _); auto. }
    destruct HE as [HE|HE]; rewrite HE; cbn [rbind].
    - left. split; auto. 
      assert (ALL : forall jj ii k, on_grid N jj ii -> In k (nbr_table N jj ii) ->
           exceeds (px Vin jj ii) (px Vin (jj + fst k) (ii + snd k)) = false).
      { intros jj ii k G Hk. rewrite for_each_ok in HE. destruct G as [G1 G2].
        specialize (HE jj (proj2 (in_zrange N jj) G1)). unfold F in HE. rewrite for_each_ok in HE.
        specialize (HE ii (proj2 (in_zrange N ii) G2)). rewrite for_each_ok in HE. specialize (HE k Hk).
        rewrite CP in HE by (auto; split; auto). destruct (exceeds _ _); [discriminate|reflexivity]. }
      intros r c r' c' G G' Ad. destruct (table_covers N r c r' c' HN G G' Ad) as [T|T].
      + specialize (ALL _ _ _ G T). cbn in ALL. replace (r + (r' - r)) with r' in ALL by lia. replace (c + (c' - c)) with c' in ALL by lia. exact ALL.
      + specialize (ALL _ _ _ G' T). cbn in ALL. replace (r' + (r - r')) with r in ALL by lia. replace (c' + (c - c')) with c in ALL by lia. rewrite Hs. exact ALL.
    - right. split; auto.
      assert (EX : forall {X} (f : X -> res unit) e l, for_each f l = Raise e -> exists x, In x l /\ f x = Raise e).
      { intros X f e l. induction l as [|x l IH]; cbn [for_each]; [discriminate|].
        destruct (f x) as [[]|e'] eqn:E; cbn [rbind]; intros H; [|exists x; split; [now left|congruence]].
        destruct (IH H) as (y & Hy & Ey). exists y. split; auto. now right. }
      destruct (EX _ _ _ _ HE) as (jj & Hj & Ej). apply in_zrange in Hj. unfold F in Ej.
      destruct (EX _ _ _ _ Ej) as (ii & Hi & Ei). apply in_zrange in Hi.
      destruct (EX _ _ _ _ Ei) as (k & Hk & Ek).
      assert (G : on_grid N jj ii) by (split; auto).
      rewrite CP in Ek by auto. destruct (table_in_grid N jj ii k HN G Hk) as [G' Ad].
      exists jj, ii, (jj + fst k), (ii + snd k). repeat split; auto; try apply G; try apply G'; try apply Ad.
      destruct (exceeds _ _); [reflexivity|discriminate].
  Qed.
End Nbr.
