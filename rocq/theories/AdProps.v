(* C48 continued: DMs 8 and 9 under AD-EFC; C40 continued: DMs that are not in use. *)
From Verif Require Import Base RBase CtrlModel CtrlSpec CtrlProofs AdModel AdProofs JacModel.
Open Scope R_scope.
Lemma ad_bounds_89 (mp : mp_t R) l1 l2 b k d j : wf_mp mp ->
  (used mp 1 = true -> length (bias l1) = length (V (dm1 mp))) -> (used mp 2 = true -> length (bias l2) = length (V (dm2 mp))) ->
  ad_bounds mp l1 l2 = Ok b -> (k = 8 \/ k = 9)%Z -> used mp k = true -> get_dm mp k = Some d -> (j < length (act_ele d))%nat -> nth_error b (offset mp k + j) = Some (0, 0).
Proof.
  intros Hwf H1 H2 HB Hk Hu Hg Hj. unfold ad_bounds in HB.
  assert (B : forall k d l, get_dm mp k = Some d -> (used mp k = true -> length (bias l) = length (V d)) -> forall r, (if used mp k then dm_bounds d l else Ok []) = Ok r -> length r = nvars mp k).
  { intros k' d' l Hg' HB' r. unfold nvars. rewrite Hg'. destruct (used mp k') eqn:Hu'; [|intros [= <-]; reflexivity]. destruct (dm_bounds_ok d' l (Hwf k' d' Hu' Hg') (HB' eq_refl)) as (b0 & E & L & _). rewrite E. intros [= <-]. exact L. }
  destruct (if used mp 1 then dm_bounds (dm1 mp) l1 else Ok []) as [b1|] eqn:E1; cbn [rbind] in HB; [|discriminate]. destruct (if used mp 2 then dm_bounds (dm2 mp) l2 else Ok []) as [b2|] eqn:E2; cbn [rbind] in HB; [|discriminate]. injection HB as <-.
  pose proof (B 1%Z (dm1 mp) l1 eq_refl H1 b1 E1) as L1. pose proof (B 2%Z (dm2 mp) l2 eq_refl H2 b2 E2) as L2.
  change (if used mp 8 then length (act_ele (dm8 mp)) else 0%nat) with (nvars mp 8). change (if used mp 9 then length (act_ele (dm9 mp)) else 0%nat) with (nvars mp 9).
  assert (Hn : nvars mp k = length (act_ele d)) by (unfold nvars; now rewrite Hu, Hg).
  assert (RP : forall n i, (i < n)%nat -> nth_error (repeat (0, 0) n) i = Some (0, 0)). { induction n as [|n IH]; intros i Hi; [lia|]. destruct i; [reflexivity|]. apply IH. lia. }
  destruct Hk as [-> | ->]; unfold offset; cbn [Z.ltb Z.compare Pos.compare Pos.compare_cont].
  - rewrite nth_error_app2, nth_error_app2, nth_error_app1 by (rewrite ?repeat_length; lia). apply RP. lia.
  - rewrite nth_error_app2, nth_error_app2, nth_error_app2 by (rewrite ?repeat_length; lia). apply RP. rewrite repeat_length. lia.
Qed.
(* Both bounds of every variable of DM 8 and DM 9 are 0: an optimiser that respects them never moves these DMs. *)
Theorem C48_dm8_dm9_frozen : forall (mp : mp_t R) l1 l2 b cv x mp' dd k d, wf_mp mp -> ad_bounds mp l1 l2 = Ok b -> uLegend cv = legend mp ->
  (used mp 1 = true -> length (bias l1) = length (V (dm1 mp))) -> (used mp 2 = true -> length (bias l2) = length (V (dm2 mp))) -> length x = length b ->
  (forall p lb ub xv, nth_error b p = Some (lb, ub) -> nth_error x p = Some xv -> lb <= xv <= ub) ->
  wrapup R 0 Rplus Rmult mp cv x = Ok (mp', dd) -> (k = 8 \/ k = 9)%Z -> get_dm mp k = Some d ->
  exists d', get_dm mp' k = Some d' /\ V d' = V d.
Proof.
  intros mp l1 l2 b cv x mp' dd k d Hwf HB HLg H1 H2 HL HX HW Hk Hg.
  destruct (ad_bounds_ok mp l1 l2 Hwf H1 H2) as (b' & E & Lb & _). rewrite HB in E. injection E as <-.
  destruct (wrapup_ok 0 Rplus Rmult mp cv x Hwf HLg ltac:(lia)) as (mp2 & dd2 & E2 & _ & Hall). rewrite HW in E2. injection E2 as <- <-.
  destruct (Hall k d Hg) as (d' & Hd' & Hunused & Hused). exists d'. split; [exact Hd'|]. destruct (used mp k) eqn:Hu; [|destruct (Hunused eq_refl) as [_ ->]; reflexivity].
  destruct (Hused eq_refl) as (xx & _ & Lxx & Nx & Nz & (v & -> & Lv & Nv)). cbn [V set_V]. destruct (Hwf k d Hu Hg) as (W1 & _ & W3 & _).
  assert (Z : forall i, (i < length (V d))%nat -> nth_error xx i = Some 0).
  { intros i Hi. rewrite <- (Nat2Z.id i). destruct (in_dec Z.eq_dec (Z.of_nat i) (act_ele d)) as [Hin|Hin]; [|apply Nz; [lia|auto]].
    apply In_nth_error in Hin. destruct Hin as [j Hj]. destruct (Nx j _ Hj) as (u & Hu1 & Hu2). rewrite Hu2. assert (Hjl : (j < length (act_ele d))%nat) by (apply nth_error_Some; congruence).
    pose proof (HX _ _ _ _ (ad_bounds_89 mp l1 l2 b k d j Hwf H1 H2 HB Hk Hu Hg Hjl) Hu1). assert (u = 0) by lra. subst u. now rewrite Rmult_0_r. }
  assert (NE : forall (l l' : list R), (forall i, nth_error l i = nth_error l' i) -> l = l'). { induction l as [|y l IH]; intros l' H; destruct l' as [|y' l']; auto; [specialize (H O); discriminate|specialize (H O); discriminate|]. f_equal; [now injection (H O)|]. apply IH. intros i. apply (H (S i)). }
  apply NE. intros i. destruct (nth_error (V d) i) as [a|] eqn:Ea.
  - assert (Hi : (i < length (V d))%nat) by (apply nth_error_Some; congruence). rewrite (Nv i a 0 Ea (Z i Hi)). now rewrite Rplus_0_r.
  - apply nth_error_None. apply nth_error_None in Ea. lia.
Qed.
(* DM 9 with one actuator: its only bounds are (0, 0) *)
Example C48_frozen_example : ad_bounds (mkmp [9%Z] (mkdm [] 0 [] 0 1) (mkdm [] 0 [] 0 1) (mkdm [] 0 [] 0 1) (mkdm [5] 1 [0%Z] 1 1)) (mklim 0 1 []) (mklim 0 1 []) = Ok [(0, 0)].
Proof. reflexivity. Qed.

(* Ties change only the Jacobians of DMs in use, each with its own ties. *)
Theorem C40_ties_per_dm : forall (P : Type) (z : P) add dm_ind d1 d2 (G G' : jac P * jac P), apply_ties P z add dm_ind d1 d2 G = Ok G' ->
  (if usedb dm_ind 1 then ties_loop P z add d1 (jtied d1) (fst G) = Ok (fst G') else fst G' = fst G) /\
  (if usedb dm_ind 2 then ties_loop P z add d2 (jtied d2) (snd G) = Ok (snd G') else snd G' = snd G).
Proof.
  intros P z add dm_ind d1 d2 [g1 g2] G'. unfold apply_ties. cbn [fst snd]. destruct (usedb dm_ind 1).
  - destruct (ties_loop P z add d1 (jtied d1) g1) eqn:E1; cbn [rbind]; [|discriminate]. destruct (usedb dm_ind 2).
    + destruct (ties_loop P z add d2 (jtied d2) g2) eqn:E2; cbn [rbind]; [|discriminate]. intros [= <-]. cbn. auto.
    + cbn [rbind]. intros [= <-]. cbn. auto.
  - cbn [rbind]. destruct (usedb dm_ind 2).
    + destruct (ties_loop P z add d2 (jtied d2) g2) eqn:E2; cbn [rbind]; [|discriminate]. intros [= <-]. cbn. auto.
    + cbn [rbind]. intros [= <-]. cbn. auto.
Qed.
Example C40_per_dm_example : apply_ties Z 0%Z Z.add [1%Z] (mkjdm 2 [0; 1]%Z false 2 [(0, 1)]%Z) (mkjdm 2 [0; 1]%Z false 2 [(0, 1)]%Z) ([[5]; [7]], [[1]; [2]])%Z = Ok ([[12]; [0]], [[1]; [2]])%Z.
Proof. reflexivity. Qed.

(* ---------------- C15: actuator numbers count from the end when negative, and are refused when they designate no actuator ---------------- *)
Open Scope Z_scope.
Theorem C15_negative_numbers : forall (X : Type) (v : list X) k t x tv, - Z.of_nat (length v) <= k < 0 ->
  gather v (k :: t) = gather v (k + Z.of_nat (length v) :: t) /\ scatter_pairs v (k :: t) (x :: tv) = scatter_pairs v (k + Z.of_nat (length v) :: t) (x :: tv).
Proof.
  intros X v k t x tv H. set (n := Z.of_nat (length v)) in *. assert (E : np_index n k = np_index n (k + n)).
  { unfold np_index. destruct (Z.leb_spec 0 k); [lia|]. cbn [andb]. destruct (Z.leb_spec (- n) k); [|lia]. destruct (Z.ltb_spec k 0); [|lia]. destruct (Z.leb_spec 0 (k + n)); [|lia]. destruct (Z.ltb_spec (k + n) n); [|lia]. reflexivity. }
  cbn [gather scatter_pairs]. fold n. now rewrite E.
Qed.
Theorem C15_bad_numbers : forall (X : Type) (v : list X) k t, (k < - Z.of_nat (length v) \/ Z.of_nat (length v) <= k) -> gather v (k :: t) = Raise IndexError.
Proof.
  intros X v k t H. cbn [gather]. unfold np_index. destruct (Z.leb_spec 0 k); cbn [andb].
  - destruct (Z.ltb_spec k (Z.of_nat (length v))); [lia|]. destruct (Z.ltb_spec k 0); [lia|]. rewrite andb_false_r. reflexivity.
  - destruct (Z.leb_spec (- Z.of_nat (length v)) k); [lia|]. reflexivity.
Qed.
Example C15_negative_example : gather [10; 11; 12] [-1; 0] = Ok [12; 10].
Proof. reflexivity. Qed.
