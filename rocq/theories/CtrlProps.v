(* Property theorems C15, C46, C47, C48 about falco/ctrl.py. *)
From Verif Require Import Base RBase CtrlModel CtrlSpec CtrlProofs EfcModel EfcSpec EfcProofs AdModel AdProofs.
Open Scope Z_scope.

(* ---------------- C15 ---------------- *)
(* Packing: the control vector has one entry per active actuator of each DM in use; the entry of
   the j-th active actuator of DM k is at position offset k + j, is labelled k, and (except for
   DM 8) holds that actuator's command. *)
Theorem C15_pack : forall (A : Type) (mp : mp_t A), wf_mp mp ->
  (used mp 8 = true -> Z.of_nat (length (V (dm9 mp))) = NactTotal (dm8 mp)) ->
  exists cv, init mp = Ok cv /\ uLegend cv = legend mp /\ length (uVec cv) = total mp /\
    forall k d j a, used mp k = true -> get_dm mp k = Some d -> nth_error (act_ele d) j = Some a ->
      nth_error (uVec cv) (offset mp k + j) =
      nth_error (if k =? 8 then V (dm9 mp) else V d) (Z.to_nat a).
Proof. exact (@init_ok). Qed.
Print Assumptions C15_pack.

Theorem C15_labels : forall (A : Type) (mp : mp_t A) k d j,
  used mp k = true -> get_dm mp k = Some d -> (j < length (act_ele d))%nat ->
  nth_error (legend mp) (offset mp k + j) = Some k.
Proof. exact (@legend_at). Qed.
Print Assumptions C15_labels.

(* every position belongs to exactly one actuator *)
Theorem C15_positions_cover : forall (A : Type) (mp : mp_t A) p, (p < total mp)%nat ->
  exists k d j, used mp k = true /\ get_dm mp k = Some d /\ (j < length (act_ele d))%nat /\
    p = (offset mp k + j)%nat.
Proof. exact (@position_cover). Qed.
Print Assumptions C15_positions_cover.
Theorem C15_positions_distinct : forall (A : Type) (mp : mp_t A) k d j k' d' j',
  used mp k = true -> get_dm mp k = Some d -> (j < length (act_ele d))%nat ->
  used mp k' = true -> get_dm mp k' = Some d' -> (j' < length (act_ele d'))%nat ->
  (offset mp k + j = offset mp k' + j')%nat -> k = k' /\ j = j'.
Proof. exact (@position_inj). Qed.
Print Assumptions C15_positions_distinct.

(* Unpacking a solution of the right length *)
Theorem C15_unpack : forall (A : Type) (zero : A) (add mul : A -> A -> A) (mp : mp_t A) cv duVec,
  wf_mp mp -> uLegend cv = legend mp -> length duVec = total mp ->
  exists mp' dd, wrapup A zero add mul mp cv duVec = Ok (mp', dd) /\ dm_ind mp' = dm_ind mp /\
    forall k d, get_dm mp k = Some d -> exists d', get_dm mp' k = Some d' /\
     (used mp k = false -> get_delta dd k = None /\ d' = d) /\
     (used mp k = true -> exists x, get_delta dd k = Some x /\ Z.of_nat (length x) = NactTotal d /\
       (forall j a, nth_error (act_ele d) j = Some a ->
          exists u, nth_error duVec (offset mp k + j) = Some u /\
                    nth_error x (Z.to_nat a) = Some (mul (weight d) u)) /\
       (forall i, 0 <= i < NactTotal d -> ~ In i (act_ele d) -> nth_error x (Z.to_nat i) = Some zero) /\
       updated add d x d').
Proof. exact (@wrapup_ok). Qed.
Print Assumptions C15_unpack.

(* DM 8 is packed from DM 9's command: a well-formed configuration using DM 8 fails ... *)
Theorem C15_dm8_pack_refuted : exists mp : mp_t Z, wf_mp mp /\ init mp = Raise ValueError.
Proof.
  exists (mkmp [8] (mkdm [] 0 [] 0 1) (mkdm [] 0 [] 0 1) (mkdm [5; 6] 2 [0; 1] 2 1) (mkdm [] 0 [] 0 1)).
  split; [|reflexivity].
  intros k d Hu Hg. unfold used in Hu. cbn in Hu. rewrite orb_false_r in Hu. apply Z.eqb_eq in Hu. subst k.
  cbn in Hg. injection Hg as <-. unfold wf_dm; cbn. repeat split; auto.
  - constructor; [intros [H|[]]; lia|]. constructor; [intros []|constructor].
  - repeat constructor; lia.
Qed.
Print Assumptions C15_dm8_pack_refuted.
(* ... or packs another mirror's values *)
Theorem C15_dm8_values_refuted : exists (mp : mp_t Z) cv, wf_mp mp /\ used mp 8 = true /\
  init mp = Ok cv /\ nth_error (uVec cv) (offset mp 8) <> nth_error (V (dm8 mp)) 0.
Proof.
  exists (mkmp [8] (mkdm [] 0 [] 0 1) (mkdm [] 0 [] 0 1) (mkdm [5] 1 [0] 1 1) (mkdm [7] 1 [0] 1 1)).
  eexists. split; [|split; [reflexivity|split; [reflexivity|vm_compute; discriminate]]].
  intros k d Hu Hg. unfold used in Hu. cbn in Hu. rewrite orb_false_r in Hu. apply Z.eqb_eq in Hu. subst k.
  cbn in Hg. injection Hg as <-. unfold wf_dm; cbn. repeat split; auto.
  - constructor; [intros []|constructor].
  - repeat constructor; lia.
Qed.
Print Assumptions C15_dm8_values_refuted.

(* a concrete two-mirror case: DM1 4 actuators (two active, unsorted), DM2 two actuators *)
Definition ex_mp : mp_t Z :=
  mkmp [2; 1] (mkdm [10; 11; 12; 13] 4 [3; 1] 2 1) (mkdm [20; 21] 2 [0; 1] 2 5)
       (mkdm [] 0 [] 0 1) (mkdm [] 0 [] 0 1).
Example C15_ex_wf : wf_mp ex_mp.
Proof.
  intros k d Hu Hg. destruct (dm_cases ex_mp k d Hg) as [[-> ->]|[[-> ->]|[[-> ->]|[-> ->]]]];
    cbn in Hu; try discriminate; unfold wf_dm; cbn; repeat split; auto;
    repeat constructor; cbn; intuition lia.
Qed.
Example C15_ex_pack : init ex_mp = Ok (mkcvar [13; 11; 20; 21] [1; 1; 2; 2]).
Proof. reflexivity. Qed.
Example C15_ex_unpack :
  match wrapup Z 0 Z.add Z.mul ex_mp (mkcvar [13; 11; 20; 21] [1; 1; 2; 2]) [100; 200; 300; 400] with
  | Ok (mp', dd) => (V (dm1 mp'), V (dm2 mp'), dD1 dd, dD2 dd) | Raise _ => ([], [], None, None) end
  = ([10; 211; 12; 113], [1520; 2021], Some [0; 200; 0; 100], Some [1500; 2000]).
Proof. reflexivity. Qed.


(* Applying the chosen deltas (the last step of a control iteration): each DM in use gets its command plus its delta, entry by entry; the others keep theirs. *)
Theorem C15_delta_applied : forall (A : Type) (add : A -> A -> A) (mp : mp_t A) (dd : dDM_t A),
  (forall k d, used mp k = true -> get_dm mp k = Some d -> exists x, get_delta dd k = Some x /\ length x = length (V d)) ->
  exists mp', apply_delta A add mp dd = Ok mp' /\ dm_ind mp' = dm_ind mp /\
    forall k d, get_dm mp k = Some d -> exists d', get_dm mp' k = Some d' /\ (used mp k = false -> d' = d) /\
      (used mp k = true -> exists x, get_delta dd k = Some x /\ updated add d x d').
Proof.
  intros A add mp dd H. unfold apply_delta.
  assert (G : forall k d o, get_dm mp k = Some d -> get_delta dd k = o -> exists d',
    (if used mp k then match o with Some y => do v <- vadd A add (V d) y; Ok (set_V d v) | None => Raise AttributeError end else Ok d) = Ok d' /\
    (used mp k = false -> d' = d) /\ (used mp k = true -> exists x, get_delta dd k = Some x /\ updated add d x d')).
  { intros k d o Hd Ho. destruct (used mp k) eqn:U; [|exists d; split; [auto|]; split; [auto|discriminate]]. destruct (H k d U Hd) as (x & Ex & Lx). rewrite Ho in Ex. rewrite Ex in Ho |- *.
    cbv iota. unfold vadd. rewrite Lx, Nat.eqb_refl. cbn [rbind]. eexists. split; [reflexivity|]. split; [discriminate|]. intros _. exists x. split; [congruence|]. eexists. split; [reflexivity|]. split; [rewrite map_length, combine_length; lia|].
    intros i a b Ha Hb. rewrite (map_nth_error _ i (combine (V d) x) (d := (a, b))); [reflexivity|]. clear -Ha Hb. revert x i Ha Hb. induction (V d) as [|u l IH]; intros x i Ha Hb; destruct x as [|w x]; destruct i; cbn in *; try discriminate; [congruence|]. now apply IH. }
  destruct (G 1 (dm1 mp) (dD1 dd) eq_refl eq_refl) as (d1 & E1 & P1). destruct (G 2 (dm2 mp) (dD2 dd) eq_refl eq_refl) as (d2 & E2 & P2). destruct (G 8 (dm8 mp) (dD8 dd) eq_refl eq_refl) as (d8 & E8 & P8). destruct (G 9 (dm9 mp) (dD9 dd) eq_refl eq_refl) as (d9 & E9 & P9).
  rewrite E1. cbn [rbind]. rewrite E2. cbn [rbind]. rewrite E8. cbn [rbind]. rewrite E9. cbn [rbind]. eexists. split; [reflexivity|]. split; [reflexivity|].
  intros k d Hd. destruct (dm_cases mp k d Hd) as [[-> ->]|[[-> ->]|[[-> ->]|[-> ->]]]]; eexists; (split; [reflexivity|assumption]).
Qed.
Print Assumptions C15_delta_applied.
(* a DM in use without a delta stops the iteration *)
Theorem C15_delta_missing : forall (A : Type) (add : A -> A -> A) (mp mp' : mp_t A) (dd : dDM_t A) k d,
  used mp k = true -> get_dm mp k = Some d -> get_delta dd k = None -> apply_delta A add mp dd <> Ok mp'.
Proof.
  intros A add mp mp' dd k d U Hd Hn. unfold apply_delta. intros E.
  destruct (dm_cases mp k d Hd) as [[-> ->]|[[-> ->]|[[-> ->]|[-> ->]]]]; change (dD1 dd = None) in Hn || change (dD2 dd = None) in Hn || change (dD8 dd = None) in Hn || change (dD9 dd = None) in Hn; rewrite U, Hn in E; revert E;
    repeat (cbn [rbind]; match goal with |- Raise _ = _ -> _ => discriminate | |- rbind ?x _ = _ -> _ => destruct x end).
Qed.
Print Assumptions C15_delta_missing.
Example C15_ex_delta : apply_delta Z Z.add ex_mp (mkdDM (Some [1; 2; 3; 4]) (Some [5; 6]) None None)
  = Ok (mkmp [2; 1] (mkdm [11; 13; 15; 17] 4 [3; 1] 2 1) (mkdm [25; 27] 2 [0; 1] 2 5) (mkdm [] 0 [] 0 1) (mkdm [] 0 [] 0 1)).
Proof. reflexivity. Qed.

(* ---------------- C46 ---------------- *)
(* The EFC command (gain 1) minimises predicted weighted dark-hole energy + damping |u|^2, damping
   = 10^log10reg * max diagonal. *)
Theorem C46_command_minimises_cost : forall (Nmode Npix Nele : nat) (w : nat -> R)
    (G : nat -> nat -> nat -> R * R) (E : nat -> nat -> R * R) log10reg d x,
  (forall m, (m < Nmode)%nat -> (0 <= w m)%R) ->
  EyeNorm Nmode Npix Nele w G = Ok d ->
  solves Nmode Npix Nele w G E log10reg d x ->
  forall v, (cost Nmode Npix Nele w G E (Rpower 10 log10reg * d) (duVec 1 x)
             <= cost Nmode Npix Nele w G E (Rpower 10 log10reg * d) v)%R.
Proof.
  exact (fun Nmode Npix Nele w G E r d x Hw Hd Hs =>
    proj1 (efc_optimal Nmode Npix Nele w Hw G E r d x (EyeNorm_nonneg _ _ _ _ _ _ Hw Hd) Hs)).
Qed.
Print Assumptions C46_command_minimises_cost.

(* ... and is the only minimiser as soon as one actuator has any response in a weighted mode *)
Theorem C46_command_unique : forall (Nmode Npix Nele : nat) (w : nat -> R)
    (G : nat -> nat -> nat -> R * R) (E : nat -> nat -> R * R) log10reg d x m p i,
  (forall m, (m < Nmode)%nat -> (0 <= w m)%R) ->
  EyeNorm Nmode Npix Nele w G = Ok d ->
  solves Nmode Npix Nele w G E log10reg d x ->
  (m < Nmode)%nat -> (p < Npix)%nat -> (i < Nele)%nat -> (0 < w m)%R -> sqmod (G m p i) <> 0%R ->
  forall v, cost Nmode Npix Nele w G E (Rpower 10 log10reg * d) v
            = cost Nmode Npix Nele w G E (Rpower 10 log10reg * d) (duVec 1 x) ->
  forall j, (j < Nele)%nat -> v j = duVec 1 x j.
Proof.
  exact (fun Nmode Npix Nele w G E r d x m p i Hw Hd Hs Hm Hp Hi Hwm Hg =>
    proj2 (efc_optimal Nmode Npix Nele w Hw G E r d x (EyeNorm_nonneg _ _ _ _ _ _ Hw Hd) Hs)
      (EyeNorm_pos _ _ _ _ _ _ m p i Hw Hd Hm Hp Hi Hwm Hg)).
Qed.
Print Assumptions C46_command_unique.

(* any gain in [0, 2] predicts no increase *)
Theorem C46_gain_never_increases_cost : forall (Nmode Npix Nele : nat) (w : nat -> R)
    (G : nat -> nat -> nat -> R * R) (E : nat -> nat -> R * R) log10reg d x dmfac,
  (forall m, (m < Nmode)%nat -> (0 <= w m)%R) ->
  EyeNorm Nmode Npix Nele w G = Ok d ->
  solves Nmode Npix Nele w G E log10reg d x -> (0 <= dmfac <= 2)%R ->
  (cost Nmode Npix Nele w G E (Rpower 10 log10reg * d) (duVec dmfac x)
   <= cost Nmode Npix Nele w G E (Rpower 10 log10reg * d) (fun _ => 0))%R.
Proof.
  exact (fun Nmode Npix Nele w G E r d x f Hw Hd Hs =>
    efc_gain_safe Nmode Npix Nele w Hw G E r d x f (EyeNorm_nonneg _ _ _ _ _ _ Hw Hd) Hs).
Qed.
Print Assumptions C46_gain_never_increases_cost.

(* one mode, one pixel, one actuator, G = 1, E = 1: x = 1/2 for log10reg = 0 *)
Example C46_ex : EyeNorm 1 1 1 (fun _ => 1%R) (fun _ _ _ => (1%R, 0%R)) = Ok (GstarG 1 1 (fun _ => 1%R) (fun _ _ _ => (1%R, 0%R)) 0 0)
  /\ solves 1 1 1 (fun _ => 1%R) (fun _ _ _ => (1%R, 0%R)) (fun _ _ => (1%R, 0%R)) 0
       (GstarG 1 1 (fun _ => 1%R) (fun _ _ _ => (1%R, 0%R)) 0 0) (fun _ => (/ 2)%R).
Proof.
  split; [reflexivity|]. intros [|i] Hi; [|lia].
  unfold GstarG, RealGstarEab, re_conj_mul. cbn. rewrite Rpower_O by lra. lra.
Qed.

(* ---------------- C47 ---------------- *)
(* Evaluating one candidate (init, solve, wrapup, image, reset) leaves every DM command and the DM
   list exactly as they were, whatever the solver and image functions return. *)
Theorem C47_candidate_evaluation_restores : forall (A : Type) (zero : A) (add mul : A -> A -> A) (I : Type)
    (solve : cvar_t A -> list A) (image : mp_t A -> dDM_t A -> I) mp mp' r,
  efc_eval A zero add mul solve image mp = Ok (mp', r) -> mp' = mp.
Proof. exact (@efc_eval_restores). Qed.
Print Assumptions C47_candidate_evaluation_restores.
Example C47_ex : exists r, efc_eval Z 0 Z.add Z.mul (fun _ => [1; 2; 3; 4]) (fun mp _ => V (dm1 mp)) ex_mp
  = Ok (ex_mp, r) /\ fst r = [10; 13; 12; 14].
Proof. eexists. split; reflexivity. Qed.

(* ---------------- C48 ---------------- *)
Open Scope R_scope.
(* If the optimiser respects the bounds it is given, the total voltage (command + bias) of every
   active actuator of DM 1 / DM 2 ends within its limits, for unit DM weight. *)
Theorem C48_bounded_optimiser_keeps_voltages_in_range :
  forall (mp : mp_t R) l1 l2 b cv x mp' dd k d, wf_mp mp ->
  ad_bounds mp l1 l2 = Ok b -> uLegend cv = legend mp ->
  (used mp 1 = true -> length (bias l1) = length (V (dm1 mp))) ->
  (used mp 2 = true -> length (bias l2) = length (V (dm2 mp))) ->
  length x = length b ->
  (forall p lb ub xv, nth_error b p = Some (lb, ub) -> nth_error x p = Some xv -> lb <= xv <= ub) ->
  wrapup R 0 Rplus Rmult mp cv x = Ok (mp', dd) ->
  (k = 1 \/ k = 2)%Z -> used mp k = true -> get_dm mp k = Some d -> weight d = 1 ->
  exists d', get_dm mp' k = Some d' /\ forall a v' c, In a (act_ele d) ->
    nth_error (V d') (Z.to_nat a) = Some v' -> nth_error (bias (lims l1 l2 k)) (Z.to_nat a) = Some c ->
    Vmin (lims l1 l2 k) <= v' + c <= Vmax (lims l1 l2 k).
Proof. exact ad_in_range. Qed.
Print Assumptions C48_bounded_optimiser_keeps_voltages_in_range.

(* with a DM weight other than 1 the limits can be exceeded *)
Theorem C48_weighted_dm_refuted : exists (mp : mp_t R) l1 l2 x mp' dd v,
  wf_mp mp /\ ad_bounds mp l1 l2 = Ok [(0, 10)] /\ length x = 1%nat /\
  (forall xv, In xv x -> 0 <= xv <= 10) /\
  wrapup R 0 Rplus Rmult mp (mkcvar [0] [1%Z]) x = Ok (mp', dd) /\
  V (dm1 mp') = [v] /\ bias l1 = [0] /\ Vmax l1 < v + 0.
Proof.
  exists (mkmp [1%Z] (mkdm [0] 1 [0%Z] 1 2) (mkdm [] 0 [] 0 1) (mkdm [] 0 [] 0 1) (mkdm [] 0 [] 0 1)).
  exists (mklim 0 10 [0]), (mklim 0 0 []), [10]. eexists; eexists; exists 20.
  split.
  { intros k d Hu Hg. unfold used in Hu. cbn in Hu. rewrite orb_false_r in Hu. apply Z.eqb_eq in Hu. subst k.
    cbn in Hg. injection Hg as <-. unfold wf_dm; cbn. repeat split; auto; repeat constructor; cbn; intuition lia. }
  split. { unfold ad_bounds, dm_bounds; cbn. do 4 f_equal; ring. }
  split; [reflexivity|]. split. { intros xv [<-|[]]. lra. }
  split; [cbn; reflexivity|]. cbn.
  split; [apply (f_equal (fun r => [r])); ring|]. split; [reflexivity|lra].
Qed.
Print Assumptions C48_weighted_dm_refuted.
