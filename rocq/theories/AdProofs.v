From Verif Require Import Base RBase CtrlModel CtrlSpec CtrlProofs AdModel.
Open Scope R_scope.


Lemma nth_error_combine' {X Y} (a : list X) (b : list Y) k x y :
  nth_error a k = Some x -> nth_error b k = Some y -> nth_error (combine a b) k = Some (x, y).
Proof.
  revert b k; induction a as [|x0 a IH]; intros [|y0 b] [|k] Ha Hb; cbn in *; try discriminate.
  - congruence.
  - eauto.
Qed.

Lemma dm_bounds_ok (d : dm R) l : wf_dm d -> length (bias l) = length (V d) ->
  exists b, dm_bounds d l = Ok b /\ length b = length (act_ele d) /\
    forall j a v c, nth_error (act_ele d) j = Some a -> nth_error (V d) (Z.to_nat a) = Some v ->
      nth_error (bias l) (Z.to_nat a) = Some c ->
      nth_error b j = Some (Vmin l - (v + c), Vmax l - (v + c)).
Proof.
  intros (W1 & W2 & W3 & W4) HB. unfold dm_bounds. rewrite HB, Nat.eqb_refl.
  set (full := map _ _).
  assert (HL : length full = length (V d)) by (unfold full; rewrite map_length, combine_length; lia).
  destruct (gather_ok full (act_ele d)) as (u & E & L & N).
  { rewrite HL, W1. exact W3. }
  exists u. repeat split; auto. intros j a v c Hj Hv Hc. rewrite (N j a Hj). unfold full.
  rewrite nth_error_map, (nth_error_combine' _ _ _ v c) by auto. reflexivity.
Qed.

Lemma ad_bounds_ok (mp : mp_t R) l1 l2 : wf_mp mp ->
  (used mp 1 = true -> length (bias l1) = length (V (dm1 mp))) ->
  (used mp 2 = true -> length (bias l2) = length (V (dm2 mp))) ->
  exists b, ad_bounds mp l1 l2 = Ok b /\ length b = total mp /\
    forall k d j a v c, (k = 1 \/ k = 2)%Z -> used mp k = true -> get_dm mp k = Some d ->
      nth_error (act_ele d) j = Some a -> nth_error (V d) (Z.to_nat a) = Some v ->
      nth_error (bias (lims l1 l2 k)) (Z.to_nat a) = Some c ->
      nth_error b (offset mp k + j) =
        Some (Vmin (lims l1 l2 k) - (v + c), Vmax (lims l1 l2 k) - (v + c)).
Proof.
  intros Hwf H1 H2. unfold ad_bounds.
  assert (B : forall k d l, get_dm mp k = Some d -> (used mp k = true -> length (bias l) = length (V d)) ->
     exists b, (if used mp k then dm_bounds d l else Ok []) = Ok b /\ length b = nvars mp k /\
      (used mp k = true -> forall j a v c, nth_error (act_ele d) j = Some a -> nth_error (V d) (Z.to_nat a) = Some v ->
         nth_error (bias l) (Z.to_nat a) = Some c -> nth_error b j = Some (Vmin l - (v + c), Vmax l - (v + c)))).
  { intros k d l Hg HB. unfold nvars. rewrite Hg. destruct (used mp k) eqn:Hu.
    - destruct (dm_bounds_ok d l (Hwf k d Hu Hg) (HB eq_refl)) as (b & E & L & N). eauto.
    - exists []. repeat split; auto. discriminate. }
  destruct (B 1%Z (dm1 mp) l1 eq_refl H1) as (b1 & E1 & L1 & N1).
  destruct (B 2%Z (dm2 mp) l2 eq_refl H2) as (b2 & E2 & L2 & N2).
  rewrite E1. cbn [rbind]. rewrite E2. cbn [rbind].
  change (if used mp 8 then length (act_ele (dm8 mp)) else 0%nat) with (nvars mp 8).
  change (if used mp 9 then length (act_ele (dm9 mp)) else 0%nat) with (nvars mp 9).
  eexists; split; [reflexivity|]. split; [rewrite !app_length, !repeat_length; unfold total; lia|].
  intros k d j a v c Hk Hu Hg Hj Hv Hc.
  assert (Hjl : (j < length (act_ele d))%nat) by (apply nth_error_Some; congruence).
  assert (Hn : nvars mp k = length (act_ele d)) by (unfold nvars; now rewrite Hu, Hg).
  destruct Hk as [-> | ->]; cbn in Hg; injection Hg as <-; unfold offset, lims in *;
    cbn [Z.ltb Z.eqb Z.compare Pos.eqb Pos.compare Pos.compare_cont] in *.
  - rewrite nth_error_app1 by lia. eapply N1; eauto.
  - rewrite nth_error_app2, nth_error_app1 by lia.
    replace (nvars mp 1 + 0 + 0 + j - length b1)%nat with j by lia. eapply N2; eauto.
Qed.

Lemma ad_in_range (mp : mp_t R) l1 l2 b cv x mp' dd k d : wf_mp mp ->
  ad_bounds mp l1 l2 = Ok b -> uLegend cv = legend mp ->
  (used mp 1 = true -> length (bias l1) = length (V (dm1 mp))) ->
  (used mp 2 = true -> length (bias l2) = length (V (dm2 mp))) ->
  length x = length b ->
  (forall p lb ub xv, nth_error b p = Some (lb, ub) -> nth_error x p = Some xv -> lb <= xv <= ub) ->
  wrapup R 0 Rplus Rmult mp cv x = Ok (mp', dd) ->
  (k = 1 \/ k = 2)%Z -> used mp k = true -> get_dm mp k = Some d -> weight d = 1 ->
  exists d', get_dm mp' k = Some d' /\ forall a v' c, In a (act_ele d) ->
    nth_error (V d') (Z.to_nat a) = Some v' -> nth_error (bias (lims l1 l2 k)) (Z.to_nat a) = Some c ->
    Vmin (lims l1 l2 k) <= v' + c <= Vmax (lims l1 l2 k).
Proof.
  intros Hwf HB HLg H1 H2 HL HX HW Hk Hu Hg Hwt.
  destruct (ad_bounds_ok mp l1 l2 Hwf H1 H2) as (b' & E & Lb & N). rewrite HB in E. injection E as <-.
  destruct (wrapup_ok 0 Rplus Rmult mp cv x Hwf HLg ltac:(lia)) as (mp2 & dd2 & E2 & _ & Hall).
  rewrite HW in E2. injection E2 as <- <-.
  destruct (Hall k d Hg) as (d' & Hd' & _ & Hused). destruct (Hused Hu) as (xx & _ & Lxx & Nx & _ & Hup).
  exists d'. split; [exact Hd'|]. intros a v' c Ha Hv' Hc.
  apply In_nth_error in Ha. destruct Ha as [j Hj].
  destruct (Nx j a Hj) as (u & Hu1 & Hu2).
  destruct Hup as (vv & -> & Lvv & Nvv). cbn [V set_V] in Hv'.
  destruct (nth_error (V d) (Z.to_nat a)) as [v|] eqn:Hv.
  2:{ apply nth_error_None in Hv. assert (Z.to_nat a < length vv)%nat by (apply nth_error_Some; congruence). lia. }
  rewrite (Nvv _ _ _ Hv Hu2) in Hv'. injection Hv' as <-.
  pose proof (HX _ _ _ _ (N k d j a v c Hk Hu Hg Hj Hv Hc) Hu1). rewrite Hwt. lra.
Qed.
