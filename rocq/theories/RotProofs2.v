From Verif Require Import Base RBase CBase PropModel OptModel LinBase DiffModel DiffSpec DiffProofs DiffProofs2 DiffProofs3 DiffProofs4 RotModel.
Open Scope R_scope.
(* the transposed convolution, for even arrays (as in adjoint_11) *)
Lemma tf_adjoint ifn nact sep shx shy up a d q s : act_fit (frows ifn) nact sep -> act_fit (fcols ifn) nact sep -> Nat.even (frows ifn) = true -> Nat.even (fcols ifn) = true ->
  holds ifn nact sep shx shy up a d -> dims (frows ifn) (fcols ifn) q -> apply_tf (d_poke d) (d_tf d) = Ok s ->
  exists O, apply_tf q (fmap Cconj (d_tf d)) = Ok O /\ dims nact nact (gather (d_lat d) O) /\
    rdot (frows ifn) (fcols ifn) q s = rdot nact nact (gather (d_lat d) O) a.
Proof.
  intros FA FB EA EB H Dq Es. destruct (act_fit_pos _ _ _ FA) as [HM HA]. destruct (act_fit_pos _ _ _ FB) as [HN _].
  destruct (surface_px _ _ _ _ _ _ _ d false FA FB H) as (s' & Es' & Ds & Vs). rewrite Es in Es'. cbn [rbind] in Es'. injection Es' as <-.
  pose proof H as (HI & HT & HU & HL & _). pose proof (make_tf_dims ifn shx shy) as [T1 T2]. rewrite HT.
  destruct (apply_tf_px q (fmap Cconj (make_tf ifn shx shy)) (frows ifn) (fcols ifn) HM HN Dq) as (O & EO & DO & VO); [split; cbn; auto|].
  exists O. split; [auto|]. split; [rewrite HL; split; reflexivity|].
  unfold rdot. rewrite HL. cbn [gather lt_ny lt_nx lt_y0 lt_x0 lt_sy lt_sx fpx].
  transitivity (rsum (frows ifn) (fun i => rsum (fcols ifn) (fun j => rsum nact (fun r0 => rsum nact (fun c0 => fpx a r0 c0 * (fpx q i j * kr (frows ifn) (fcols ifn) (fpx (make_tf ifn shx shy)) (Z.of_nat (roll_ix (frows ifn) (half (frows ifn)) i) - act_pos (frows ifn) nact sep r0) (Z.of_nat (roll_ix (fcols ifn) (half (fcols ifn)) j) - act_pos (fcols ifn) nact sep c0))))))).
  { apply rsum_ext. intros i Hi. apply rsum_ext. intros j Hj. rewrite Vs by auto. rewrite <- Rmult_assoc. rewrite <- rsum_scal. apply rsum_ext. intros r0 _. rewrite <- rsum_scal. apply rsum_ext. intros c0 _. unfold gain. ring. }
  rewrite rsum4_swap. apply rsum_ext. intros r0 Hr0. apply rsum_ext. intros c0 Hc0. rewrite <- !act_pos_lin. destruct (in_slice_pos _ _ _ r0 FA Hr0) as (_ & L1 & Q1). destruct (in_slice_pos _ _ _ c0 FB Hc0) as (_ & L2 & Q2).
  rewrite VO by auto. rewrite (Rmult_comm (rsum _ _)), <- rsum_scal. apply rsum_ext. intros i Hi. rewrite <- rsum_scal. apply rsum_ext. intros j Hj. f_equal. f_equal.
  etransitivity; [|symmetry; apply kr_conj]. apply kr_cong; auto.
  + etransitivity; [|apply neg_cong; [auto|symmetry; apply (roll_mirror _ _ _ HM EA)]]. rewrite Z2Nat.id by auto. f_equal. lia.
  + etransitivity; [|apply neg_cong; [auto|symmetry; apply (roll_mirror _ _ _ HN EB)]]. rewrite Z2Nat.id by auto. f_equal. lia.
Qed.
(* rendering and reverse pass of a rotated DM, no resampling: adjoint as far as the two look-ups are *)
Lemma rotated_adjoint ip ifn nact sep shx shy rot fwd rev a d (wfe : bool) r c g : act_fit (frows ifn) nact sep -> act_fit (fcols ifn) nact sep -> Nat.even (frows ifn) = true -> Nat.even (fcols ifn) = true ->
  holds ifn nact sep shx shy 1 a d -> (1 <= r)%nat -> (1 <= c)%nat -> dims r c g ->
  exists s S inter b p, apply_tf (d_poke d) (d_tf d) = Ok s /\ dims (frows ifn) (fcols ifn) s /\ dims (frows ifn) (fcols ifn) p /\
    pad_cropr g (frows ifn) (fcols ifn) = Ok p /\
    rrender ip (mkrdm d rot (Some (fwd, rev))) r c wfe = Ok (S, inter) /\ dims r c S /\ rbackprop ip (mkrdm d rot (Some (fwd, rev))) (Some inter) g wfe = Ok b /\ dims nact nact b /\
    let q := if wfe then rscale (2 * obliquity rot) p else p in
    rdot r c g S = rdot (frows ifn) (fcols ifn) q (warp ip s fwd) /\ rdot nact nact b a = rdot (frows ifn) (fcols ifn) (warp ip q rev) s.
Proof.
  intros FA FB EA EB H Hr Hc Dg. destruct (act_fit_pos _ _ _ FA) as [HM HA]. destruct (act_fit_pos _ _ _ FB) as [HN _].
  destruct (surface_px _ _ _ _ _ _ _ d false FA FB H) as (s & Es & Ds & _).
  assert (EA' : apply_tf (d_poke d) (d_tf d) = Ok s) by (destruct (apply_tf (d_poke d) (d_tf d)); [exact Es|discriminate]).
  set (w := if wfe then rscale (2 * obliquity rot) (warp ip s fwd) else warp ip s fwd).
  assert (Dw : dims (frows ifn) (fcols ifn) w) by (destruct Ds as [D1 D2]; subst w; destruct wfe; split; auto).
  destruct (pad_cropr_px w r c Hr Hc) as (S & ES & DS & _).
  destruct (pad_cropr_px g (frows ifn) (fcols ifn) HM HN) as (p & Ep & Dp & _).
  set (q := if wfe then rscale (2 * obliquity rot) p else p).
  assert (Dq : dims (frows ifn) (fcols ifn) (warp ip q rev)) by (destruct Dp as [D1 D2]; subst q; destruct wfe; split; cbn; auto).
  destruct (tf_adjoint ifn nact sep shx shy 1 a d (warp ip q rev) s FA FB EA EB H Dq EA') as (O & EO & DO & HO).
  pose proof H as (HI & HT & HU & HL & _).
  exists s, S, (frows w, fcols w), (gather (d_lat d) O), p. repeat (split; [now auto|]). split.
  { unfold rrender. cbn [r_dm r_rot r_proj]. rewrite EA'. cbn [rbind]. cbv zeta. rewrite HU, resample_1. fold w. rewrite ES. reflexivity. }
  split; [auto|]. split.
  { unfold rbackprop. destruct Dw as [-> ->]. rewrite Ep. cbn [rbind r_dm r_rot r_proj]. rewrite HU. destruct (Req_EM_T 1 1) as [_|]; [|congruence]. cbv zeta. fold q. rewrite EO. reflexivity. }
  split; [auto|]. cbv zeta. fold q. split; [|now rewrite HO].
  rewrite (rdot_crop r c (frows ifn) (fcols ifn) w g S p Dw Dg Hr Hc HM HN ES Ep). subst w q. destruct wfe; [|reflexivity].
  unfold rdot. apply rsum_ext. intros i _. apply rsum_ext. intros j _. cbn [rscale fpx]. ring.
Qed.
