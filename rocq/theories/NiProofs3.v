(* Quotient rule, the brightest pixel, and the columns of the Jacobian of the normalised field. *)
From Coquelicot Require Import Coquelicot.
From Coq Require Import FunctionalExtensionality.
From Verif Require Import Base RBase StrBase UtilModel CBase PropModel PropSpec PropProofs PropProofs2 OptModel OptSpec LinBase OptProofs OptProofs2 OptProofs3 OptProofs4 OptProofs6 OptProofs7 DiffModel DiffSpec DiffProofs2 SrcModel PokeModel PokeProofs PokeProofs2 GradModel GradSpec GradProofs GradProofs2 GradProofs3 GradProofs4 GradProofs5 PokeSpec PokeProofs3 PokeProofs4 PokeProofs5 PokeProofs6 PokeProofs7 PokeProofs8 NiModel NiSpec NiProofs NiProofs2.
Open Scope R_scope.

Lemma abs2_pos z : z <> RtoC 0 -> 0 < abs2 z.
Proof. intros H. destruct z as [x y]. unfold abs2. cbn. assert (0 <= x * x) by nra. assert (0 <= y * y) by nra. destruct (Req_dec x 0) as [->|]; [destruct (Req_dec y 0) as [->|]; [now elim H|nra]|nra]. Qed.
Lemma dR_div (f g : R -> R) l m : is_derive f 0 l -> is_derive g 0 m -> g 0 <> 0 -> is_derive (fun t => f t / g t) 0 ((l * g 0 - f 0 * m) / (g 0 * g 0)).
Proof. intros A B H. eapply is_derive_eq; [apply (is_derive_div f g 0 l m A B H)|]. cbn. field. exact H. Qed.
Lemma Cinv_abs2 z : Cinv z = (fst z / abs2 z, - snd z / abs2 z).
Proof. destruct z as [x y]. unfold Cinv, abs2. cbn. f_equal; f_equal; ring. Qed.
Lemma dC_inv g m : dC g m -> g 0 <> RtoC 0 -> dC (fun t => Cinv (g t)) (Copp (Cdiv m (Cmult (g 0) (g 0)))).
Proof.
  intros D H. pose proof (abs2_pos _ H) as HP. pose proof (dC_abs2 g m D) as DA. destruct D as [A B].
  apply (dC_ext (fun t => (fst (g t) / abs2 (g t), - snd (g t) / abs2 (g t)))); [intros; now rewrite Cinv_abs2|].
  unfold abs2 in HP. set (x := fst (g 0)) in *. set (y := snd (g 0)) in *.
  assert (HN : x * x + y * y <> 0) by lra.
  assert (HN2 : (x * x - y * y) * (x * x - y * y) + (x * y + y * x) * (x * y + y * x) <> 0) by (replace ((x * x - y * y) * (x * x - y * y) + (x * y + y * x) * (x * y + y * x)) with ((x * x + y * y) * (x * x + y * y)) by ring; intros Q; apply Rmult_integral in Q; tauto).
  split; cbn [fst snd].
  - eapply is_derive_eq; [apply (dR_div (fun t => fst (g t)) (fun t => abs2 (g t)) _ _ A DA); unfold abs2; exact HN|]. cbn. unfold abs2. fold x y. destruct m as [a b]. cbn. field. split; [|exact HN]. intros Q. apply HN2. rewrite <- Q. ring.
  - eapply is_derive_eq; [apply (dR_div (fun t => - snd (g t)) (fun t => abs2 (g t)) _ _ (is_derive_opp _ _ _ B) DA); unfold abs2; exact HN|]. cbn. unfold abs2. fold x y. destruct m as [a b]. cbn. unfold opp; cbn. field. split; [|exact HN]. intros Q. apply HN2. rewrite <- Q. ring.
Qed.
Lemma dC_div f g l m : dC f l -> dC g m -> g 0 <> RtoC 0 -> dC (fun t => Cdiv (f t) (g t)) (Cminus (Cdiv l (g 0)) (Cmult (Cdiv (f 0) (Cmult (g 0) (g 0))) m)).
Proof. intros A B H. eapply dC_eq; [apply (dC_mult f (fun t => Cinv (g t)) l _ A (dC_inv g m B H))|]. cbv beta. unfold Cdiv, Cminus. ring. Qed.
Lemma dC_ext_loc f g l : locally 0 (fun t => f t = g t) -> dC f l -> dC g l.
Proof. intros H [A B]. split; [apply (is_derive_ext_loc (fun t => fst (f t)))|apply (is_derive_ext_loc (fun t => snd (f t)))]; auto; (eapply filter_imp; [|exact H]); intros x E; cbv beta; now rewrite E. Qed.
(* brightest pixel *)
Lemma fold_max z t : forall a, In z (a :: t) -> (forall x, In x (a :: t) -> x = z \/ Cmod x < Cmod z) -> fold_left (fun best v => if Rlt_dec (Cmod best) (Cmod v) then v else best) t a = z.
Proof.
  induction t as [|v t IH]; intros a HI HA; cbn [fold_left].
  - destruct HI as [HI|[]]. exact HI.
  - apply IH.
    + destruct HI as [->|[->|HI]].
      * left. destruct (Rlt_dec (Cmod z) (Cmod v)) as [L|]; [|reflexivity]. destruct (HA v (or_intror (or_introl eq_refl))) as [|L']; [auto|lra].
      * left. destruct (Rlt_dec (Cmod a) (Cmod z)) as [L|L]; [reflexivity|]. destruct (HA a (or_introl eq_refl)) as [|L']; [auto|lra].
      * right. exact HI.
    + intros x [<-|Hx]; [destruct (Rlt_dec _ _); apply HA; cbn; auto|apply HA; cbn; auto].
Qed.
Lemma in_pixels F x : In x (pixels F) <-> exists i j, (i < frows F)%nat /\ (j < fcols F)%nat /\ x = fpx F i j.
Proof.
  unfold pixels. rewrite in_flat_map. split.
  - intros (i & Hi & Hx). apply in_map_iff in Hx. destruct Hx as (j & <- & Hj). apply in_seq in Hi, Hj. exists i, j. repeat split; lia.
  - intros (i & j & Hi & Hj & ->). exists i. split; [apply in_seq; lia|]. apply in_map_iff. exists j. split; [reflexivity|apply in_seq; lia].
Qed.
Lemma peak_max F i j : (i < frows F)%nat -> (j < fcols F)%nat -> (forall k l, (k < frows F)%nat -> (l < fcols F)%nat -> (k, l) <> (i, j) -> Cmod (fpx F k l) < Cmod (fpx F i j)) -> peak_of F = Ok (fpx F i j).
Proof.
  intros Hi Hj H. assert (HI : In (fpx F i j) (pixels F)) by (apply in_pixels; eauto).
  assert (HA : forall x, In x (pixels F) -> x = fpx F i j \/ Cmod x < Cmod (fpx F i j)).
  { intros x Hx. apply in_pixels in Hx. destruct Hx as (k & l & Hk & Hl & ->). destruct (Nat.eq_dec k i) as [->|]; [destruct (Nat.eq_dec l j) as [->|]; [auto|]|]; right; apply H; auto; congruence. }
  unfold peak_of, first_max. destruct (pixels F) as [|a t]; [destruct HI|]. f_equal. now apply fold_max.
Qed.
Lemma loc_forall n (P : nat -> R -> Prop) : (forall k, (k < n)%nat -> locally 0 (P k)) -> locally 0 (fun x => forall k, (k < n)%nat -> P k x).
Proof.
  induction n; intros H; [apply filter_forall; intros; lia|]. assert (A : locally 0 (fun x => forall k, (k < n)%nat -> P k x)) by (apply IHn; intros; apply H; lia). assert (B : locally 0 (P n)) by (apply H; lia).
  generalize (filter_and _ _ A B). apply filter_imp. intros x [A' B'] k Hk. destruct (Nat.eq_dec k n) as [->|]; auto. apply A'. lia.
Qed.
Lemma Cmod_lt_abs2 a b : Cmod a < Cmod b <-> abs2 a < abs2 b.
Proof.
  assert (E : forall z, Cmod z = sqrt (abs2 z)) by (intros [x y]; unfold Cmod, abs2; cbn; f_equal; ring). rewrite !E. split; intros H; [apply sqrt_lt_0_alt; exact H|apply sqrt_lt_1_alt; split; [unfold abs2; nra|exact H]].
Qed.
Lemma loc_brighter (f g : R -> C) l m : dC f l -> dC g m -> Cmod (f 0) < Cmod (g 0) -> locally 0 (fun x => Cmod (f x) < Cmod (g x)).
Proof.
  intros A B H. apply Cmod_lt_abs2 in H. set (h := fun x => abs2 (g x) - abs2 (f x)).
  assert (D : is_derive h 0 (2 * fst (Cmult (Cconj (g 0)) m) - 2 * fst (Cmult (Cconj (f 0)) l))) by (apply dR_minus; apply dC_abs2; auto).
  assert (CT : continuous h 0) by (apply (ex_derive_continuous h 0); eexists; exact D).
  assert (O : locally (h 0) (fun y => 0 < y)) by (apply (open_gt 0); unfold h; lra).
  assert (L : locally 0 (fun x => 0 < h x)) by exact (CT _ O). generalize L. apply filter_imp. intros x Hx. apply Cmod_lt_abs2. unfold h in Hx. lra.
Qed.

(* the poked instrument *)
Lemma along_0 s d : along s d 0 = s.
Proof. destruct s as [r c f]. unfold along. cbn. f_equal. apply functional_extensionality. intros i. apply functional_extensionality. intros j. ring. Qed.
Lemma poked_0 o dm2 pk : poked_by o dm2 pk 0 = o.
Proof. unfold poked_by. destruct dm2; rewrite along_0; destruct o; reflexivity. Qed.
Lemma wf_poked o dm2 pk x : well_formed o -> well_formed (poked_by o dm2 pk x).
Proof. intros W. destruct W. unfold poked_by. destruct dm2; constructor; cbn; auto. Qed.
Lemma field_split o w I00 sc fpm Ein dm2 pk x t s : compact_trans o = Ok t -> fpm_scale o w sc = Ok s ->
  compact_field (poked_by o dm2 pk x) w I00 false sc fpm Ein = do P <- compact_EP3 (poked_by o dm2 pk x) w Ein; compact_from o w I00 false fpm t s P.
Proof.
  intros Et Es. rewrite compact_field_eq. replace (compact_trans (poked_by o dm2 pk x)) with (compact_trans o) by (destruct dm2; reflexivity). replace (fpm_scale (poked_by o dm2 pk x) w sc) with (fpm_scale o w sc) by (destruct dm2; reflexivity). rewrite Et, Es. cbn [rbind].
  destruct dm2; reflexivity.
Qed.
Lemma nth_combine_map {A B D} (f : A * B -> D) (l : list A) (l' : list B) k a b d : (k < length l)%nat -> length l' = length l -> nth k (map f (combine l l')) d = f (nth k l a, nth k l' b).
Proof. intros H E. rewrite (nth_map_in f _ k (a, b) d) by (rewrite combine_length; lia). now rewrite combine_nth by auto. Qed.
Lemma column_ni b o st sp w I00 sc M Ein pk nd2 dm2 i0 j0 : poke_ready o pk -> ni_ready b o st sp -> lyot_like o -> compact_trans o = Ok (RtoC 1) -> used o dm2 -> 0 < w -> 0 < I00 ->
  frows M = g_Neta (o_fend o) -> fcols M = g_Nxi (o_fend o) -> pk_dead pk = false -> even_size nd2 -> (1 <= nd2 <= o_pad o)%nat -> (dm2 = true -> nd2 = pk_nd pk) -> exact1 o pk dm2 ->
  on_axis o i0 j0 -> only_maximum o w I00 sc Ein i0 j0 -> unocculted o w I00 sc Ein i0 j0 <> RtoC 0 ->
  exists fields ni col, precomp o w Ein nd2 = Ok fields /\ ni_fields o w I00 sc Ein = Ok ni /\ snd ni = unocculted o w I00 sc Ein i0 j0 /\ lyot_column_ni b o st sp w I00 sc M fields ni dm2 pk = Ok col /\ length col = mask_count M /\
    forall i j, (i < frows M)%nat -> (j < fcols M)%nat -> fpx M i j = true ->
      exists D, dC (fun t => normalised (poked_by o dm2 pk t) w I00 sc Ein i j) D /\ nth (mask_rank M i j) col (RtoC 0) = Cmult (RtoC (pk_weight pk)) D.
Proof.
  intros P N LY Et U Hw HI M1 M2 Dd E2 H2 H3 Hd OA OM NZ. pose proof (pr_wf o pk P) as W. destruct (scale_pos o w sc W Hw) as (s & Es & Hs). pose proof OA as (Hi0 & Hj0 & _ & _).
  destruct (dm_stage o w Ein pk nd2 dm2 P U Hw E2 H2 H3 Hd) as (fields & B & X & P3 & EPC & EB & HB & EP3 & SP3 & DER). exists fields.
  destruct (peak_core b o st sp w I00 (RtoC 1) fields dm2 pk B X P3 i0 j0 P N Hw HI EB HB EP3 OA) as (J & EJ & VJ).
  assert (OKF : forall Q, shape Q (p3_size o) (p3_size o) -> oks (fin o w s (RtoC 1) I00 Q) (g_Neta (o_fend o)) (g_Nxi (o_fend o))).
  { intros Q SQ. unfold fin. eapply oks_bind; [apply oks_tail2; auto; exact LY|]. intros O SO. apply oks_ok. apply normalise_shape. exact SO. }
  assert (D1 : forall i j, (i < g_Neta (o_fend o))%nat -> (j < g_Nxi (o_fend o))%nat -> dC (fun x => px (compact_field (poked_by o dm2 pk x) w I00 false sc true Ein) i j) (px (fin o w s (RtoC 1) I00 P3) i j)).
  { intros i j Hi Hj. eapply dC_ext; [|apply (DER (fin o w s (RtoC 1) I00) _ _ (lin_fin _ _ _ _ _) OKF i j Hi Hj)]. intros x. cbv beta. rewrite (field_split o w I00 sc true Ein dm2 pk x (RtoC 1) s Et Es). destruct (compact_EP3 _ _ _); [|reflexivity]. cbn [rbind]. now rewrite from_fin. }
  assert (D2 : forall i j, (i < g_Neta (o_fend o))%nat -> (j < g_Nxi (o_fend o))%nat -> dC (fun x => px (compact_field (poked_by o dm2 pk x) w I00 false sc false Ein) i j) (px (tailn o w (RtoC 1) I00 P3) i j)).
  { intros i j Hi Hj. eapply dC_ext; [|apply (DER (tailn o w (RtoC 1) I00) _ _ (lin_tailn _ _ _ _) (fun Q => oks_tailn o w (RtoC 1) I00 Q W Hw) i j Hi Hj)]. intros x. cbv beta. rewrite (field_split o w I00 sc false Ein dm2 pk x (RtoC 1) s Et Es). destruct (compact_EP3 _ _ _); [|reflexivity]. cbn [rbind]. now rewrite (from_false o w s). }
  assert (KC : known_compact o) by (left; exact LY).
  assert (OKP : forall x fpm, oks (compact_field (poked_by o dm2 pk x) w I00 false sc fpm Ein) (g_Neta (o_fend o)) (g_Nxi (o_fend o))).
  { intros x fpm. pose proof (compact_succeeds (poked_by o dm2 pk x) w I00 false sc fpm Ein (wf_poked o dm2 pk x W)) as Q. replace (g_Neta (o_fend o)) with (g_Neta (if false then o_eval (poked_by o dm2 pk x) else o_fend (poked_by o dm2 pk x))) by (destruct dm2; reflexivity). replace (g_Nxi (o_fend o)) with (g_Nxi (if false then o_eval (poked_by o dm2 pk x) else o_fend (poked_by o dm2 pk x))) by (destruct dm2; reflexivity). apply Q; [destruct dm2; exact KC|exact Hw]. }
  pose proof (OKP 0 true) as OK1. pose proof (OKP 0 false) as OK2. rewrite poked_0 in OK1, OK2. destruct OK1 as (Eo & EEo & [So1 So2]). destruct OK2 as (Eu & EEu & [Su1 Su2]).
  assert (UX : forall k l, unocculted o w I00 sc Ein k l = fpx Eu k l) by (intros; unfold unocculted; now rewrite EEu).
  assert (PK : peak_of Eu = Ok (fpx Eu i0 j0)). { apply peak_max; [lia|lia|]. intros k l Hk Hl NE. rewrite <- !UX. apply OM; [lia|lia|exact NE]. }
  exists (Eo, fpx Eu i0 j0).
  pose proof (image_ok o w sc pk fields dm2 B X s (RtoC 1) P LY Hw Es Hs Et EB HB) as R. rewrite EP3 in R. cbn [rbind] in R. destruct (oks_tail2 o w s (RtoC 1) P3 W LY Hw Hs SP3) as (F & EF & [F1 F2]). rewrite EF in R.
  destruct (lyot_image o w sc fields dm2 pk) as [G|] eqn:EG; [|destruct R]. destruct R as (R1 & R2 & R3).
  destruct (gather_ok M G) as (g & Eg & Lg & Vg); [congruence|congruence|]. destruct (gather_ok M Eo) as (e & Ee & Le & Ve); [congruence|congruence|].
  exists (map (fun p => ni_entry (fpx Eu i0 j0) J (pk_weight pk) (Cdiv (fst p) (RtoC (sqrt I00))) (snd p)) (combine g e)).
  split; [exact EPC|]. split; [unfold ni_fields; rewrite EEo; cbn [rbind]; rewrite EEu; cbn [rbind]; rewrite PK; reflexivity|]. split; [cbn [snd]; now rewrite UX|].
  split. { unfold lyot_column_ni. rewrite Dd, EG. cbn [rbind]. rewrite Eg. cbn [rbind]. rewrite EJ. cbn [rbind fst]. rewrite Ee. cbn [rbind snd]. reflexivity. }
  split; [rewrite map_length, combine_length, Lg, Le; apply Nat.min_id|]. intros i j Hi Hj HM. destruct (Vg i j Hi Hj HM) as [Q1 Q2]. destruct (Ve i j Hi Hj HM) as [_ Q3].
  rewrite (nth_combine_map _ g e _ (RtoC 0) (RtoC 0)) by lia. cbn [fst snd]. rewrite Q2, Q3.
  assert (Hi' : (i < g_Neta (o_fend o))%nat) by lia. assert (Hj' : (j < g_Nxi (o_fend o))%nat) by lia.
  pose proof (D1 i j Hi' Hj') as DF. pose proof (D2 i0 j0 Hi0 Hj0) as DG. rewrite VJ in DG.
  eexists. split.
  - eapply (dC_ext_loc (fun x => Cdiv (px (compact_field (poked_by o dm2 pk x) w I00 false sc true Ein) i j) (px (compact_field (poked_by o dm2 pk x) w I00 false sc false Ein) i0 j0))).
    + assert (LB : locally 0 (fun x => forall k, (k < g_Neta (o_fend o))%nat -> forall l, (l < g_Nxi (o_fend o))%nat -> (k, l) <> (i0, j0) -> Cmod (px (compact_field (poked_by o dm2 pk x) w I00 false sc false Ein) k l) < Cmod (px (compact_field (poked_by o dm2 pk x) w I00 false sc false Ein) i0 j0))).
      { apply loc_forall. intros k Hk. apply loc_forall. intros l Hl. destruct (Nat.eq_dec k i0) as [->|NE]; [destruct (Nat.eq_dec l j0) as [->|NE]|].
        - apply filter_forall. intros x Q. now elim Q.
        - generalize (loc_brighter _ _ _ _ (D2 i0 l Hk Hl) (D2 i0 j0 Hi0 Hj0)). cbv beta. rewrite poked_0, EEu. cbn [px]. rewrite <- !UX. intros LL. generalize (LL (OM i0 l Hk Hl ltac:(congruence))). apply filter_imp. auto.
        - generalize (loc_brighter _ _ _ _ (D2 k l Hk Hl) (D2 i0 j0 Hi0 Hj0)). cbv beta. rewrite poked_0, EEu. cbn [px]. rewrite <- !UX. intros LL. generalize (LL (OM k l Hk Hl ltac:(congruence))). apply filter_imp. auto. }
      generalize LB. apply filter_imp. intros x LX. unfold normalised. destruct (OKP x true) as (Fx & EFx & [T1 T2]). destruct (OKP x false) as (Ux & EUx & [T3 T4]). rewrite EFx, EUx in *. cbn [px] in *.
      rewrite (peak_max Ux i0 j0); [reflexivity|lia|lia|]. intros k l Hk Hl NE. apply LX; [lia|lia|exact NE].
    + apply dC_div; [exact DF|exact DG|]. cbv beta. rewrite poked_0, EEu. cbn [px]. now rewrite <- UX.
  - cbv beta. rewrite poked_0, EEo, EEu. cbn [px]. unfold ni_entry. rewrite R3 by congruence. unfold fin. rewrite EF. cbn [rbind px]. unfold normalise. destruct (Req_EM_T I00 0); [lra|]. cbn [fmap fpx]. unfold Cdiv, Cminus. ring.
Qed.
Lemma peak_der b o st sp w I00 sc Ein pk nd2 dm2 i0 j0 t : poke_ready o pk -> ni_ready b o st sp -> compact_trans o = Ok t -> used o dm2 -> 0 < w -> 0 < I00 ->
  even_size nd2 -> (1 <= nd2 <= o_pad o)%nat -> (dm2 = true -> nd2 = pk_nd pk) -> exact1 o pk dm2 -> on_axis o i0 j0 ->
  exists fields J, precomp o w Ein nd2 = Ok fields /\ peak_jac b o st sp w I00 fields dm2 pk = Ok J /\ dC (fun x => unocculted (poked_by o dm2 pk x) w I00 sc Ein i0 j0) (Cmult t J).
Proof.
  intros P N Et U Hw HI E2 H2 H3 Hd OA. pose proof (pr_wf o pk P) as W. destruct (scale_pos o w sc W Hw) as (s & Es & Hs). pose proof OA as (Hi0 & Hj0 & _ & _).
  destruct (dm_stage o w Ein pk nd2 dm2 P U Hw E2 H2 H3 Hd) as (fields & B & X & P3 & EPC & EB & HB & EP3 & SP3 & DER).
  destruct (peak_core b o st sp w I00 t fields dm2 pk B X P3 i0 j0 P N Hw HI EB HB EP3 OA) as (J & EJ & VJ). exists fields, J. split; [exact EPC|]. split; [exact EJ|]. rewrite <- VJ.
  eapply dC_ext; [|apply (DER (tailn o w t I00) _ _ (lin_tailn _ _ _ _) (fun Q => oks_tailn o w t I00 Q W Hw) i0 j0 Hi0 Hj0)]. intros x. unfold unocculted. cbv beta. change (match compact_field (poked_by o dm2 pk x) w I00 false sc false Ein with Ok F => fpx F i0 j0 | Raise _ => RtoC 0 end) with (px (compact_field (poked_by o dm2 pk x) w I00 false sc false Ein) i0 j0).
  rewrite (field_split o w I00 sc false Ein dm2 pk x t s Et Es). destruct (compact_EP3 _ _ _); [|reflexivity]. cbn [rbind]. now rewrite (from_false o w s).
Qed.
