(* The reverse pass is minus the adjoint of the propagation from DM2 to the camera. *)
From Verif Require Import Base RBase StrBase UtilModel CBase PropModel PropSpec PropProofs PropProofs2 OptModel OptSpec LinBase OptProofs OptProofs2 OptProofs3 OptProofs4 OptProofs7 GradModel GradSpec GradAdj GradAdj2.
Open Scope R_scope.

Lemma rbind_assoc {A B D} (x : res A) (f : A -> res B) (g : B -> res D) : rbind (rbind x f) g = rbind x (fun a => rbind (f a) g).
Proof. destruct x; reflexivity. Qed.
Ltac flat := repeat first [reflexivity | rewrite rbind_assoc | match goal with |- rbind ?x _ = rbind ?x _ => destruct x; cbn [rbind]; [|reflexivity] end].
Lemma adj_conv s s' f rf g rg n m n' m' : adj s f rf n m n' m' -> s = s' -> (forall E, shape E n m -> f E = g E) -> (forall E, shape E n' m' -> rf E = rg E) -> adj s' g rg n m n' m'.
Proof. intros H <- H1 H2. apply (adj_ext s f rf); auto; intros E S; [rewrite H1 by auto|rewrite H2 by auto]; apply req_refl. Qed.
Lemma crop_src_same n i : (i < n)%nat -> crop_src n n i = Some i.
Proof. intros H. unfold crop_src. replace (Z.of_nat n / 2 + (Z.of_nat i - Z.of_nat n / 2))%Z with (Z.of_nat i) by lia. destruct (_ && _)%bool eqn:B; [now rewrite Nat2Z.id|lia]. Qed.
Lemma pad_crop_same E n m : (1 <= n)%nat -> (1 <= m)%nat -> shape E n m -> exists O, pad_cropf E n m = Ok O /\ shape O n m /\ feq O E.
Proof.
  intros Hn Hm [S1 S2]. destruct (pad_cropf_px E n m Hn Hm) as (O & EO & [T1 T2] & V). exists O. split; [auto|]. split; [split; auto|]. split; [congruence|]. split; [congruence|]. intros i j Hi Hj.
  rewrite T1 in Hi. rewrite T2 in Hj. rewrite V, S1, S2, !crop_src_same by auto. reflexivity.
Qed.
Lemma bop_feq f A B A' B' n m : shape A n m -> shape B n m -> feq A A' -> feq B B' -> req_field (bop f A B) (bop f A' B').
Proof.
  intros SA SB FA FB. destruct (bop_sq f A B n m SA SB) as (O & -> & [S1 S2] & V). destruct (bop_sq f A' B' n m (shape_feq _ _ _ _ SA FA) (shape_feq _ _ _ _ SB FB)) as (O' & -> & [T1 T2] & V').
  cbn. split; [congruence|]. split; [congruence|]. rewrite S1, S2. intros i j Hi Hj. rewrite V, V' by auto. destruct SA, SB. f_equal; [apply FA|apply FB]; congruence.
Qed.
Lemma fmap_feq (f : C -> C) A B : feq A B -> feq (fmap f A) (fmap f B).
Proof. intros (H1 & H2 & H3). split; [auto|]. split; [auto|]. cbn. intros. f_equal. auto. Qed.

(* apodiser and propagation back to the pupil *)
Lemma adj_tail o w : gradient_ready o -> 0 < w -> adj 1 (compact_tail o w) (rev_P3_to_DM2 o w) (o_pad o) (o_pad o) (o_pad o) (o_pad o).
Proof.
  intros G Hw. pose proof (gr_wf o G) as W. set (n := o_pad o). pose proof (fw_pos o W) as Hf. pose proof (wf_pad o W) as Hn. fold n in Hf, Hn.
  assert (A : adj 1 (fun E => match o_apod o with None => Ok E | Some (m, na) => do p <- pad_cropf E na na; bop Cmult m p end)
    (fun E => match o_apod o with None => Ok E | Some (m, _) => do p <- pad_cropf m (frows E) (fcols E); bop Cmult (fmap Cconj p) E end) n n n n).
  { pose proof (gr_apod o G) as GA. pose proof (wf_apod o W) as WA. destruct (o_apod o) as [[m na]|]; [|apply adj_id]. fold n in GA. subst na. destruct WA as (_ & M1 & M2).
    apply (adj_ext 1 (fun E => bop Cmult m E) (fun E => bop Cmult (fmap Cconj m) E)); [apply adj_mask_l; split; auto| |].
    - intros E SE. destruct (pad_crop_same E n n Hn Hn SE) as (O & -> & SO & FO). cbn [rbind]. apply (bop_feq _ _ _ _ _ n n); auto; [split; auto|apply feq_refl|now apply feq_sym].
    - intros E [S1 S2]. rewrite S1, S2. destruct (pad_crop_same m n n Hn Hn (conj M1 M2)) as (O & -> & SO & FO). cbn [rbind]. apply (bop_feq _ _ _ _ _ n n); [split; auto|split; auto|apply fmap_feq; now apply feq_sym|apply feq_refl]. }
  assert (P : adj 1 (fun E => if Req_EM_T (o_d1 o + o_d12 o) 0 then Ok E else ptp E (o_dx2 o * INR n) w (- (o_d1 o + o_d12 o)))
     (fun E => if Req_EM_T (o_d1 o + o_d12 o) 0 then Ok E else ptp E (o_dx2 o * INR (frows E)) w (o_d1 o + o_d12 o)) n n n n).
  { destruct (Req_EM_T _ 0); [apply adj_id|]. eapply adj_conv; [apply (adj_ptp (o_dx2 o * INR n) w (- (o_d1 o + o_d12 o)) n); auto|reflexivity|reflexivity|]. intros E [S1 S2]. cbv beta. now rewrite S1, Ropp_involutive. }
  eapply adj_conv; [eapply adj_bind; [exact P|eapply adj_bind; [exact (adj_relay (nrel o (o_n23 o)) (o_cen o) n n (wf_cen o W))|exact A]]|ring|reflexivity|].
  intros E SE. unfold rev_P3_to_DM2. rewrite rbind_assoc. reflexivity.
Qed.
Definition rev_lyot (o : optics) (G : field C) : res (field C) := do l <- pad_cropf (o_lyot o) (o_narr4 o) (o_narr4 o); bop Cmult G (fmap Cconj l).
Lemma rev_lyot_px o G : well_formed o -> shape G (o_narr4 o) (o_narr4 o) -> exists O, rev_lyot o G = Ok O /\ shape O (o_narr4 o) (o_narr4 o) /\
  forall i j, (i < o_narr4 o)%nat -> (j < o_narr4 o)%nat -> fpx O i j = Cmult (fpx G i j) (Cconj (fpx (o_lyot o) i j)).
Proof.
  intros W SG. pose proof (wf_narr4 o W) as HN. unfold rev_lyot. destruct (pad_crop_same (o_lyot o) _ _ HN HN (wf_lyot o W)) as (l & -> & Sl & (F1 & F2 & Fl)). cbn [rbind].
  destruct (bop_sq Cmult G (fmap Cconj l) _ _ SG Sl) as (O & EO & SO & V). exists O. split; [auto|]. split; [auto|]. intros i j Hi Hj. rewrite V by auto. cbn. rewrite Fl; [auto| |]; destruct Sl; lia.
Qed.
Lemma adj_lyot o : well_formed o -> adj 1 (fun E => bop Cmult (o_lyot o) E) (rev_lyot o) (o_narr4 o) (o_narr4 o) (o_narr4 o) (o_narr4 o).
Proof.
  intros W. apply (adj_ext 1 (fun E => bop Cmult (o_lyot o) E) (fun E => bop Cmult (fmap Cconj (o_lyot o)) E)); [apply adj_mask_l; apply (wf_lyot o W)|intros; apply req_refl|].
  intros E SE. destruct (rev_lyot_px o E W SE) as (O & -> & [S1 S2] & V). destruct (bop_sq Cmult (fmap Cconj (o_lyot o)) E (o_narr4 o) (o_narr4 o) (wf_lyot o W) SE) as (P & -> & [T1 T2] & V').
  cbn. split; [congruence|]. split; [congruence|]. rewrite T1, T2. intros. rewrite V, V' by auto. cbn. ring.
Qed.
(* propagation through the focal-plane mask at F3 *)
Lemma adj_p2f3 o w n : well_formed o -> 0 < w -> (1 <= n)%nat -> o_dx4 o = o_dx2 o -> g_deta (o_f3 o) = g_dxi (o_f3 o) -> n = o_pad o ->
  adj (-1) (p2f_f3 o w 1) (rev_f2p3 o w) n n (g_Neta (o_f3 o)) (g_Nxi (o_f3 o)).
Proof.
  intros W Hw Hn Hd He ->. destruct (wf_f3 o W) as (H1 & H2 & H3 & H4).
  eapply adj_conv; [apply (adj_p2f (o_fl o) w (o_dx2 o) (g_dxi (o_f3 o)) (g_Nxi (o_f3 o)) (g_Neta (o_f3 o)) (o_cen o) (o_pad o)); auto; apply W|reflexivity| |];
  intros E _; unfold p2f_f3, rev_f2p3; rewrite He, ?Rmult_1_l, ?Hd; reflexivity.
Qed.
Lemma adj_f2p3 o w : well_formed o -> 0 < w -> o_dx4 o = o_dx2 o -> g_deta (o_f3 o) = g_dxi (o_f3 o) ->
  adj (-1) (f2p_f3 o w 1) (rev_p2f3 o w) (g_Neta (o_f3 o)) (g_Nxi (o_f3 o)) (o_narr4 o) (o_narr4 o).
Proof.
  intros W Hw Hd He. destruct (wf_f3 o W) as (H1 & H2 & H3 & H4).
  eapply adj_conv; [apply (adj_f2p (o_fl o) w (o_dx4 o) (g_dxi (o_f3 o)) (g_Nxi (o_f3 o)) (g_Neta (o_f3 o)) (o_cen o) (o_narr4 o)); auto; apply W|reflexivity| |];
  intros E _; unfold f2p_f3, rev_p2f3; rewrite He, ?Rmult_1_l, <- ?Hd; reflexivity.
Qed.
(* mask in F3, then to the Lyot plane *)
Definition through_f3 (o : optics) (w : R) (K : field C) (E : field C) : res (field C) :=
  do inc <- p2f_f3 o w 1 E; do EF3 <- bop Cmult K inc; do sub <- f2p_f3 o w 1 EF3; relay sub (nrel o (o_n34 o) - 1) (o_cen o).
Definition rev_f3 (o : optics) (w : R) (K : field C) (G : field C) : res (field C) :=
  do r <- relay G (nrel o (o_n34 o) - 1) (o_cen o); do f <- rev_p2f3 o w r; do f' <- bop Cmult (fmap Cconj K) f; rev_f2p3 o w f'.
Lemma adj_f3 o w K : well_formed o -> 0 < w -> o_dx4 o = o_dx2 o -> g_deta (o_f3 o) = g_dxi (o_f3 o) -> shape K (g_Neta (o_f3 o)) (g_Nxi (o_f3 o)) ->
  adj 1 (through_f3 o w K) (rev_f3 o w K) (o_pad o) (o_pad o) (o_narr4 o) (o_narr4 o).
Proof.
  intros W Hw Hd He SK. pose proof (wf_pad o W).
  eapply adj_conv; [eapply adj_bind; [exact (adj_p2f3 o w (o_pad o) W Hw H Hd He eq_refl)|]; eapply adj_bind; [exact (adj_mask_l K _ _ SK)|];
    eapply adj_bind; [exact (adj_f2p3 o w W Hw Hd He)|exact (adj_relay (nrel o (o_n34 o) - 1) (o_cen o) (o_narr4 o) (o_narr4 o) (wf_cen o W))]|ring|reflexivity|].
  intros E SE. unfold rev_f3. flat.
Qed.
(* 180-degree rotations and padding *)
Lemma rot_px (c : centering) k n (E : field C) O : c <> OtherCentering -> relay E k c = Ok O -> shape E n n -> (k mod 2 = 1)%Z ->
  shape O n n /\ forall i j, (i < n)%nat -> (j < n)%nat -> fpx O i j = match c with Pixel => fpx E ((n - i) mod n)%nat ((n - j) mod n)%nat | _ => fpx E (n - 1 - i)%nat (n - 1 - j)%nat end.
Proof.
  intros Hc ER [S1 S2] Hk. unfold relay in ER. rewrite Hk in ER. cbn [Z.eqb Pos.eqb] in ER. destruct c; [| |congruence]; injection ER as <-.
  - split; [split; cbn; auto|]. intros i j Hi Hj. rewrite relay_pixel_px by congruence. now rewrite S1, S2.
  - split; [split; cbn; auto|]. intros i j Hi Hj. cbn. now rewrite S1, S2.
Qed.
Lemma crop_flip n r i : (i < n)%nat -> Nat.even n = Nat.even r -> crop_src n r (n - 1 - i) = match crop_src n r i with Some p => Some (r - 1 - p)%nat | None => None end.
Proof.
  intros Hi He. unfold crop_src.
  assert (Q : (2 * (Z.of_nat r / 2) - 2 * (Z.of_nat n / 2) = Z.of_nat r - Z.of_nat n)%Z).
  { assert (X : forall m, Z.of_nat m = (2 * (Z.of_nat m / 2) + (if Nat.even m then 0 else 1))%Z).
    { intros m. pose proof (Z.div_mod (Z.of_nat m) 2 ltac:(lia)). replace (if Nat.even m then 0%Z else 1%Z) with (Z.of_nat m mod 2)%Z; [lia|]. rewrite Zmod_even. replace (Z.even (Z.of_nat m)) with (Nat.even m); [reflexivity|].
      destruct (Nat.even m) eqn:Em; [apply Nat.even_spec in Em; destruct Em as [h ->]|assert (Em' : Nat.odd m = true) by (unfold Nat.odd; now rewrite Em); apply Nat.odd_spec in Em'; destruct Em' as [h ->]].
      - symmetry. apply Z.even_spec. exists (Z.of_nat h). lia.
      - symmetry. destruct (Z.even (Z.of_nat (2 * h + 1))) eqn:E2; [apply Z.even_spec in E2; destruct E2 as [z Hz]; lia|auto]. }
    pose proof (X r). pose proof (X n). rewrite He in *. lia. }
  set (z := (Z.of_nat r / 2 + (Z.of_nat i - Z.of_nat n / 2))%Z). replace (Z.of_nat r / 2 + (Z.of_nat (n - 1 - i) - Z.of_nat n / 2))%Z with (Z.of_nat r - 1 - z)%Z by (unfold z; lia).
  destruct ((0 <=? z) && (z <? Z.of_nat r))%Z eqn:B1, ((0 <=? Z.of_nat r - 1 - z) && (Z.of_nat r - 1 - z <? Z.of_nat r))%Z eqn:B2; try lia; auto. f_equal. lia.
Qed.
(* rotating a padded array, when the first row and column of the small array are zero *)
Definition opix (E : field C) (p q : option nat) : C := match p, q with Some i, Some j => fpx E i j | _, _ => RtoC 0 end.
Lemma crop_rot n r i : (i < n)%nat -> Nat.even n = true -> Nat.even r = true -> (r <= n)%nat -> (1 <= r)%nat ->
  let a := crop_src n r ((n - i) mod n) in let b := match crop_src n r i with Some p => Some ((r - p) mod r)%nat | None => None end in
  a = b \/ (a = None \/ a = Some 0%nat) /\ (b = None \/ b = Some 0%nat).
Proof.
  intros Hi En Er Hr H1 a b. apply Nat.even_spec in En, Er. destruct En as [h Hh]. destruct Er as [g Hg].
  assert (Qn : (Z.of_nat n / 2 = Z.of_nat h)%Z) by (rewrite Hh, Nat2Z.inj_mul, Z.mul_comm; apply Z.div_mul; lia). assert (Qr : (Z.of_nat r / 2 = Z.of_nat g)%Z) by (rewrite Hg, Nat2Z.inj_mul, Z.mul_comm; apply Z.div_mul; lia).
  unfold a, b, crop_src. rewrite Qn, Qr. destruct (Nat.eq_dec i 0) as [->|Ni].
  - right. rewrite Nat.sub_0_r, Nat.mod_same by lia. set (z := (Z.of_nat g + (Z.of_nat 0 - Z.of_nat h))%Z). destruct ((0 <=? z) && (z <? Z.of_nat r))%Z eqn:B; [|split; left; auto].
    assert (z = 0)%Z by (unfold z in *; lia). replace (Z.to_nat z) with 0%nat by lia. rewrite Nat.sub_0_r, Nat.mod_same by lia. auto.
  - rewrite (Nat.mod_small (n - i)) by lia. set (z := (Z.of_nat g + (Z.of_nat i - Z.of_nat h))%Z). replace (Z.of_nat g + (Z.of_nat (n - i) - Z.of_nat h))%Z with (Z.of_nat r - z)%Z by (unfold z; lia).
    destruct ((0 <=? z) && (z <? Z.of_nat r))%Z eqn:B1, ((0 <=? Z.of_nat r - z) && (Z.of_nat r - z <? Z.of_nat r))%Z eqn:B2; auto.
    + left. f_equal. rewrite Nat.mod_small by lia. lia.
    + right. split; [auto|]. right. replace (Z.to_nat z) with 0%nat by lia. now rewrite Nat.sub_0_r, Nat.mod_same by lia.
    + right. split; [|auto]. right. f_equal. lia.
Qed.
Lemma rot_pad_commute o X : well_formed o -> rotation_fits o -> shape X (o_narr4 o) (o_narr4 o) ->
  (forall i j, (i < o_narr4 o)%nat -> (j < o_narr4 o)%nat -> fpx (o_lyot o) i j = RtoC 0 -> fpx X i j = RtoC 0) ->
  req_field (do p <- pad_cropf X (o_pad o) (o_pad o); relay p (nrel o (o_n34 o)) (o_cen o)) (do r <- relay X (nrel o (o_n34 o)) (o_cen o); pad_cropf r (o_pad o) (o_pad o)).
Proof.
  intros W RF SX HX. set (n := o_pad o) in *. set (N := o_narr4 o) in *. set (k := nrel o (o_n34 o)) in *. pose proof (wf_pad o W) as Hn. fold n in Hn. pose proof (wf_narr4 o W) as HN. fold N in HN. pose proof (wf_cen o W) as Hc.
  destruct (Z.eq_dec (k mod 2) 1) as [Hk|Hk].
  - destruct (pad_cropf_px X n n Hn Hn) as (P & EP & SP & VP). rewrite EP. cbn [rbind]. destruct SX as [X1 X2]. rewrite X1, X2 in VP.
    destruct (oks_relay P k (o_cen o) n n Hc SP) as (Q & EQ & _). destruct (rot_px _ _ n P Q Hc EQ SP Hk) as ([SQ1 SQ2] & VQ). rewrite EQ.
    destruct (oks_relay X k (o_cen o) N N Hc (conj X1 X2)) as (Rr & ER & _). destruct (rot_px _ _ N X Rr Hc ER (conj X1 X2) Hk) as ([SR1 SR2] & VR). rewrite ER. cbn [rbind].
    destruct (pad_cropf_px Rr n n Hn Hn) as (T & ET & [ST1 ST2] & VT). rewrite ET. cbn. split; [congruence|]. split; [congruence|]. rewrite SQ1, SQ2. intros i j Hi Hj. rewrite VQ, VT by auto. rewrite SR1, SR2.
    destruct RF as [RF|[[RC RE]|(RC & E1 & E2 & LE & RZ)]].
    + exfalso. apply Z.even_spec in RF. destruct RF as [z Hz]. fold k in Hz. rewrite Hz, Z.mul_comm, Z_mod_mult in Hk. discriminate.
    + rewrite RC in *. fold n N in RE. rewrite VP by lia. rewrite !crop_flip by auto.
      destruct (crop_src n N i) as [p|] eqn:Ep; [|reflexivity]. destruct (crop_src n N j) as [q|] eqn:Eq; [|reflexivity]. rewrite VR; [reflexivity| |]; eapply crop_src_lt; eauto.
    + rewrite RC in *. fold n in E1, LE. fold N in E2, LE, RZ. rewrite VP by (apply Nat.mod_upper_bound; lia).
      assert (Z1 : forall q, (q < N)%nat -> fpx X 0%nat q = RtoC 0) by (intros q Hq; apply HX; [lia|auto|apply RZ; auto]). assert (Z2 : forall q, (q < N)%nat -> fpx X q 0%nat = RtoC 0) by (intros q Hq; apply HX; [auto|lia|apply RZ; auto]).
      set (b := fun i => match crop_src n N i with Some p => Some ((N - p) mod N)%nat | None => None end).
      assert (RHS : match crop_src n N i, crop_src n N j with Some p, Some q => fpx Rr p q | _, _ => RtoC 0 end = opix X (b i) (b j)).
      { unfold b. destruct (crop_src n N i) as [p|] eqn:Ep; [|reflexivity]. destruct (crop_src n N j) as [q|] eqn:Eq; [|reflexivity]. cbn. rewrite VR; [reflexivity| |]; eapply crop_src_lt; eauto. }
      rewrite RHS. change (opix X (crop_src n N ((n - i) mod n)) (crop_src n N ((n - j) mod n)) = opix X (b i) (b j)).
      assert (L : forall a p, crop_src n N a = Some p -> (p < N)%nat) by (intros; eapply crop_src_lt; eauto).
      assert (B : forall a p, b a = Some p -> (p < N)%nat) by (unfold b; intros a p; destruct (crop_src n N a); [|discriminate]; intros Q0; injection Q0 as <-; apply Nat.mod_upper_bound; lia).
      assert (O0 : forall x y, (x = None \/ x = Some 0%nat) -> (forall q, y = Some q -> (q < N)%nat) -> opix X x y = RtoC 0) by (intros x y [->| ->] Hy; [reflexivity|]; destruct y as [q|]; [cbn; apply Z1; auto|reflexivity]).
      assert (O1 : forall x y, (x = None \/ x = Some 0%nat) -> (forall q, y = Some q -> (q < N)%nat) -> opix X y x = RtoC 0) by (intros x y [->| ->] Hy; [destruct y; reflexivity|]; destruct y as [q|]; [cbn; apply Z2; auto|reflexivity]).
      pose proof (crop_rot n N i Hi E1 E2 LE HN) as C1. pose proof (crop_rot n N j Hj E1 E2 LE HN) as C2. cbv zeta in C1, C2. fold (b i) in C1. fold (b j) in C2.
      destruct C1 as [C1|[C1 C1']]; [|rewrite O0, O0; auto; apply L || apply B]. destruct C2 as [C2|[C2 C2']]; [|rewrite O1, O1; auto; apply L || apply B]. now rewrite C1, C2.
  - assert (K : forall E : field C, relay E k (o_cen o) = Ok E) by (intros E; unfold relay; destruct (Z.eqb_spec (k mod 2) 1); [contradiction|]; destruct (o_cen o); auto; congruence).
    rewrite K. cbn [rbind]. destruct (oks_pad X n n Hn Hn) as (P & -> & _). cbn [rbind]. rewrite K. apply req_refl.
Qed.
