(* Programs field -> result that act linearly: they fail or succeed depending on the shape only, and on success
   every output sample is a fixed linear combination of the input samples. *)
From Verif Require Import Base RBase UtilModel UtilSpec UtilProofs CBase PropModel PropSpec PropProofs PropProofs2 OptModel.
Open Scope R_scope.

Definition shape (E : field C) (r c : nat) : Prop := frows E = r /\ fcols E = c.
Definition apply_kernel (r c : nat) (K : nat -> nat -> nat -> nat -> C) (E : nat -> nat -> C) (k l : nat) : C :=
  csum r (fun i => csum c (fun j => Cmult (K k l i j) (E i j))).
Definition has_kernel (op : field C -> res (field C)) (r c r' c' : nat) (K : nat -> nat -> nat -> nat -> C) : Prop :=
  forall E, shape E r c -> exists O, op E = Ok O /\ shape O r' c' /\
    forall k l, (k < r')%nat -> (l < c')%nat -> fpx O k l = apply_kernel r c K (fpx E) k l.
Definition lin_at (op : field C -> res (field C)) (r c : nat) : Prop :=
  (exists e, forall E, shape E r c -> op E = Raise e) \/ exists r' c' K, has_kernel op r c r' c' K.
Definition lin (op : field C -> res (field C)) : Prop := forall r c, lin_at op r c.

Lemma csum2_ext r c f g : (forall i j, (i < r)%nat -> (j < c)%nat -> f i j = g i j) -> csum r (fun i => csum c (f i)) = csum r (fun i => csum c (g i)).
Proof. intros H. apply csum_ext. intros i Hi. apply csum_ext. auto. Qed.
Lemma kernel_feq op r c r' c' K E F O : has_kernel op r c r' c' K -> shape E r c -> feq E F -> op E = Ok O -> exists O', op F = Ok O' /\ feq O O'.
Proof.
  intros H S (F1 & F2 & F3) EO. destruct S as [S1 S2]. destruct (H E) as (O1 & E1 & [T1 T2] & V1); [split; auto|]. rewrite EO in E1. injection E1 as <-.
  destruct (H F) as (O2 & E2 & [U1 U2] & V2); [split; congruence|]. exists O2. split; [auto|]. split; [congruence|]. split; [congruence|].
  intros i j Hi Hj. rewrite V1, V2 by congruence. apply csum2_ext. intros a b Ha Hb. f_equal. apply F3; congruence.
Qed.
Lemma lin_feq op E F : lin op -> feq E F -> req_field (op E) (op F).
Proof.
  intros H HE. destruct (H (frows E) (fcols E)) as [[e He]|(r' & c' & K & HK)].
  - rewrite !He; [reflexivity| |split; auto]. destruct HE as (H1 & H2 & _). split; congruence.
  - destruct (HK E) as (O & EO & _); [split; auto|]. destruct (kernel_feq _ _ _ _ _ _ _ _ _ HK (conj eq_refl eq_refl) HE EO) as (O' & -> & Q). now rewrite EO.
Qed.
Lemma csum2_lin r c a b K E F : csum r (fun i => csum c (fun j => Cmult (K i j) (Cplus (Cmult a (E i j)) (Cmult b (F i j))))) =
  Cplus (Cmult a (csum r (fun i => csum c (fun j => Cmult (K i j) (E i j))))) (Cmult b (csum r (fun i => csum c (fun j => Cmult (K i j) (F i j))))).
Proof.
  rewrite <- !csum_scal, <- csum_plus. apply csum_ext. intros i _. rewrite <- !csum_scal, <- csum_plus. apply csum_ext. intros j _. ring.
Qed.
Lemma kernel_comb op r c r' c' K a b E F PE PF : has_kernel op r c r' c' K -> shape E r c -> shape F r c -> op E = Ok PE -> op F = Ok PF ->
  exists PC, op (fcomb a b E F) = Ok PC /\ feq PC (fcomb a b PE PF).
Proof.
  intros H SE SF EE EF. destruct (H E SE) as (O1 & Q1 & [T1 T2] & V1). rewrite EE in Q1. injection Q1 as <-. destruct (H F SF) as (O2 & Q2 & [U1 U2] & V2). rewrite EF in Q2. injection Q2 as <-.
  destruct (H (fcomb a b E F)) as (PC & Q & [W1 W2] & V); [destruct SE; split; auto|]. exists PC. split; [auto|]. split; [cbn; congruence|]. split; [cbn; congruence|].
  intros i j Hi Hj. rewrite W1 in Hi. rewrite W2 in Hj. rewrite V by auto. cbn [fcomb fpx]. rewrite V1, V2 by auto. apply csum2_lin.
Qed.
Lemma lin_comb op a b E F PE PF : lin op -> frows F = frows E -> fcols F = fcols E -> op E = Ok PE -> op F = Ok PF ->
  exists PC, op (fcomb a b E F) = Ok PC /\ feq PC (fcomb a b PE PF).
Proof.
  intros H H1 H2 EE EF. destruct (H (frows E) (fcols E)) as [[e He]|(r' & c' & K & HK)]; [rewrite He in EE; [discriminate|split; auto]|].
  eapply kernel_comb; eauto; split; auto.
Qed.

(* ---- closure ---- *)
Lemma lin_id : lin (fun E => Ok E).
Proof.
  intros r c. right. exists r, c, (fun k l i j => if Nat.eqb i k && Nat.eqb j l then RtoC 1 else RtoC 0). intros E [S1 S2]. exists E. split; [auto|]. split; [split; auto|].
  intros k l Hk Hl. unfold apply_kernel. rewrite (csum_single r k); auto.
  - rewrite (csum_single c l); auto; [rewrite !Nat.eqb_refl; cbn; ring|]. intros j _ Hj. rewrite (proj2 (Nat.eqb_neq j l) Hj), andb_false_r. ring.
  - intros i _ Hi. apply csum_zero. intros j _. rewrite (proj2 (Nat.eqb_neq i k) Hi). cbn. ring.
Qed.
Lemma kernel_bind f g r c r1 c1 r2 c2 K1 K2 : has_kernel f r c r1 c1 K1 -> has_kernel g r1 c1 r2 c2 K2 ->
  has_kernel (fun E => do F <- f E; g F) r c r2 c2 (fun k l i j => csum r1 (fun p => csum c1 (fun q => Cmult (K2 k l p q) (K1 p q i j)))).
Proof.
  intros H1 H2 E S. destruct (H1 E S) as (O1 & E1 & S1 & V1). destruct (H2 O1 S1) as (O2 & E2 & S2 & V2). exists O2. rewrite E1. cbn [rbind]. split; [auto|]. split; [auto|].
  intros k l Hk Hl. rewrite V2 by auto. unfold apply_kernel.
  rewrite (csum2_ext r1 c1 _ (fun p q => csum r (fun i => csum c (fun j => Cmult (Cmult (K2 k l p q) (K1 p q i j)) (fpx E i j))))).
  2:{ intros p q Hp Hq. rewrite V1 by auto. unfold apply_kernel. rewrite <- csum_scal. apply csum_ext. intros i _. rewrite <- csum_scal. apply csum_ext. intros j _. ring. }
  rewrite (csum_ext r1 _ (fun p => csum r (fun i => csum c1 (fun q => csum c (fun j => Cmult (Cmult (K2 k l p q) (K1 p q i j)) (fpx E i j)))))) by (intros; apply csum_swap).
  rewrite csum_swap. apply csum_ext. intros i _.
  rewrite (csum_ext r1 _ (fun p => csum c (fun j => csum c1 (fun q => Cmult (Cmult (K2 k l p q) (K1 p q i j)) (fpx E i j))))) by (intros; apply csum_swap).
  rewrite csum_swap. apply csum_ext. intros j _. rewrite <- csum_scal_r. apply csum_ext. intros p _. rewrite <- csum_scal_r. reflexivity.
Qed.
Lemma lin_bind f g : lin f -> lin g -> lin (fun E => do F <- f E; g F).
Proof.
  intros Hf Hg r c. destruct (Hf r c) as [[e He]|(r1 & c1 & K1 & H1)].
  - left. exists e. intros E S. now rewrite He.
  - destruct (Hg r1 c1) as [[e He]|(r2 & c2 & K2 & H2)].
    + left. exists e. intros E S. destruct (H1 E S) as (O & -> & SO & _). cbn. auto.
    + right. exists r2, c2. eexists. eapply kernel_bind; eauto.
Qed.
Lemma lin_raise e : lin (fun _ => Raise e).
Proof. intros r c. left. exists e. auto. Qed.
Lemma lin_const_bind {A} (x : res A) (g : A -> field C -> res (field C)) : (forall a, lin (g a)) -> lin (fun E => do a <- x; g a E).
Proof. intros H. destruct x as [a|e]; cbn; [apply H|apply lin_raise]. Qed.
Lemma lin_ext f g : (forall E, f E = g E) -> lin f -> lin g.
Proof.
  intros H L r c. destruct (L r c) as [[e He]|(r' & c' & K & HK)]; [left; exists e; intros E S; rewrite <- H; auto|].
  right. exists r', c', K. intros E S. rewrite <- H. auto.
Qed.
(* weighted gather: out[k,l] = w(k,l) * in[p(k,l), q(k,l)], or 0 *)
Lemma gather_kernel r c (w : nat -> nat -> C) (p q : nat -> nat -> nat) E k l : (p k l < r)%nat -> (q k l < c)%nat ->
  apply_kernel r c (fun k l i j => if Nat.eqb i (p k l) && Nat.eqb j (q k l) then w k l else RtoC 0) E k l = Cmult (w k l) (E (p k l) (q k l)).
Proof.
  intros Hp Hq. unfold apply_kernel. rewrite (csum_single r (p k l)); auto.
  - rewrite (csum_single c (q k l)); auto; [now rewrite !Nat.eqb_refl|]. intros j _ Hj. rewrite (proj2 (Nat.eqb_neq j _) Hj), andb_false_r. ring.
  - intros i _ Hi. apply csum_zero. intros j _. rewrite (proj2 (Nat.eqb_neq i _) Hi). cbn. ring.
Qed.
Lemma lin_pure (f : field C -> field C) : (forall r c, exists r' c' K, forall E, shape E r c -> shape (f E) r' c' /\
  forall k l, (k < r')%nat -> (l < c')%nat -> fpx (f E) k l = apply_kernel r c K (fpx E) k l) -> lin (fun E => Ok (f E)).
Proof. intros H r c. right. destruct (H r c) as (r' & c' & K & HK). exists r', c', K. intros E S. destruct (HK E S) as [T V]. exists (f E). auto. Qed.
Lemma lin_flip : lin (fun E => Ok (flip2 E)).
Proof.
  apply lin_pure. intros r c. exists r, c. eexists. intros E [S1 S2]. split; [split; cbn; auto|]. intros k l Hk Hl. cbn. rewrite S1, S2.
  rewrite (gather_kernel r c (fun _ _ => RtoC 1) (fun k _ => r - 1 - k)%nat (fun _ l => c - 1 - l)%nat) by lia. ring.
Qed.
Lemma lin_roll (s t : nat -> Z) : lin (fun E => Ok (roll2 (s (frows E)) (t (fcols E)) E)).
Proof.
  apply lin_pure. intros r c. exists r, c. eexists. intros E [S1 S2]. split; [split; cbn; auto|]. intros k l Hk Hl. cbn. rewrite S1, S2.
  rewrite (gather_kernel r c (fun _ _ => RtoC 1) (fun k _ => roll_ix r (s r) k) (fun _ l => roll_ix c (t c) l)) by (apply roll_lt; lia). ring.
Qed.
Lemma lin_relay n cn : lin (fun E => relay E n cn).
Proof.
  unfold relay. destruct cn; [| |apply lin_raise]; destruct (n mod 2 =? 1)%Z; try apply lin_id; [|apply lin_flip].
  apply (lin_ext (fun E => do F <- Ok (flip2 E); Ok (roll2 1 1 F))); [reflexivity|]. apply lin_bind; [apply lin_flip|]. apply (lin_roll (fun _ => 1%Z) (fun _ => 1%Z)).
Qed.
Lemma lin_fft s a : lin (fun E => Ok (fft_scaled s (a (frows E) (fcols E)) E)).
Proof.
  apply lin_pure. intros r c. exists r, c, (fun u v i j => Cmult (RtoC (a r c)) (Cmult (ph s r u i) (ph s c v j))). intros E [S1 S2]. split; [split; cbn; auto|].
  intros k l Hk Hl. cbn. rewrite S1, S2. unfold dft2, apply_kernel. rewrite <- csum_scal. apply csum_ext. intros i _. rewrite <- csum_scal. apply csum_ext. intros j _. ring.
Qed.
Lemma lin_mul_by (k : nat -> nat -> nat -> nat -> C) : lin (fun E => Ok (mul_by (k (frows E) (fcols E)) E)).
Proof.
  apply lin_pure. intros r c. exists r, c. eexists. intros E [S1 S2]. split; [split; cbn; auto|]. intros a b Ha Hb. cbn. rewrite S1, S2.
  now rewrite (gather_kernel r c (k r c) (fun k _ => k) (fun _ l => l)) by lia.
Qed.
Lemma lin_guard (b : bool) e f : lin f -> lin (fun E => if b then Raise e else f E).
Proof. destruct b; [intros; apply lin_raise|auto]. Qed.
Lemma lin_guard_shape (b : nat -> nat -> bool) e f : lin f -> lin (fun E => if b (frows E) (fcols E) then Raise e else f E).
Proof.
  intros H r c. destruct (b r c) eqn:B.
  - left. exists e. intros E [<- <-]. now rewrite B.
  - destruct (H r c) as [[e' He]|(r' & c' & K & HK)]; [left; exists e'|right; exists r', c', K]; intros E S; pose proof S as [S1 S2]; rewrite S1, S2, B; auto.
Qed.
Lemma lin_ptp fw w z : lin (fun E => ptp E fw w z).
Proof.
  unfold ptp. destruct (Rle_dec fw 0); [apply lin_raise|]. destruct (Rle_dec w 0); [apply lin_raise|]. destruct (Req_EM_T z 0); [apply lin_id|].
  apply (lin_guard_shape (fun _ c => Nat.eqb c 0)). apply (lin_guard_shape (fun r c => negb (Nat.eqb r c))).
  apply (lin_ext (fun E => do F1 <- Ok (fftshift E); do F2 <- Ok (fftn F1); do F3 <- Ok (mul_by (transfer (frows F2) (fcols F2) w (fw / INR (fcols F2)) z) F2); do F4 <- Ok (ifftn F3); Ok (ifftshift F4))); [reflexivity|].
  apply lin_bind; [apply (lin_roll half half)|]. apply lin_bind; [apply (lin_fft (-1) (fun _ _ => 1))|]. apply lin_bind; [apply (lin_mul_by (fun r c => transfer r c w (fw / INR c) z))|].
  apply lin_bind; [apply (lin_fft 1 (fun r c => / (INR r * INR c)))|]. apply (lin_roll (fun r => (- half r)%Z) (fun c => (- half c)%Z)).
Qed.
(* scatter of a table product: mft_core *)
Lemma mft_core_kernel s co ra rb rc rd E k l : mft_core s co ra rb rc rd E k l =
  apply_kernel (length rb) (length rc) (fun k l i j => Cmult (RtoC s) (Cmult (cis (co * (nth k ra 0 * nth i rb 0))) (cis (co * (nth j rc 0 * nth l rd 0))))) E k l.
Proof.
  unfold mft_core, apply_kernel. rewrite <- csum_scal.
  rewrite (csum_ext (length rc) _ (fun j => csum (length rb) (fun i => Cmult (Cmult (RtoC s) (Cmult (cis (co * (nth k ra 0 * nth i rb 0))) (cis (co * (nth j rc 0 * nth l rd 0))))) (E i j)))).
  2:{ intros j _. rewrite <- csum_scal_r, <- csum_scal. apply csum_ext. intros i _. ring. }
  apply csum_swap.
Qed.
Lemma axis_length n step inter ax : create_axis (Z.of_nat n) step inter = Ok ax -> length ax = n.
Proof.
  intros E. assert (Hn : (0 < Z.of_nat n)%Z) by (unfold create_axis in E; destruct (Z.leb_spec (Z.of_nat n) 0); [discriminate|auto]).
  assert (Hs : 0 < step) by (unfold create_axis in E; destruct (Z.of_nat n <=? 0)%Z; [discriminate|]; destruct (Rle_dec step 0); [discriminate|lra]).
  destruct (create_axis_spec (Z.of_nat n) step inter Hn Hs) as (ax' & E' & L & _). rewrite E in E'. injection E' as <-. lia.
Qed.
Ltac axis_case H n d b := destruct (create_axis (Z.of_nat n) d b) as [?ax|?e] eqn:H; cbn [rbind].
Lemma lin_f2p fl w dxi deta dx N cn : lin (fun E => mft_f2p E fl w dxi deta dx N cn).
Proof.
  assert (G : forall inter s co, lin (fun E => do xi <- create_axis (Z.of_nat (fcols E)) dxi inter; do eta <- create_axis (Z.of_nat (frows E)) dxi inter;
    do x <- create_axis (Z.of_nat N) dx inter; if Req_EM_T (w * fl) 0 then Raise ZeroDivisionError else Ok (mkf N N (mft_core s co x eta xi x (fpx E))))).
  { intros inter s co r c.
    destruct (create_axis (Z.of_nat c) dxi inter) as [xi|e] eqn:E1; [|left; exists e; intros E [S1 S2]; now rewrite S2, E1].
    destruct (create_axis (Z.of_nat r) dxi inter) as [eta|e] eqn:E2; [|left; exists e; intros E [S1 S2]; rewrite S2, E1, S1; cbn [rbind]; now rewrite E2].
    destruct (create_axis (Z.of_nat N) dx inter) as [x|e] eqn:E3; [|left; exists e; intros E [S1 S2]; rewrite S2, E1, S1; cbn [rbind]; now rewrite E2].
    destruct (Req_EM_T (w * fl) 0) as [Z|Z]; [left; exists ZeroDivisionError; intros E [S1 S2]; rewrite S2, E1, S1; cbn [rbind]; now rewrite E2|].
    right. exists N, N. eexists. intros E [S1 S2]. rewrite S2, E1, S1. cbn [rbind]. rewrite E2. cbn [rbind]. eexists. split; [reflexivity|]. split; [split; reflexivity|].
    intros k l Hk Hl. cbn [fpx]. rewrite mft_core_kernel, (axis_length _ _ _ _ E1), (axis_length _ _ _ _ E2). reflexivity. }
  unfold mft_f2p. destruct cn; [| |apply lin_raise];
  (destruct (Rle_dec w 0); [apply lin_raise|]; destruct (Rle_dec dxi 0); [apply lin_raise|]; destruct (Rle_dec deta 0); [apply lin_raise|]; destruct (Rle_dec dx 0); [apply lin_raise|]; destruct (Nat.eqb N 0); [apply lin_raise|]; apply G).
Qed.
Lemma lin_p2f fl w dx dxi Nxi deta Neta cn : lin (fun E => mft_p2f E fl w dx dxi Nxi deta Neta cn).
Proof.
  assert (G : forall inter s co, lin (fun E => if negb (Nat.eqb (frows E) (fcols E)) then Raise ValueError else do x <- create_axis (Z.of_nat (fcols E)) dx inter; do xi <- create_axis (Z.of_nat Nxi) dxi inter;
    do eta <- create_axis (Z.of_nat Neta) deta inter; if Req_EM_T (w * fl) 0 then Raise ZeroDivisionError else Ok (mkf Neta Nxi (mft_core s co eta x x xi (fpx E))))).
  { intros inter s co r c. destruct (Nat.eqb_spec r c) as [->|Hn]; [|left; exists ValueError; intros E [S1 S2]; rewrite S1, S2; destruct (Nat.eqb_spec r c); [contradiction|reflexivity]].
    assert (B : forall E : field C, shape E c c -> negb (Nat.eqb (frows E) (fcols E)) = false) by (intros E [S1 S2]; now rewrite S1, S2, Nat.eqb_refl).
    destruct (create_axis (Z.of_nat c) dx inter) as [x|e] eqn:E1; [|left; exists e; intros E S; rewrite (B E S); destruct S as [S1 S2]; now rewrite S2, E1].
    destruct (create_axis (Z.of_nat Nxi) dxi inter) as [xi|e] eqn:E2; [|left; exists e; intros E S; rewrite (B E S); destruct S as [S1 S2]; now rewrite S2, E1].
    destruct (create_axis (Z.of_nat Neta) deta inter) as [eta|e] eqn:E3; [|left; exists e; intros E S; rewrite (B E S); destruct S as [S1 S2]; now rewrite S2, E1].
    destruct (Req_EM_T (w * fl) 0) as [Z|Z]; [left; exists ZeroDivisionError; intros E S; rewrite (B E S); destruct S as [S1 S2]; now rewrite S2, E1|].
    right. exists Neta, Nxi. eexists. intros E S. rewrite (B E S). destruct S as [S1 S2]. rewrite S2, E1. cbn [rbind]. eexists. split; [reflexivity|]. split; [split; reflexivity|].
    intros k l Hk Hl. cbn [fpx]. rewrite mft_core_kernel, (axis_length _ _ _ _ E1). reflexivity. }
  unfold mft_p2f. destruct cn; [| |apply lin_raise];
  (destruct (Rle_dec w 0); [apply lin_raise|]; destruct (Rle_dec dx 0); [apply lin_raise|]; destruct (Rle_dec dxi 0); [apply lin_raise|]; destruct (Nat.eqb Nxi 0); [apply lin_raise|]; destruct (Rle_dec deta 0); [apply lin_raise|]; destruct (Nat.eqb Neta 0); [apply lin_raise|]; apply G).
Qed.
Lemma bdim_ix a b n i : bdim a b = Some n -> (i < n)%nat -> (bix a i < a)%nat /\ (bix b i < b)%nat.
Proof.
  unfold bdim, bix. destruct (Nat.eqb_spec a b); [|destruct (Nat.eqb_spec a 1); [|destruct (Nat.eqb_spec b 1); [|discriminate]]]; intros Q Hi; injection Q as <-;
  destruct (Nat.eqb_spec a 1), (Nat.eqb_spec b 1); lia.
Qed.
(* sum / difference of two linear programs *)
Lemma lin_bop2 (s : bool) f g : lin f -> lin g -> lin (fun E => do A <- f E; do B <- g E; bop (if s then Cplus else Cminus) A B).
Proof.
  intros Hf Hg r c. destruct (Hf r c) as [[e He]|(r1 & c1 & K1 & H1)]; [left; exists e; intros E S; now rewrite He|].
  destruct (Hg r c) as [[e He]|(r2 & c2 & K2 & H2)]; [left; exists e; intros E S; destruct (H1 E S) as (O & -> & _); cbn; now rewrite He|].
  destruct (bdim r1 r2) as [ro|] eqn:Br; [|left; exists ValueError; intros E S; destruct (H1 E S) as (A & -> & [A1 A2] & _); destruct (H2 E S) as (B & -> & [B1 B2] & _); cbn [rbind]; unfold bop; rewrite A1, B1, Br; reflexivity].
  destruct (bdim c1 c2) as [co|] eqn:Bc; [|left; exists ValueError; intros E S; destruct (H1 E S) as (A & -> & [A1 A2] & _); destruct (H2 E S) as (B & -> & [B1 B2] & _); cbn [rbind]; unfold bop; rewrite A1, A2, B1, B2, Br, Bc; reflexivity].
  right. exists ro, co, (fun k l i j => (if s then Cplus else Cminus) (K1 (bix r1 k) (bix c1 l) i j) (K2 (bix r2 k) (bix c2 l) i j)).
  intros E S. destruct (H1 E S) as (A & -> & [A1 A2] & VA). destruct (H2 E S) as (B & -> & [B1 B2] & VB). cbn [rbind]. unfold bop. rewrite A1, A2, B1, B2, Br, Bc.
  eexists. split; [reflexivity|]. split; [split; reflexivity|]. intros k l Hk Hl. cbn [fpx]. destruct (bdim_ix _ _ _ _ Br Hk). destruct (bdim_ix _ _ _ _ Bc Hl). rewrite VA, VB by auto. unfold apply_kernel.
  destruct s.
  - rewrite <- csum_plus. apply csum_ext. intros i _. rewrite <- csum_plus. apply csum_ext. intros j _. ring.
  - unfold Cminus at 1. replace (Copp (csum r (fun i => csum c (fun j => Cmult (K2 (bix r2 k) (bix c2 l) i j) (fpx E i j))))) with (Cmult (Copp (RtoC 1)) (csum r (fun i => csum c (fun j => Cmult (K2 (bix r2 k) (bix c2 l) i j) (fpx E i j))))) by ring.
    rewrite <- csum_scal, <- csum_plus. apply csum_ext. intros i _. rewrite <- csum_scal, <- csum_plus. apply csum_ext. intros j _. unfold Cminus. ring.
Qed.
(* multiplication by a fixed array *)
Lemma lin_mask_l M : lin (fun E => bop Cmult M E).
Proof.
  intros r c. unfold bop. destruct (bdim (frows M) r) as [ro|] eqn:Br; [|left; exists ValueError; intros E [S1 S2]; now rewrite S1, Br].
  destruct (bdim (fcols M) c) as [co|] eqn:Bc; [|left; exists ValueError; intros E [S1 S2]; now rewrite S1, S2, Br, Bc].
  right. exists ro, co. eexists. intros E [S1 S2]. rewrite S1, S2, Br, Bc. eexists. split; [reflexivity|]. split; [split; reflexivity|]. intros k l Hk Hl. cbn [fpx].
  destruct (bdim_ix _ _ _ _ Br Hk). destruct (bdim_ix _ _ _ _ Bc Hl).
  now rewrite (gather_kernel r c (fun k l => fpx M (bix (frows M) k) (bix (fcols M) l)) (fun k _ => bix r k) (fun _ l => bix c l)).
Qed.
Lemma lin_mask_r M : lin (fun E => bop Cmult E M).
Proof.
  intros r c. unfold bop. destruct (bdim r (frows M)) as [ro|] eqn:Br; [|left; exists ValueError; intros E [S1 S2]; now rewrite S1, Br].
  destruct (bdim c (fcols M)) as [co|] eqn:Bc; [|left; exists ValueError; intros E [S1 S2]; now rewrite S1, S2, Br, Bc].
  right. exists ro, co. eexists. intros E [S1 S2]. rewrite S1, S2, Br, Bc. eexists. split; [reflexivity|]. split; [split; reflexivity|]. intros k l Hk Hl. cbn [fpx].
  destruct (bdim_ix _ _ _ _ Br Hk). destruct (bdim_ix _ _ _ _ Bc Hl).
  rewrite (gather_kernel r c (fun k l => fpx M (bix (frows M) k) (bix (fcols M) l)) (fun k _ => bix r k) (fun _ l => bix c l)) by auto. ring.
Qed.
Lemma lin_imul M : lin (fun E => imul E M).
Proof.
  intros r c. unfold imul. destruct (lin_mask_r M r c) as [[e He]|(r' & c' & K & HK)]; [left; exists e; intros E S; now rewrite He|].
  destruct (Nat.eqb r' r && Nat.eqb c' c) eqn:B.
  - right. exists r', c', K. intros E S. destruct (HK E S) as (O & -> & [O1 O2] & V). cbn [rbind]. destruct S as [-> ->]. rewrite O1, O2, B. exists O. split; [auto|]. split; [split; auto|auto].
  - left. exists ValueError. intros E S. destruct (HK E S) as (O & -> & [O1 O2] & V). cbn [rbind]. destruct S as [-> ->]. now rewrite O1, O2, B.
Qed.
Lemma lin_scal t : lin (fun E => Ok (scal t E)).
Proof.
  apply lin_pure. intros r c. exists r, c. eexists. intros E [S1 S2]. split; [split; cbn; auto|]. intros k l Hk Hl. cbn.
  now rewrite (gather_kernel r c (fun _ _ => t) (fun k _ => k) (fun _ l => l)) by lia.
Qed.
Lemma lin_normalise nf : lin (fun E => Ok (normalise nf E)).
Proof.
  unfold normalise. destruct (Req_EM_T nf 0); [apply lin_id|]. apply (lin_ext (fun E => Ok (scal (Cinv (RtoC (sqrt nf))) E))); [|apply lin_scal].
  intros E. unfold scal, fmap. f_equal. f_equal. apply FunctionalExtensionality.functional_extensionality. intros i. apply FunctionalExtensionality.functional_extensionality. intros j. unfold Cdiv. ring.
Qed.
(* pad_crop in closed form: pixel (i, j) comes from the pixel at the same offset from the centre *)
Definition crop_src (n r i : nat) : option nat :=
  let z := (Z.of_nat r / 2 + (Z.of_nat i - Z.of_nat n / 2))%Z in if (0 <=? z)%Z && (z <? Z.of_nat r)%Z then Some (Z.to_nat z) else None.
Lemma crop_src_lt n r i p : crop_src n r i = Some p -> (p < r)%nat.
Proof. unfold crop_src. destruct (_ && _)%bool eqn:B; [|discriminate]. intros Q. injection Q as <-. lia. Qed.
Lemma pad_cropf_px E n m : (1 <= n)%nat -> (1 <= m)%nat -> exists O, pad_cropf E n m = Ok O /\ shape O n m /\
  forall i j, (i < n)%nat -> (j < m)%nat -> fpx O i j = match crop_src n (frows E) i, crop_src m (fcols E) j with Some p, Some q => fpx E p q | _, _ => RtoC 0 end.
Proof.
  intros Hn Hm. unfold pad_cropf, pad_crop_py. cbn [length Nat.eqb negb nth is_int elem_z orb].
  destruct (Z.leb_spec (Z.of_nat n) 0); [lia|]. destruct (Z.leb_spec (Z.of_nat m) 0); [lia|]. cbn [orb].
  destruct (pad_crop_recentred (to_arr E) (Z.of_nat n) (Z.of_nat m) (RtoC 0)) as (o & -> & R1 & R2 & R3); [cbn; lia|cbn; lia|lia|lia|]. cbn [rbind].
  eexists. split; [reflexivity|]. split; [split; cbn; lia|]. intros i j Hi Hj. cbn [of_arr fpx]. rewrite R3 by lia. unfold at_offset, crop_src. cbn [to_arr nr nc px].
  destruct (_ <=? _)%Z; cbn [andb]; [|reflexivity]. destruct (_ <? _)%Z; cbn [andb default]; [|reflexivity]. destruct (_ <=? _)%Z; cbn [andb default]; [|reflexivity]. destruct (_ <? _)%Z; reflexivity.
Qed.
Lemma pad_cropf_bad E n m : (n = 0 \/ m = 0)%nat -> pad_cropf E n m = Raise TypeError.
Proof.
  intros H. unfold pad_cropf, pad_crop_py. cbn [length Nat.eqb negb nth is_int elem_z orb].
  assert (B : ((Z.of_nat n <=? 0) || (Z.of_nat m <=? 0))%Z = true) by lia. now rewrite B.
Qed.
Lemma lin_pad_crop n m : lin (fun E => pad_cropf E n m).
Proof.
  intros r c. destruct (Nat.eq_dec n 0) as [Hn|Hn]; [left; exists TypeError; intros; now apply pad_cropf_bad; auto|].
  destruct (Nat.eq_dec m 0) as [Hm|Hm]; [left; exists TypeError; intros; now apply pad_cropf_bad; auto|].
  right. exists n, m, (fun k l i j => match crop_src n r k, crop_src m c l with Some p, Some q => if Nat.eqb i p && Nat.eqb j q then RtoC 1 else RtoC 0 | _, _ => RtoC 0 end).
  intros E [S1 S2]. destruct (pad_cropf_px E n m) as (O & EO & SO & V); [lia|lia|]. exists O. split; [auto|]. split; [auto|]. intros k l Hk Hl. rewrite V, S1, S2 by auto. unfold apply_kernel.
  destruct (crop_src n r k) as [p|] eqn:Ep; [destruct (crop_src m c l) as [q|] eqn:Eq|].
  - rewrite (csum_single r p); [|eapply crop_src_lt; eauto|].
    + rewrite (csum_single c q); [|eapply crop_src_lt; eauto|]; [rewrite !Nat.eqb_refl; cbn; ring|]. intros j _ Hj. rewrite (proj2 (Nat.eqb_neq j _) Hj), andb_false_r. ring.
    + intros i _ Hi. apply csum_zero. intros j _. rewrite (proj2 (Nat.eqb_neq i _) Hi). cbn. ring.
  - symmetry. apply csum_zero. intros. apply csum_zero. intros. ring.
  - symmetry. apply csum_zero. intros. apply csum_zero. intros. ring.
Qed.
