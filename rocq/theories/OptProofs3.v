From Verif Require Import Base RBase StrBase UtilModel CBase PropModel PropSpec PropProofs PropProofs2 OptModel OptSpec LinBase OptProofs OptProofs2.
Open Scope R_scope.

Lemma ptp_shape E fw w z O : ptp E fw w z = Ok O -> shape O (frows E) (fcols E).
Proof.
  unfold ptp. destruct (Rle_dec fw 0); [discriminate|]. destruct (Rle_dec w 0); [discriminate|]. destruct (Req_EM_T z 0); [intros Q; injection Q as <-; split; reflexivity|].
  destruct (Nat.eqb (fcols E) 0); [discriminate|]. destruct (negb _); [discriminate|]. intros Q; injection Q as <-. split; reflexivity.
Qed.
Lemma relay_shape {A} (E : field A) n c O : relay E n c = Ok O -> frows O = frows E /\ fcols O = fcols E.
Proof. unfold relay. destruct c; [| |discriminate]; destruct (n mod 2 =? 1)%Z; intros Q; injection Q as <-; split; reflexivity. Qed.
Lemma pad_shape E n m O : pad_cropf E n m = Ok O -> shape O n m /\ (1 <= n)%nat /\ (1 <= m)%nat.
Proof.
  intros H. destruct (Nat.eq_dec n 0) as [->|Hn]; [rewrite pad_cropf_bad in H by auto; discriminate|]. destruct (Nat.eq_dec m 0) as [->|Hm]; [rewrite pad_cropf_bad in H by auto; discriminate|].
  destruct (pad_cropf_px E n m) as (O' & E' & S' & _); [lia|lia|]. rewrite H in E'. injection E' as <-. repeat split; [apply S'|apply S'|lia|lia].
Qed.
(* x succeeds with an n x m array with entries f *)
Definition yields (x : res (field C)) (n m : nat) (f : nat -> nat -> C) : Prop :=
  exists O, x = Ok O /\ shape O n m /\ forall i j, (i < n)%nat -> (j < m)%nat -> fpx O i j = f i j.
Lemma bop_sq f A B n m : shape A n m -> shape B n m -> yields (bop f A B) n m (fun i j => f (fpx A i j) (fpx B i j)).
Proof.
  intros [A1 A2] [B1 B2]. unfold bop, bdim. rewrite A1, A2, B1, B2, !Nat.eqb_refl. eexists. split; [reflexivity|]. split; [split; reflexivity|]. cbn [fpx]. intros i j Hi Hj.
  assert (X : forall n i, (i < n)%nat -> bix n i = i) by (intros a b Hb; unfold bix; destruct (Nat.eqb_spec a 1); lia). now rewrite !X by auto.
Qed.
Lemma imul_sq A B n m : shape A n m -> shape B n m -> yields (imul A B) n m (fun i j => Cmult (fpx A i j) (fpx B i j)).
Proof. intros HA HB. destruct (bop_sq Cmult A B n m HA HB) as (O & E & [S1 S2] & V). unfold imul. rewrite E. cbn [rbind]. rewrite S1, S2. destruct HA as [-> ->]. rewrite !Nat.eqb_refl. exists O. split; [reflexivity|]. split; [split; auto|auto]. Qed.
Lemma yields_feq x y n m f g : yields x n m f -> yields y n m g -> (forall i j, (i < n)%nat -> (j < m)%nat -> f i j = g i j) -> exists a b, x = Ok a /\ y = Ok b /\ shape a n m /\ feq a b.
Proof.
  intros (A & EA & [A1 A2] & VA) (B & EB & [B1 B2] & VB) H. exists A, B. split; [auto|]. split; [auto|]. split; [split; auto|]. split; [congruence|]. split; [congruence|].
  intros i j Hi Hj. rewrite VA, VB by congruence. apply H; congruence.
Qed.
Lemma ones_shape n : shape (ones n) n n. Proof. split; reflexivity. Qed.
Lemma phasor_shape w use n s : (use = true -> frows s = n /\ fcols s = n) -> shape (phasor w (surf_or_zero use n s)) n n.
Proof. intros H. destruct use; cbn; [destruct (H eq_refl); split; auto|split; reflexivity]. Qed.
Lemma stop_shape n s O : stop_or_ones n s = Ok O -> shape O n n.
Proof. destruct s; cbn; [intros H; apply (pad_shape _ _ _ _ H)|intros H; injection H as <-; split; reflexivity]. Qed.
Ltac sy H := destruct H as (? & ? & ? & ?).

Lemma dm1_equal n Edm1 st1 P : shape Edm1 n n -> shape st1 n n -> shape P n n ->
  exists x y, (do a1 <- bop Cmult Edm1 (ones n); do a2 <- bop Cmult a1 st1; bop Cmult a2 P) = Ok x /\ (do pre' <- imul Edm1 st1; do a1 <- bop Cmult pre' (ones n); bop Cmult a1 P) = Ok y /\ shape x n n /\ feq x y
   /\ forall i j, (i < n)%nat -> (j < n)%nat -> fpx x i j = Cmult (Cmult (fpx Edm1 i j) (fpx st1 i j)) (fpx P i j).
Proof.
  intros HE HS HP. destruct (bop_sq Cmult Edm1 (ones n) n n HE (ones_shape n)) as (a1 & -> & S1 & V1). cbn [rbind]. destruct (bop_sq Cmult a1 st1 n n S1 HS) as (a2 & -> & S2 & V2). cbn [rbind].
  destruct (imul_sq Edm1 st1 n n HE HS) as (c1 & -> & T1 & W1). cbn [rbind]. destruct (bop_sq Cmult c1 (ones n) n n T1 (ones_shape n)) as (c2 & -> & T2 & W2). cbn [rbind].
  destruct (bop_sq Cmult a2 P n n S2 HP) as (x & Ex & Sx & Vx). destruct (bop_sq Cmult c2 P n n T2 HP) as (y & Ey & Sy & Vy). exists x, y. split; [auto|]. split; [auto|]. split; [auto|].
  assert (V : forall i j, (i < n)%nat -> (j < n)%nat -> fpx x i j = Cmult (Cmult (fpx Edm1 i j) (fpx st1 i j)) (fpx P i j)) by (intros i j Hi Hj; rewrite Vx, V2, V1 by auto; cbn; ring).
  split; [|exact V]. destruct Sx as [X1 X2], Sy as [Y1 Y2]. split; [congruence|]. split; [congruence|]. intros i j Hi Hj. rewrite V, Vy, W2, W1 by congruence. cbn. ring.
Qed.
Lemma dm2_equal n A B st2 P : shape A n n -> feq A B -> shape st2 n n -> shape P n n ->
  exists x y, (do b1 <- bop Cmult (ones n) st2; do b2 <- bop Cmult b1 P; imul A b2) = Ok x /\ (do e2 <- bop Cmult st2 B; do b1 <- bop Cmult (ones n) e2; bop Cmult b1 P) = Ok y /\ shape x n n /\ feq x y
   /\ forall i j, (i < n)%nat -> (j < n)%nat -> fpx x i j = Cmult (Cmult (fpx A i j) (fpx st2 i j)) (fpx P i j).
Proof.
  intros HA HAB HS HP. pose proof (shape_feq _ _ _ _ HA HAB) as HB. destruct HAB as (_ & _ & HV). destruct HA as [HA1 HA2] eqn:QA. clear QA.
  destruct (bop_sq Cmult (ones n) st2 n n (ones_shape n) HS) as (b1 & -> & S1 & V1). cbn [rbind]. destruct (bop_sq Cmult b1 P n n S1 HP) as (b2 & -> & S2 & V2). cbn [rbind].
  destruct (bop_sq Cmult st2 B n n HS HB) as (c1 & -> & T1 & W1). cbn [rbind]. destruct (bop_sq Cmult (ones n) c1 n n (ones_shape n) T1) as (c2 & -> & T2 & W2). cbn [rbind].
  destruct (imul_sq A b2 n n (conj HA1 HA2) S2) as (x & Ex & Sx & Vx). destruct (bop_sq Cmult c2 P n n T2 HP) as (y & Ey & Sy & Vy). exists x, y. split; [auto|]. split; [auto|]. split; [auto|].
  assert (V : forall i j, (i < n)%nat -> (j < n)%nat -> fpx x i j = Cmult (Cmult (fpx A i j) (fpx st2 i j)) (fpx P i j)) by (intros i j Hi Hj; rewrite Vx, V2, V1 by auto; cbn; ring).
  split; [|exact V]. destruct Sx as [X1 X2], Sy as [Y1 Y2]. split; [congruence|]. split; [congruence|]. intros i j Hi Hj. rewrite V, Vy, W2, W1 by congruence. rewrite HV by congruence. cbn. ring.
Qed.
Lemma bind_assoc {A B D} (x : res A) (f : A -> res B) (g : B -> res D) : rbind (rbind x f) g = rbind x (fun a => rbind (f a) g).
Proof. destruct x; reflexivity. Qed.
Lemma bind3 {A B D F} (p : res A) (q : A -> res B) (r : B -> res D) (K : D -> res F) x : (do a <- p; do b <- q a; r b) = Ok x -> (do a <- p; do b <- q a; do c <- r b; K c) = K x.
Proof. destruct p as [a|]; cbn; [|discriminate]. destruct (q a) as [b|]; cbn; [|discriminate]. intros H. now rewrite H. Qed.
Lemma tails_equal o w E : full_tail o w E = compact_tail o w E.
Proof. unfold full_tail, compact_tail. replace (-1 * (o_d12 o + o_d1 o)) with (- (o_d1 o + o_d12 o)) by ring. reflexivity. Qed.
Lemma P3_equal o w E : surfs_fit o -> o_wfe o = false -> req_field (full_to_P3 o w E) (compact_EP3 o w E).
Proof.
  intros [F1 F2] Hw. rewrite compact_EP3_eq. unfold full_to_P3, compact_flat. rewrite Hw. cbn [andb].
  destruct (pad_cropf (o_pupil o) (o_pad o) (o_pad o)) as [pup|] eqn:Epup; cbn [rbind]; [|reflexivity].
  destruct (pad_cropf E (o_pad o) (o_pad o)) as [E'|] eqn:EE; cbn [rbind]; [|reflexivity].
  destruct (stop_or_ones (o_pad o) (o_stop1 o)) as [st1|] eqn:Es1; cbn [rbind]; [|reflexivity].
  destruct (stop_or_ones (o_pad o) (o_stop2 o)) as [st2|] eqn:Es2; cbn [rbind]; [|reflexivity].
  apply pad_shape in Epup, EE. apply stop_shape in Es1, Es2.
  destruct (bop_sq Cmult pup E' _ _ (proj1 Epup) (proj1 EE)) as (EP1 & -> & [S1 S1'] & _). cbn [rbind].
  destruct (relay EP1 _ _) as [EP2|] eqn:E2; cbn [rbind]; [|reflexivity]. apply relay_shape in E2.
  destruct (if Req_EM_T (o_d1 o) 0 then Ok EP2 else _) as [Edm1|] eqn:E3; cbn [rbind]; [|reflexivity].
  assert (S3 : shape Edm1 (o_pad o) (o_pad o)).
  { destruct (Req_EM_T (o_d1 o) 0); [injection E3 as <-; split; destruct E2; congruence|]. apply ptp_shape in E3. destruct E3, E2. split; congruence. }
  pose proof (phasor_shape w _ _ _ F1) as P1. pose proof (phasor_shape w _ _ _ F2) as P2.
  destruct (dm1_equal _ Edm1 st1 _ S3 Es1 P1) as (x & y & Ex & Ey & Sx & Fxy & _).
  set (K1 := fun e => do Edm2 <- ptp e (o_dx2 o * INR (o_pad o)) w (o_d12 o); do b1 <- bop Cmult (ones (o_pad o)) st2; do b2 <- bop Cmult b1 (phasor w (surf_or_zero (o_use2 o) (o_pad o) (o_surf2 o))); do Edm2' <- imul Edm2 b2; full_tail o w Edm2').
  change (req_field (do a1 <- bop Cmult Edm1 (ones (o_pad o)); do a2 <- bop Cmult a1 st1; do e <- bop Cmult a2 (phasor w (surf_or_zero (o_use1 o) (o_pad o) (o_surf1 o))); K1 e)
    (do pre' <- imul Edm1 st1; do a1 <- bop Cmult pre' (ones (o_pad o)); do p <- bop Cmult a1 (phasor w (surf_or_zero (o_use1 o) (o_pad o) (o_surf1 o))); compact_DM2 o w st2 p)).
  assert (A1 : forall K : field C -> res (field C), (do a1 <- bop Cmult Edm1 (ones (o_pad o)); do a2 <- bop Cmult a1 st1; do e <- bop Cmult a2 (phasor w (surf_or_zero (o_use1 o) (o_pad o) (o_surf1 o))); K e) = K x).
  { intros K. apply (bind3 _ _ _ K). exact Ex. }
  assert (A2 : forall K : field C -> res (field C), (do pre' <- imul Edm1 st1; do a1 <- bop Cmult pre' (ones (o_pad o)); do e <- bop Cmult a1 (phasor w (surf_or_zero (o_use1 o) (o_pad o) (o_surf1 o))); K e) = K y).
  { intros K. apply (bind3 _ _ _ K). exact Ey. }
  rewrite A1, A2. unfold K1, compact_DM2.
  pose proof (lin_feq _ _ _ (lin_ptp (o_dx2 o * INR (o_pad o)) w (o_d12 o)) Fxy) as Hp.  cbv beta in Hp.
  destruct (ptp x _ w (o_d12 o)) as [A|] eqn:EA, (ptp y _ w (o_d12 o)) as [B|] eqn:EB; cbn [rbind]; cbn [req_field] in Hp; try (now destruct Hp).
  assert (SA : shape A (o_pad o) (o_pad o)) by (apply ptp_shape in EA; destruct EA, Sx; split; congruence).
  destruct (dm2_equal _ A B st2 _ SA Hp Es2 P2) as (x2 & y2 & Ex2 & Ey2 & _ & Fxy2 & _).
  assert (B1 : forall K : field C -> res (field C), (do b1 <- bop Cmult (ones (o_pad o)) st2; do b2 <- bop Cmult b1 (phasor w (surf_or_zero (o_use2 o) (o_pad o) (o_surf2 o))); do e <- imul A b2; K e) = K x2).
  { intros K. apply (bind3 _ _ _ K). exact Ex2. }
  assert (B2 : forall K : field C -> res (field C), (do e2 <- bop Cmult st2 B; do b1 <- bop Cmult (ones (o_pad o)) e2; do e <- bop Cmult b1 (phasor w (surf_or_zero (o_use2 o) (o_pad o) (o_surf2 o))); K e) = K y2).
  { intros K. apply (bind3 _ _ _ K). exact Ey2. }
  rewrite B1, B2, tails_equal. apply lin_feq; [apply lin_compact_tail|exact Fxy2].
Qed.
