(* Proofs for C83: means over the disc, the numbering, the stored text *)
From Coq Require Import Factorial.
From Coquelicot Require Import Coquelicot.
From Verif Require Import Base RBase StrBase CBase ZrnModel ZrnSpec ZrnProofs ZrnProofs2 ZrnProofs3.
Open Scope R_scope.
Lemma mean_ext a f g v : (forall r t, f r t = g r t) -> annulus_mean a f v -> annulus_mean a g v.
Proof. intros H (q & H1 & H2). exists q. split; auto. intros t. eapply is_RInt_ext'; [|apply H1]. intros r. cbv beta. now rewrite H. Qed.
Lemma mean_plus a f g v w : annulus_mean a f v -> annulus_mean a g w -> annulus_mean a (fun r t => f r t + g r t) (v + w).
Proof.
  intros (p & P1 & P2) (q & Q1 & Q2). exists (fun t => p t + q t). split.
  - intros t. eapply is_RInt_ext'; [|apply (int_plus _ _ _ _ _ _ (P1 t) (Q1 t))]. intros r. cbv beta. ring.
  - eapply is_RInt_val; [|apply (int_plus _ _ _ _ _ _ P2 Q2)]. ring.
Qed.
Lemma mean_scal a c f v : annulus_mean a f v -> annulus_mean a (fun r t => c * f r t) (c * v).
Proof.
  intros (p & P1 & P2). exists (fun t => c * p t). split.
  - intros t. eapply is_RInt_ext'; [|apply (int_scal c _ _ _ _ (P1 t))]. intros r. cbv beta. ring.
  - eapply is_RInt_val; [|apply (int_scal c _ _ _ _ P2)]. ring.
Qed.
Lemma mean_0 a : annulus_mean a (fun _ _ => 0) 0.
Proof.
  exists (fun _ => 0). split; [intros t; eapply is_RInt_ext'; [|eapply is_RInt_val; [|apply (is_RInt_const a 1 0)]]|eapply is_RInt_val; [|apply (is_RInt_const 0 (2 * PI) 0)]].
  - intros r. cbv beta. ring.
  - unfold scal; cbn; unfold mult; cbn. ring.
  - unfold scal; cbn; unfold mult; cbn. ring.
Qed.
(* sums over orthonormal families *)
Lemma mean_combo a (Z : nat -> R -> R -> R) (f : R -> R -> R) (w : nat -> R) : forall ks vs, (forall k, In k ks -> annulus_mean a (fun r t => f r t * Z k r t) (w k)) ->
  annulus_mean a (fun r t => f r t * combo (fun k => Z k r t) ks vs) (combo w ks vs).
Proof.
  induction ks as [|k ks IH]; intros vs H; [|destruct vs as [|v vs]]; cbn [combo].
  - eapply mean_ext; [|apply mean_0]. intros; cbv beta; ring.
  - eapply mean_ext; [|apply mean_0]. intros; cbv beta; ring.
  - eapply mean_ext; [|apply (mean_plus _ _ _ _ _ (mean_scal a v _ _ (H k (or_introl eq_refl))) (IH vs (fun q Q => H q (or_intror Q))))]. intros; cbv beta; ring.
Qed.
Lemma combo_0 f ks : (forall k, In k ks -> f k = 0) -> forall vs, combo f ks vs = 0.
Proof. induction ks as [|k ks IH]; intros H [|v vs]; cbn [combo]; auto. rewrite H by (left; auto). rewrite IH by (intros; apply H; right; auto). ring. Qed.
Lemma mean_combo_sq a (Z : nat -> R -> R -> R) : forall ks vs, NoDup ks -> length vs = length ks ->
  (forall j k, In j ks -> In k ks -> annulus_mean a (fun r t => Z j r t * Z k r t) (if Nat.eqb j k then 1 else 0)) ->
  annulus_mean a (fun r t => combo (fun k => Z k r t) ks vs ^ 2) (sumsq vs).
Proof.
  induction ks as [|k ks IH]; intros [|v vs] N L H; try discriminate L; cbn [combo sumsq].
  - eapply mean_ext; [|apply mean_0]. intros; cbv beta; ring.
  - apply NoDup_cons_iff in N. destruct N as (N0 & N1).
    pose proof (mean_combo a Z (Z k) (fun j => if Nat.eqb k j then 1 else 0) ks vs (fun j J => H k j (or_introl eq_refl) (or_intror J))) as X.
    assert (E : combo (fun j => if Nat.eqb k j then 1 else 0) ks vs = 0).
    { apply combo_0. intros j J. destruct (Nat.eqb_spec k j) as [<-|]; auto. contradiction. }
    rewrite E in X. pose proof (H k k (or_introl eq_refl) (or_introl eq_refl)) as X0. rewrite Nat.eqb_refl in X0.
    assert (X1 : annulus_mean a (fun r t => combo (fun k => Z k r t) ks vs ^ 2) (sumsq vs)) by (apply IH; auto; intros; apply H; right; auto).
    pose proof (mean_plus _ _ _ _ _ (mean_plus _ _ _ _ _ (mean_scal _ (v ^ 2) _ _ X0) (mean_scal _ (2 * v) _ _ X)) X1) as Y.
    replace (v ^ 2 + sumsq vs) with (v ^ 2 * 1 + 2 * v * 0 + sumsq vs) by ring. eapply mean_ext; [|apply Y]. intros; cbv beta; ring.
Qed.
(* numbering *)
Lemma noll_ok maxz j : (1 <= j <= maxz)%nat -> exists n m h, noll j n m /\ (n = m + 2 * h)%nat /\ exists e, nth_error (prop_noll_zernikes maxz) (j - 1) = Some e /\ forall r t, zval e r t = zernike n m (Nat.even j) r t.
Proof.
  intros J. destruct (noll_entry maxz j J) as (n & k & L & E & N). exists n, (mth n k), ((n - mth n k) / 2)%nat. split; [|split].
  - exists k. split; auto. split; auto. unfold mth. destruct (Nat.even n); auto.
  - now apply mth_half.
  - eexists. split; [apply N|]. intros r t. now apply zentry_all.
Qed.
Lemma noll_unique j n m n' m' : noll j n m -> noll j n' m' -> n = n' /\ m = m'.
Proof.
  intros (k & K & E & M) (k' & K' & E' & M'). destruct (noll_inj n k n' k' K K') as (-> & ->); [lia|]. split; auto. destruct (Nat.even n'); congruence.
Qed.
Lemma noll_mth j n m : noll j n m -> exists k, (k <= n)%nat /\ (2 * j = n * (n + 1) + 2 * (k + 1))%nat /\ m = mth n k.
Proof. intros (k & K & E & M). exists k. repeat split; auto. unfold mth. destruct (Nat.even n); auto. Qed.
Lemma even_step n k k' j j' : (2 * j = n * (n + 1) + 2 * (k + 1))%nat -> (2 * j' = n * (n + 1) + 2 * (k' + 1))%nat -> Nat.even j = Nat.even j' -> Nat.even k = Nat.even k'.
Proof.
  intros E E' H. destruct (Nat.even j) eqn:J; symmetry in H.
  - apply Nat.even_spec in J. apply Nat.even_spec in H. destruct J as (a & A), H as (b & B). destruct (Nat.Even_Odd_dec k) as [(c & C)|(c & C)], (Nat.Even_Odd_dec k') as [(d & D)|(d & D)]; subst; rewrite ?Nat.even_mul, ?Nat.even_add, ?Nat.even_mul; cbn; auto; exfalso; lia.
  - assert (J' : Nat.odd j = true) by (rewrite <- Nat.negb_even, J; auto). assert (H' : Nat.odd j' = true) by (rewrite <- Nat.negb_even, H; auto). apply Nat.odd_spec in J'. apply Nat.odd_spec in H'. destruct J' as (a & A), H' as (b & B). destruct (Nat.Even_Odd_dec k) as [(c & C)|(c & C)], (Nat.Even_Odd_dec k') as [(d & D)|(d & D)]; subst; rewrite ?Nat.even_mul, ?Nat.even_add, ?Nat.even_mul; cbn; auto; exfalso; lia.
Qed.
Lemma noll_orth j n m h j' n' m' h' : noll j n m -> noll j' n' m' -> (n = m + 2 * h)%nat -> (n' = m' + 2 * h')%nat ->
  annulus_mean 0 (fun r t => zernike n m (Nat.even j) r t * zernike n' m' (Nat.even j') r t) (if Nat.eqb j j' then 1 else 0).
Proof.
  intros A A' E E'. subst n n'. pose proof (zernike_orth m h (Nat.even j) m' h' (Nat.even j')) as X.
  assert (B : (Nat.eqb m m' && Nat.eqb h h' && (Nat.eqb m 0 || Bool.eqb (Nat.even j) (Nat.even j')))%bool = Nat.eqb j j'); [|now rewrite B in X].
  destruct (Nat.eqb_spec j j') as [<-|N].
  - destruct (noll_unique _ _ _ _ _ A A') as (P & Q). assert (h = h') by lia. subst. rewrite !Nat.eqb_refl. rewrite Bool.eqb_reflx. now rewrite Bool.orb_true_r.
  - destruct (Nat.eqb_spec m m') as [<-|]; auto. destruct (Nat.eqb_spec h h') as [<-|]; auto. cbn [andb].
    apply noll_mth in A. apply noll_mth in A'. destruct A as (k & K & Ek & Mk), A' as (k' & K' & Ek' & Mk').
    destruct (Nat.eqb_spec m 0) as [Z|Z]; cbn [orb].
    + exfalso. apply N. assert (k = k'); [|lia]. apply (mth_same (m + 2 * h)); auto; [congruence|]. right. congruence.
    + destruct (Bool.eqb (Nat.even j) (Nat.even j')) eqn:B; auto. apply Bool.eqb_prop in B. exfalso. apply N. assert (k = k'); [|lia]. apply (mth_same (m + 2 * h)); auto; [congruence|]. left. eapply even_step; eauto.
Qed.
(* the entry of a number does not depend on the highest number *)
Lemma noll_stable j a b : (1 <= j <= a)%nat -> (1 <= j <= b)%nat -> nth_error (prop_noll_zernikes a) (j - 1) = nth_error (prop_noll_zernikes b) (j - 1).
Proof.
  intros A B. destruct (noll_entry a j A) as (n & k & L & E & N). destruct (noll_entry b j B) as (n' & k' & L' & E' & N'). destruct (noll_inj n k n' k' L L') as (-> & ->); [lia|]. congruence.
Qed.
Definition kept (e : zexpr) : bool := String.eqb (zstored true e) (ztext true e).
Lemma text_276 : forallb kept (prop_noll_zernikes 276) = true.
Proof. vm_compute. reflexivity. Qed.
Lemma text_277 : forallb (fun e => negb (kept e)) (skipn 276 (prop_noll_zernikes 277)) = true.
Proof. vm_compute. reflexivity. Qed.
