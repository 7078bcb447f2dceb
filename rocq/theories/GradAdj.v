(* Adjoint pairs of linear programs on fields. *)
From Verif Require Import Base RBase StrBase UtilModel CBase PropModel PropSpec PropProofs PropProofs2 OptModel OptSpec LinBase OptProofs OptProofs2 OptProofs3 OptProofs4 OptProofs7.
Open Scope R_scope.

Definition adj (s : R) (op rop : field C -> res (field C)) (n m n' m' : nat) : Prop := forall E G, shape E n m -> shape G n' m' ->
  exists OE RG, op E = Ok OE /\ shape OE n' m' /\ rop G = Ok RG /\ shape RG n m /\
    inner n' m' (fpx G) (fpx OE) = Cmult (RtoC s) (inner n m (fpx RG) (fpx E)).

Lemma adj_bind s1 s2 f rf g rg n m n1 m1 n2 m2 : adj s1 f rf n m n1 m1 -> adj s2 g rg n1 m1 n2 m2 ->
  adj (s1 * s2) (fun E => do A <- f E; g A) (fun G => do A <- rg G; rf A) n m n2 m2.
Proof.
  intros H1 H2 E G SE SG. destruct (H1 E (mkf n1 m1 (fun _ _ => RtoC 0)) SE (conj eq_refl eq_refl)) as (A & _ & EA & SA & _).
  destruct (H2 A G SA SG) as (O & B & EO & SO & EB & SB & Q2). destruct (H1 E B SE SB) as (A' & RG & EA' & SA' & ER & SR & Q1).
  rewrite EA in EA'. injection EA' as <-. exists O, RG. rewrite EA, EB. cbn [rbind]. split; [auto|]. split; [auto|]. split; [auto|]. split; [auto|].
  rewrite Q2, Q1. rewrite RtoC_mult. ring.
Qed.
Lemma adj_id n m : adj 1 (fun E => Ok E) (fun E => Ok E) n m n m.
Proof. intros E G SE SG. exists E, G. split; [auto|]. split; [auto|]. split; [auto|]. split; [auto|]. ring. Qed.
Lemma adj_kernel s op rop n m n' m' K K' : has_kernel op n m n' m' K -> has_kernel rop n' m' n m K' ->
  (forall k l i j, (k < n')%nat -> (l < m')%nat -> (i < n)%nat -> (j < m)%nat -> K' i j k l = Cmult (RtoC s) (Cconj (K k l i j))) -> s * s = 1 -> adj s op rop n m n' m'.
Proof.
  intros H H' HK Hs E G SE SG. destruct (H E SE) as (OE & EO & SO & VO). destruct (H' G SG) as (RG & ER & SR & VR). exists OE, RG. split; [auto|]. split; [auto|]. split; [auto|]. split; [auto|].
  rewrite (inner_ext n' m' _ (fpx G) _ (apply_kernel n m K (fpx E))) by auto. rewrite kernel_adjoint.
  rewrite (inner_ext n m (fpx RG) (fun i j => Cmult (RtoC s) (apply_kernel n' m' (fun i j k l => Cconj (K k l i j)) (fpx G) i j)) (fpx E) (fpx E)); auto.
  - rewrite inner_scal_l. replace (Cconj (RtoC s)) with (RtoC s) by (unfold Cconj, RtoC; cbn; f_equal; ring).
    rewrite Cmult_assoc, <- RtoC_mult, Hs. ring.
  - intros i j Hi Hj. rewrite VR by auto. unfold apply_kernel. rewrite <- csum_scal. apply csum_ext. intros k Hk. rewrite <- csum_scal. apply csum_ext. intros l Hl. rewrite HK by auto. ring.
Qed.
(* permutation of samples *)
Lemma adj_perm (op rop : field C -> res (field C)) n m n' m' (p : nat -> nat) (q : nat -> nat) (p' q' : nat -> nat) :
  (forall E, shape E n m -> exists O, op E = Ok O /\ shape O n' m' /\ forall k l, (k < n')%nat -> (l < m')%nat -> fpx O k l = fpx E (p k) (q l)) ->
  (forall G, shape G n' m' -> exists O, rop G = Ok O /\ shape O n m /\ forall i j, (i < n)%nat -> (j < m)%nat -> fpx O i j = fpx G (p' i) (q' j)) ->
  (forall k, (k < n')%nat -> (p k < n)%nat) -> (forall k, (k < m')%nat -> (q k < m)%nat) -> (forall k, (k < n)%nat -> (p' k < n')%nat) -> (forall k, (k < m)%nat -> (q' k < m')%nat) ->
  (forall i k, (i < n)%nat -> (k < n')%nat -> (i = p k <-> k = p' i)) -> (forall i k, (i < m)%nat -> (k < m')%nat -> (i = q k <-> k = q' i)) ->
  adj 1 op rop n m n' m'.
Proof.
  intros H H' P1 P2 P3 P4 I1 I2.
  apply (adj_kernel 1 op rop n m n' m' (fun k l i j => if Nat.eqb i (p k) && Nat.eqb j (q l) then RtoC 1 else RtoC 0) (fun i j k l => if Nat.eqb k (p' i) && Nat.eqb l (q' j) then RtoC 1 else RtoC 0)); [| | |ring].
  - intros E S. destruct (H E S) as (O & EO & SO & V). exists O. split; [auto|]. split; [auto|]. intros k l Hk Hl. rewrite V by auto.
    rewrite (gather_kernel n m (fun _ _ => RtoC 1) (fun k _ => p k) (fun _ l => q l)); auto. ring.
  - intros E S. destruct (H' E S) as (O & EO & SO & V). exists O. split; [auto|]. split; [auto|]. intros k l Hk Hl. rewrite V by auto.
    rewrite (gather_kernel n' m' (fun _ _ => RtoC 1) (fun k _ => p' k) (fun _ l => q' l)); auto. ring.
  - intros k l i j Hk Hl Hi Hj. pose proof (I1 i k Hi Hk) as J1. pose proof (I2 j l Hj Hl) as J2.
    assert (X1 : Nat.eqb k (p' i) = Nat.eqb i (p k)) by (destruct (Nat.eqb_spec k (p' i)), (Nat.eqb_spec i (p k)); tauto).
    assert (X2 : Nat.eqb l (q' j) = Nat.eqb j (q l)) by (destruct (Nat.eqb_spec l (q' j)), (Nat.eqb_spec j (q l)); tauto).
    rewrite X1, X2. destruct (_ && _); unfold Cconj, RtoC, Cmult; cbn; f_equal; ring.
Qed.
Lemma adj_relay k c n m : c <> OtherCentering -> adj 1 (fun E => relay E k c) (fun E => relay E k c) n m n m.
Proof.
  intros Hc. unfold relay. destruct c; [| |congruence]; (destruct (k mod 2 =? 1)%Z; [|apply adj_id]).
  - assert (V : forall E : field C, shape E n m -> exists O, Ok (roll2 1 1 (flip2 E)) = Ok O /\ shape O n m /\ forall i j, (i < n)%nat -> (j < m)%nat -> fpx O i j = fpx E ((n - i) mod n)%nat ((m - j) mod m)%nat).
    { intros E [S1 S2]. eexists. split; [reflexivity|]. split; [split; cbn; auto|]. intros i j Hi Hj. rewrite relay_pixel_px by congruence. now rewrite S1, S2. }
    assert (M : forall n k, (k < n)%nat -> ((n - k) mod n < n)%nat) by (intros; apply Nat.mod_upper_bound; lia).
    assert (I : forall n i k, (i < n)%nat -> (k < n)%nat -> i = ((n - k) mod n)%nat -> k = ((n - i) mod n)%nat).
    { intros a i b Hi Hb ->. destruct b as [|b]; [rewrite Nat.sub_0_r, Nat.mod_same, Nat.sub_0_r, Nat.mod_same by lia; auto|]. rewrite (Nat.mod_small (a - S b)) by lia. rewrite Nat.mod_small; lia. }
    apply (adj_perm _ _ n m n m (fun i => (n - i) mod n)%nat (fun j => (m - j) mod m)%nat (fun i => (n - i) mod n)%nat (fun j => (m - j) mod m)%nat); auto; intros; split; apply I; auto.
  - assert (V : forall E : field C, shape E n m -> exists O, Ok (flip2 E) = Ok O /\ shape O n m /\ forall i j, (i < n)%nat -> (j < m)%nat -> fpx O i j = fpx E (n - 1 - i)%nat (m - 1 - j)%nat).
    { intros E [S1 S2]. eexists. split; [reflexivity|]. split; [split; cbn; auto|]. intros i j Hi Hj. cbn. now rewrite S1, S2. }
    apply (adj_perm _ _ n m n m (fun i => (n - 1 - i))%nat (fun j => (m - 1 - j))%nat (fun i => (n - 1 - i))%nat (fun j => (m - 1 - j))%nat); auto; intros; lia.
Qed.
Lemma adj_roll s t n m : adj 1 (fun E => Ok (roll2 s t E)) (fun E => Ok (roll2 (- s) (- t) E)) n m n m.
Proof.
  assert (I : forall n s i k, (i < n)%nat -> (k < n)%nat -> i = roll_ix n s k -> k = roll_ix n (- s) i).
  { intros a s0 i k Hi Hk ->. rewrite roll_roll by lia. rewrite Z.add_opp_diag_l. now rewrite roll_0. }
  apply (adj_perm _ _ n m n m (roll_ix n s) (roll_ix m t) (roll_ix n (- s)) (roll_ix m (- t))).
  - intros E [S1 S2]. eexists. split; [reflexivity|]. split; [split; auto|]. intros. cbn. now rewrite S1, S2.
  - intros E [S1 S2]. eexists. split; [reflexivity|]. split; [split; auto|]. intros. cbn. now rewrite S1, S2.
  - intros. apply roll_lt. lia.
  - intros. apply roll_lt. lia.
  - intros. apply roll_lt. lia.
  - intros. apply roll_lt. lia.
  - intros i k Hi Hk. split; [apply I; auto|]. intros H. pose proof (I n (- s)%Z k i Hk Hi H) as X. now rewrite Z.opp_involutive in X.
  - intros i k Hi Hk. split; [apply I; auto|]. intros H. pose proof (I m (- t)%Z k i Hk Hi H) as X. now rewrite Z.opp_involutive in X.
Qed.
(* multiplication by an array of the same shape *)
Lemma adj_mask_l M n m : shape M n m -> adj 1 (fun E => bop Cmult M E) (fun G => bop Cmult (fmap Cconj M) G) n m n m.
Proof.
  intros SM E G SE SG. destruct (bop_sq Cmult M E n m SM SE) as (O & EO & SO & VO). destruct (bop_sq Cmult (fmap Cconj M) G n m SM SG) as (R & ER & SR & VR).
  exists O, R. split; [auto|]. split; [auto|]. split; [auto|]. split; [auto|].
  rewrite (inner_ext n m _ (fpx G) _ (fun i j => Cmult (fpx E i j) (fpx M i j))); [|auto|intros; rewrite VO by auto; ring].
  rewrite inner_mul. rewrite (inner_ext n m (fpx R) (fun i j => Cmult (fpx G i j) (Cconj (fpx M i j))) (fpx E) (fpx E)); [ring| |auto]. intros. rewrite VR by auto. cbn. ring.
Qed.
Lemma adj_ext s f rf g rg n m n' m' : adj s f rf n m n' m' -> (forall E, shape E n m -> req_field (f E) (g E)) -> (forall E, shape E n' m' -> req_field (rf E) (rg E)) -> adj s g rg n m n' m'.
Proof.
  intros H HF HR E G SE SG. destruct (H E G SE SG) as (O & R & EO & SO & ER & SR & Q). pose proof (HF E SE) as X. pose proof (HR G SG) as Y. rewrite EO in X. rewrite ER in Y.
  destruct (g E) as [O'|]; [|destruct X]. destruct (rg G) as [R'|]; [|destruct Y]. cbn in X, Y. exists O', R'. split; [auto|]. split; [eapply shape_feq; eauto|]. split; [auto|]. split; [eapply shape_feq; eauto|].
  destruct X as (X1 & X2 & X3). destruct Y as (Y1 & Y2 & Y3). destruct SO as [O1 O2]. destruct SR as [R1 R2].
  rewrite (inner_ext n' m' (fpx G) (fpx G) (fpx O') (fpx O)); [|auto|intros; symmetry; apply X3; congruence]. rewrite Q.
  f_equal. apply inner_ext; [|auto]. intros. apply Y3; congruence.
Qed.
Lemma adj_mask_r M n m : shape M n m -> adj 1 (fun E => bop Cmult E M) (fun G => bop Cmult G (fmap Cconj M)) n m n m.
Proof.
  intros SM. apply (adj_ext 1 (fun E => bop Cmult M E) (fun G => bop Cmult (fmap Cconj M) G)); [now apply adj_mask_l| |].
  - intros E SE. destruct (bop_sq Cmult M E n m SM SE) as (O & -> & [S1 S2] & VO). destruct (bop_sq Cmult E M n m SE SM) as (O' & -> & [T1 T2] & VO'). cbn. split; [congruence|]. split; [congruence|]. intros. rewrite VO, VO' by congruence. ring.
  - intros E SE. destruct (bop_sq Cmult (fmap Cconj M) E n m SM SE) as (O & -> & [S1 S2] & VO). destruct (bop_sq Cmult E (fmap Cconj M) n m SE SM) as (O' & -> & [T1 T2] & VO'). cbn. split; [congruence|]. split; [congruence|]. intros. rewrite VO, VO' by congruence. ring.
Qed.
(* pure functions *)
Lemma adj_fft s a n m : adj 1 (fun E => Ok (fft_scaled s (a n m) E)) (fun E => Ok (fft_scaled (- s) (a n m) E)) n m n m.
Proof.
  apply (adj_kernel 1 _ _ n m n m (fun u v i j => Cmult (RtoC (a n m)) (Cmult (ph s n u i) (ph s m v j))) (fun u v i j => Cmult (RtoC (a n m)) (Cmult (ph (- s) n u i) (ph (- s) m v j)))); [| | |ring].
  - intros E [S1 S2]. eexists. split; [reflexivity|]. split; [split; cbn; auto|]. intros k l Hk Hl. cbn. rewrite S1, S2. unfold dft2, apply_kernel. rewrite <- csum_scal. apply csum_ext. intros i _. rewrite <- csum_scal. apply csum_ext. intros j _. ring.
  - intros E [S1 S2]. eexists. split; [reflexivity|]. split; [split; cbn; auto|]. intros k l Hk Hl. cbn. rewrite S1, S2. unfold dft2, apply_kernel. rewrite <- csum_scal. apply csum_ext. intros i _. rewrite <- csum_scal. apply csum_ext. intros j _. ring.
  - intros k l i j _ _ _ _. rewrite !Cconj_mult, !ph_conj. replace (Cconj (RtoC (a n m))) with (RtoC (a n m)) by (unfold Cconj, RtoC; cbn; f_equal; ring). ring.
Qed.
Lemma adj_mul_by k n m : adj 1 (fun E => Ok (mul_by k E)) (fun E => Ok (mul_by (fun u v => Cconj (k u v)) E)) n m n m.
Proof.
  intros E G SE SG. eexists. eexists. split; [reflexivity|]. split; [exact SE|]. split; [reflexivity|]. split; [exact SG|]. cbn [mul_by fpx].
  rewrite (inner_ext n m _ (fpx G) _ (fun i j => Cmult (fpx E i j) (k i j))); [|auto|intros; ring]. rewrite inner_mul.
  rewrite (inner_ext n m (fun u v => Cmult (Cconj (k u v)) (fpx G u v)) (fun i j => Cmult (fpx G i j) (Cconj (k i j))) (fpx E) (fpx E)); [ring|intros; ring|auto].
Qed.
