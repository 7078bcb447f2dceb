(* C83, C84, C85: Zernike polynomials *)
From Coquelicot Require Import Coquelicot.
From Verif Require Import Base RBase StrBase CBase UtilModel PropModel OptModel EstModel PrpModel ZrnModel ZrnSpec ZrnProofs2 ZrnProofs3 ZrnProofs4 ZrnProofs5 ZrnProofs6 ZrnProofs7 ZrnProofs8.
From Verif Require PrpProps PrpProofs5.
Open Scope R_scope.
(* ---- C83: Noll's Zernike polynomials ---- *)
(* every number has one degree and order; the list has the polynomials of the numbers up to maxz *)
Theorem C83_numbering maxz : length (prop_noll_zernikes maxz) = maxz /\
  (forall j, (1 <= j)%nat -> exists n m, noll j n m /\ (m <= n)%nat /\ Nat.even n = Nat.even m /\ forall n' m', noll j n' m' -> n' = n /\ m' = m) /\
  forall j n m, (j <= maxz)%nat -> noll j n m -> exists e, nth_error (prop_noll_zernikes maxz) (j - 1) = Some e /\ forall r t, zval e r t = zernike n m (Nat.even j) r t.
Proof.
  split; [apply noll_length|]. split.
  - intros j J. destruct (noll_ok j j) as (n & m & h & N & H & _); [lia|]. exists n, m. split; auto. split; [lia|]. split.
    + subst n. rewrite Nat.even_add, Nat.even_mul. cbn [Nat.even orb]. now destruct (Nat.even m).
    + intros n' m' N'. destruct (noll_unique _ _ _ _ _ N N'). auto.
  - intros j n m L N. assert (J : (1 <= j)%nat) by (destruct N as (k & K & E & _); lia). destruct (noll_ok maxz j) as (n' & m' & h & N' & H & e & E & V); [lia|]. destruct (noll_unique _ _ _ _ _ N N') as (-> & ->). eauto.
Qed.
Theorem C83_numbering_example : noll 4 2 0 /\ noll 11 4 0 /\ noll 8 3 1 /\ noll 9 3 3 /\ forall r t, zernike 2 0 true r t = sqrt 3 * (2 * r ^ 2 - 1).
Proof.
  split; [exists 0%nat; vm_compute; repeat split; lia|]. split; [exists 0%nat; vm_compute; repeat split; lia|]. split; [exists 1%nat; vm_compute; repeat split; lia|]. split; [exists 2%nat; vm_compute; repeat split; lia|].
  intros r t. unfold zernike, radial. cbn [Nat.eqb Nat.sub Nat.add Nat.div Nat.divmod fst rsum Nat.mul Factorial.fact]. simpl INR. replace (1 + 1 + 1) with 3 by ring. field.
Qed.
(* the polynomials are orthonormal on the unit disc *)
Theorem C83_orthonormal maxz j k : (1 <= j <= maxz)%nat -> (1 <= k <= maxz)%nat -> exists e f,
  nth_error (prop_noll_zernikes maxz) (j - 1) = Some e /\ nth_error (prop_noll_zernikes maxz) (k - 1) = Some f /\
  annulus_mean 0 (fun r t => zval e r t * zval f r t) (if Nat.eqb j k then 1 else 0).
Proof.
  intros J K. destruct (noll_ok maxz j J) as (n & m & h & N & H & e & E & V). destruct (noll_ok maxz k K) as (n' & m' & h' & N' & H' & f & F & W). exists e, f. split; auto. split; auto.
  eapply mean_ext; [|apply (noll_orth _ _ _ _ _ _ _ _ N N' H H')]. intros r t. cbv beta. now rewrite V, W.
Qed.
(* no two numbers have the same polynomial *)
Theorem C83_distinct maxz j k e : (1 <= j <= maxz)%nat -> (1 <= k <= maxz)%nat ->
  nth_error (prop_noll_zernikes maxz) (j - 1) = Some e -> nth_error (prop_noll_zernikes maxz) (k - 1) = Some e -> j = k.
Proof.
  intros J K E F. destruct (C83_orthonormal maxz j k J K) as (a & b & A & B & M). destruct (C83_orthonormal maxz j j J J) as (a' & b' & A' & B' & M').
  assert (a = e) by congruence. assert (b = e) by congruence. assert (a' = e) by congruence. assert (b' = e) by congruence. subst. rewrite Nat.eqb_refl in M'. destruct (Nat.eqb_spec j k) as [|N]; auto. exfalso.
  destruct M as (g & G1 & G2), M' as (g' & G1' & G2'). assert (Q : forall t, g t = g' t) by (intros t; rewrite <- (is_RInt_unique _ _ _ _ (G1 t)); apply (is_RInt_unique _ _ _ _ (G1' t))).
  assert (X : RInt g 0 (2 * PI) = RInt g' 0 (2 * PI)) by (apply RInt_ext; intros; apply Q). rewrite (is_RInt_unique _ _ _ _ G2), (is_RInt_unique _ _ _ _ G2') in X. pose proof PI_RGT_0. replace (0 ^ 2) with 0 in X by ring. lra.
Qed.
(* a sum of distinct modes has its coefficients as root-mean-square parts *)
Theorem C83_rms nums vals every : NoDup nums -> (forall k, In k nums -> 1 <= k <= 276)%nat -> length vals = length nums -> exists F,
  (forall r t, 0 <= r -> zpixel every 0 nums vals (r * cos t) (r * sin t) = Ok (F r t)) /\
  annulus_mean 0 (fun r t => F r t ^ 2) (sumsq vals) /\
  annulus_mean 0 F (combo (fun k => if Nat.eqb k 1 then 1 else 0) nums vals).
Proof.
  intros ND K L. pose (Z := fun k r t => match nth_error (prop_noll_zernikes k) (k - 1) with Some e => zval e r t | None => 0 end).
  assert (HZ : zref Z).
  { intros k n m r t N. unfold Z. assert (J : (1 <= k)%nat) by (destruct N as (q & Q & E & _); lia). destruct (noll_ok k k ltac:(lia)) as (n' & m' & h & N' & H & e & E & V). rewrite E, V. destruct (noll_unique _ _ _ _ _ N N') as (-> & ->). auto. }
  assert (O : forall j k, (1 <= j)%nat -> (1 <= k)%nat -> annulus_mean 0 (fun r t => Z j r t * Z k r t) (if Nat.eqb j k then 1 else 0)).
  { intros j k J Hk. destruct (noll_ok j j ltac:(lia)) as (n & m & h & N & H & _). destruct (noll_ok k k ltac:(lia)) as (n' & m' & h' & N' & H' & _). eapply mean_ext; [|apply (noll_orth _ _ _ _ _ _ _ _ N N' H H')]. intros r t. cbv beta. now rewrite (HZ j n m), (HZ k n' m'). }
  exists (fun r t => combo (fun k => Z k r t) nums vals). split; [intros; now apply zpixel_ok|]. split.
  - apply mean_combo_sq; auto. intros j k J Hk. apply O; apply K; auto.
  - assert (P : zref Z) by auto. pose proof (mean_combo 0 Z (Z 1%nat) (fun k => if Nat.eqb 1 k then 1 else 0) nums vals (fun k I => O 1%nat k (le_n 1) (proj1 (K k I)))) as X.
    assert (E1 : forall r t, Z 1%nat r t = 1) by (intros; unfold Z; reflexivity).
    rewrite (combo_ext (fun k => if Nat.eqb k 1 then 1 else 0) (fun k => if Nat.eqb 1 k then 1 else 0)) by (intros; now rewrite Nat.eqb_sym). eapply mean_ext; [|apply X]. intros r t. cbv beta. rewrite E1. ring.
Qed.
(* the text of a polynomial is stored whole up to number 276 and not at 277 *)
Theorem C83_text maxz : (forall j e, (1 <= j <= 276)%nat -> (j <= maxz)%nat -> nth_error (prop_noll_zernikes maxz) (j - 1) = Some e -> zstored true e = ztext true e) /\
  ((277 <= maxz)%nat -> exists e, nth_error (prop_noll_zernikes maxz) 276 = Some e /\ zstored true e <> ztext true e).
Proof.
  split; [intros j e J L H; now apply (kept_276 maxz j)|]. intros M. pose proof text_277 as T. pose proof (noll_stable 277 maxz 277) as S. change (277 - 1)%nat with 276%nat in S. rewrite S by lia.
  destruct (nth_error (prop_noll_zernikes 277) 276) as [e|] eqn:E.
  - exists e. split; auto. apply nth_error_split in E. destruct E as (l1 & l2 & E & L). rewrite E in T. rewrite <- L, skipn_app, skipn_all, Nat.sub_diag in T. cbn [skipn app forallb] in T. apply andb_prop in T. destruct T as (T & _). apply Bool.negb_true_iff in T. intros X. unfold kept in T. rewrite X, String.eqb_refl in T. discriminate.
  - apply nth_error_None in E. rewrite noll_length in E. lia.
Qed.
(* ---- C84: the modes of an annular pupil ---- *)
Theorem C84_orthonormal eps j k : 0 <= eps < 1 -> (1 <= j <= 22)%nat -> (1 <= k <= 22)%nat -> exists f g,
  (forall r t, zobs j eps r t = Some (f r t)) /\ (forall r t, zobs k eps r t = Some (g r t)) /\
  annulus_mean eps (fun r t => f r t * g r t) (if Nat.eqb j k then 1 else 0).
Proof. apply obs_orth. Qed.
Theorem C84_limit k n m r t : (k <= 22)%nat -> noll k n m -> zobs k 0 r t = Some (zernike n m (Nat.even k) r t).
Proof.
  intros K N. assert (J : (1 <= k)%nat) by (destruct N as (q & Q & E & _); lia). destruct (noll_unique _ _ _ _ _ N (noll_tab k ltac:(lia))) as (-> & ->). apply zobs_0. lia.
Qed.
Theorem C84_rms eps nums vals : 0 < eps < 1 -> NoDup nums -> (forall k, In k nums -> 1 <= k <= 22)%nat -> length vals = length nums -> exists F,
  (forall r t, 0 <= r -> zpixel true eps nums vals (r * cos t) (r * sin t) = Ok (F r t)) /\
  annulus_mean eps (fun r t => F r t ^ 2) (sumsq vals).
Proof.
  intros E ND K L. pose (Z := fun k r t => match zobs k eps r t with Some z => z | None => 0 end). assert (HZ : zoref eps Z).
  { intros k r t J. unfold Z. rewrite zobs_split by auto. reflexivity. }
  exists (fun r t => combo (fun k => Z k r t) nums vals). split.
  - intros r t P. rewrite (pix_obs Z) by (auto; lra). f_equal. apply (pixval_obs Z eps); auto.
  - apply mean_combo_sq; auto. intros j k J Hk. destruct (obs_orth j k eps) as (f & g & F & G & M); auto; [lra|]. eapply mean_ext; [|apply M]. intros r t. cbv beta. unfold Z. now rewrite F, G.
Qed.
Theorem C84_example : exists F, (forall r t, 0 <= r -> zpixel true (1/2) [4; 22]%nat [3; 4] (r * cos t) (r * sin t) = Ok (F r t)) /\ annulus_mean (1/2) (fun r t => F r t ^ 2) 25.
Proof.
  destruct (C84_rms (1/2) [4; 22]%nat [3; 4]) as (F & A & B); [lra|repeat constructor; cbn; lia|intros k [<-|[<-|[]]]; lia|reflexivity|]. exists F. split; auto. replace 25 with (sumsq [3; 4]) by (cbn; ring). auto.
Qed.
