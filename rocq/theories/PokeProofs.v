(* Arrays in centred coordinates. *)
From Verif Require Import Base RBase StrBase UtilModel CBase PropModel PropSpec PropProofs PropProofs2 OptModel OptSpec LinBase OptProofs OptProofs2 OptProofs3 OptProofs4 DiffModel DiffProofs2 SrcModel PokeModel.
Open Scope R_scope.

(* sums over windows of integers *)
Definition wsum (a : Z) (m : nat) (f : Z -> C) : C := csum m (fun k => f (a + Z.of_nat k)%Z).
Definition outside (a : Z) (m : nat) (f : Z -> C) : Prop := forall u, ~ (a <= u < a + Z.of_nat m)%Z -> f u = RtoC 0.
Lemma csum_app n m f : csum (n + m) f = Cplus (csum n f) (csum m (fun k => f (n + k)%nat)).
Proof. induction m; [rewrite Nat.add_0_r; cbn; ring|]. rewrite Nat.add_succ_r. cbn [csum]. rewrite IHm. ring. Qed.
Lemma csum_zero n f : (forall k, (k < n)%nat -> f k = RtoC 0) -> csum n f = RtoC 0.
Proof. induction n; intros H; [reflexivity|]. cbn [csum]. rewrite IHn by auto. rewrite H by lia. ring. Qed.
Lemma wsum_in a m b k f : outside a m f -> (b <= a)%Z -> (a + Z.of_nat m <= b + Z.of_nat k)%Z -> wsum b k f = wsum a m f.
Proof.
  intros H Hb Hk. unfold wsum. set (p := Z.to_nat (a - b)). replace k with (p + (m + (k - p - m)))%nat by lia. rewrite !csum_app.
  rewrite (csum_zero p) by (intros; apply H; lia). rewrite (csum_zero (k - p - m)) by (intros; apply H; lia).
  rewrite (csum_ext m _ (fun i => f (a + Z.of_nat i)%Z)) by (intros; f_equal; lia). ring.
Qed.
Lemma wsum_eq a m b k f : outside a m f -> outside b k f -> wsum a m f = wsum b k f.
Proof.
  intros H1 H2. set (lo := Z.min a b). set (hi := Z.max (a + Z.of_nat m) (b + Z.of_nat k)).
  transitivity (wsum lo (Z.to_nat (hi - lo)) f); [symmetry|]; apply wsum_in; auto; lia.
Qed.
Lemma csum_rev n f : csum n (fun k => f (n - 1 - k)%nat) = csum n f.
Proof.
  induction n; [reflexivity|]. rewrite <- Nat.add_1_l at 1. rewrite csum_app. cbn [csum]. replace (S n - 1 - 0)%nat with n by lia.
  rewrite (csum_ext n _ (fun k => f (n - 1 - k)%nat)) by (intros; f_equal; lia). rewrite IHn. ring.
Qed.
Lemma wsum_reflect c a m f : wsum a m (fun u => f (c - u)%Z) = wsum (c - a - Z.of_nat m + 1) m f.
Proof. unfold wsum. rewrite <- csum_rev. apply csum_ext. intros k Hk. f_equal. lia. Qed.
Lemma wsum_ext a m f g : (forall u, (a <= u < a + Z.of_nat m)%Z -> f u = g u) -> wsum a m f = wsum a m g.
Proof. intros H. apply csum_ext. intros. apply H. lia. Qed.

(* E holds the values of G, with G (0, 0) at index (n/2, n/2) *)
Definition hf (n : nat) : Z := (Z.of_nat n / 2)%Z.
Definition rep (n : nat) (E : field C) (G : Z -> Z -> C) : Prop :=
  shape E n n /\ forall i j, (i < n)%nat -> (j < n)%nat -> fpx E i j = G (Z.of_nat i - hf n)%Z (Z.of_nat j - hf n)%Z.
(* G is zero off a square *)
Definition supp (lo hi : Z) (G : Z -> Z -> C) : Prop := forall u v, ~ ((lo <= u < hi)%Z /\ (lo <= v < hi)%Z) -> G u v = RtoC 0.
Lemma even_hf n : Nat.even n = true -> Z.of_nat n = (2 * hf n)%Z.
Proof. intros H. apply Nat.even_spec in H. destruct H as [k ->]. unfold hf. rewrite Nat2Z.inj_mul. change (Z.of_nat 2) with 2%Z. rewrite Z.mul_comm, Z.div_mul by lia. lia. Qed.
Lemma rep_ext n E G G' : (forall u v, G u v = G' u v) -> rep n E G -> rep n E G'.
Proof. intros H [S V]. split; auto. intros. rewrite <- H. auto. Qed.
Lemma rep_pad n E G m : rep n E G -> (1 <= n)%nat -> Nat.even n = true -> supp (- hf n) (hf n) G \/ (m <= n)%nat /\ Nat.even m = true -> (1 <= m)%nat -> exists O, pad_cropf E m m = Ok O /\ rep m O G.
Proof.
  intros [[S1 S2] V] Hn He H Hm. apply even_hf in He. destruct (pad_cropf_px E m m Hm Hm) as (O & EO & SO & VO). exists O. split; auto. split; auto.
  intros i j Hi Hj. rewrite VO, S1, S2 by auto. unfold crop_src. fold (hf n) (hf m).
  assert (X : forall k, ((0 <=? hf n + (Z.of_nat k - hf m)) && (hf n + (Z.of_nat k - hf m) <? Z.of_nat n))%Z = true -> (Z.to_nat (hf n + (Z.of_nat k - hf m)) < n)%nat /\ (Z.of_nat (Z.to_nat (hf n + (Z.of_nat k - hf m))) - hf n = Z.of_nat k - hf m)%Z).
  { intros k B. apply andb_prop in B. lia. }
  destruct H as [H|[H He']].
  - destruct (_ && _)%bool eqn:B1; [destruct ((0 <=? hf n + (Z.of_nat j - hf m)) && (hf n + (Z.of_nat j - hf m) <? Z.of_nat n))%Z eqn:B2|].
    + destruct (X i B1) as [X1 X2], (X j B2) as [X3 X4]. rewrite V, X2, X4 by auto. reflexivity.
    + symmetry. apply H. intros [_ Q]. apply andb_false_iff in B2. destruct B2; lia.
    + symmetry. apply H. intros [Q _]. apply andb_false_iff in B1. destruct B1; lia.
  - apply even_hf in He'. destruct (_ && _)%bool eqn:B1; [destruct ((0 <=? hf n + (Z.of_nat j - hf m)) && (hf n + (Z.of_nat j - hf m) <? Z.of_nat n))%Z eqn:B2|].
    + destruct (X i B1) as [X1 X2], (X j B2) as [X3 X4]. rewrite V, X2, X4 by auto. reflexivity.
    + apply andb_false_iff in B2. destruct B2; lia.
    + apply andb_false_iff in B1. destruct B1; lia.
Qed.
(* opposite coordinate *)
Definition refl (c : centering) (u : Z) : Z := match c with Interpixel => (-1 - u)%Z | _ => (- u)%Z end.
Definition sg (b : bool) (c : centering) (u : Z) : Z := if b then refl c u else u.
Lemma sg_sg b c u : sg b c (sg b c u) = u. Proof. unfold sg, refl; destruct b, c; lia. Qed.
Definition lo_of (c : centering) (h : Z) : Z := match c with Interpixel => (- h)%Z | _ => (1 - h)%Z end.
Lemma rep_relay n E G k c : rep n E G -> (1 <= n)%nat -> Nat.even n = true -> c <> OtherCentering -> ((k mod 2 = 1)%Z -> supp (lo_of c (hf n)) (hf n) G) ->
  exists O, relay E k c = Ok O /\ rep n O (fun u v => G (sg (k mod 2 =? 1)%Z c u) (sg (k mod 2 =? 1)%Z c v)).
Proof.
  intros [[S1 S2] V] Hn He Hc H. pose proof (even_hf n He) as Hh. unfold relay. destruct (k mod 2 =? 1)%Z eqn:B.
  - apply Z.eqb_eq in B. specialize (H B). destruct c; [| |congruence].
    + eexists. split; [reflexivity|]. split; [split; auto|]. intros i j Hi Hj. rewrite relay_pixel_px by (rewrite ?S1, ?S2; auto). rewrite S1, S2. cbn [sg refl]. cbn [lo_of] in H.
      destruct i as [|i]; [|destruct j as [|j]].
      * rewrite Nat.sub_0_r, Nat.mod_same by lia. rewrite V; [|lia|apply Nat.mod_upper_bound; lia]. rewrite !H; auto; intros [? ?]; lia.
      * rewrite Nat.sub_0_r, (Nat.mod_same n) by lia. rewrite V; [|apply Nat.mod_upper_bound; lia|lia]. rewrite !H; auto; intros [? ?]; lia.
      * rewrite !Nat.mod_small by lia. rewrite V by lia. f_equal; lia.
    + eexists. split; [reflexivity|]. split; [split; auto|]. intros i j Hi Hj. cbn [flip2 fpx]. rewrite S1, S2, V by lia. cbn [sg refl]. f_equal; lia.
  - destruct c; [| |congruence]; (exists E; split; [reflexivity|]; split; [split; auto|]; cbn [sg]; auto).
Qed.
