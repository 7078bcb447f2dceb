(* Proofs for C102: the rectangle as a parallelogram, the whole image *)
From Coquelicot Require Import Coquelicot.
From Verif Require Import Base StrBase RBase CBase PropModel PrpModel DmSurfProofs2 EllProofs ApModel ApSpec ApProofs ApProofs2 RectModel RectSpec RectProofs RectProofs2.
Open Scope R_scope.
Lemma Reqb_true a b : Reqb a b = true <-> a = b.
Proof. unfold Reqb. destruct (Req_EM_T a b); split; congruence. Qed.
Lemma lmin_le f n k : (k < n)%nat -> lmin f n <= f k.
Proof.
  revert k. induction n; [lia|]. intros k Hk. cbn [lmin]. destruct n; [replace k with 0%nat by lia; lra|].
  destruct (Nat.eq_dec k (S n)) as [->|]; [apply Rmin_r|]. eapply Rle_trans; [apply Rmin_l|apply IHn; lia].
Qed.
Lemma lmax_ge f n k : (k < n)%nat -> f k <= lmax f n.
Proof.
  revert k. induction n; [lia|]. intros k Hk. cbn [lmax]. destruct n; [replace k with 0%nat by lia; lra|].
  destruct (Nat.eq_dec k (S n)) as [->|]; [apply Rmax_r|]. eapply Rle_trans; [apply IHn; lia|apply Rmax_l].
Qed.
Lemma lmin_in f n : (1 <= n)%nat -> exists k, (k < n)%nat /\ f k = lmin f n.
Proof.
  induction n; [lia|]. intros _. cbn [lmin]. destruct n; [exists 0%nat; auto|].
  unfold Rmin. destruct (Rle_dec (lmin f (S n)) (f (S n))) as [|]; [|exists (S n); auto]. destruct IHn as [k [K1 K2]]; [lia|]. exists k; auto.
Qed.
Lemma lmax_in f n : (1 <= n)%nat -> exists k, (k < n)%nat /\ f k = lmax f n.
Proof.
  induction n; [lia|]. intros _. cbn [lmax]. destruct n; [exists 0%nat; auto|].
  unfold Rmax. destruct (Rle_dec (lmax f (S n)) (f (S n))) as [|]; [exists (S n); auto|]. destruct IHn as [k [K1 K2]]; [lia|]. exists k; auto.
Qed.
Lemma first_from_ok t c : forall k, (exists q, (k <= q < k + c)%nat /\ t q = true) -> (k <= first_from t k c < k + c)%nat /\ t (first_from t k c) = true.
Proof.
  induction c; intros k [q [Q1 Q2]]; [lia|]. cbn [first_from]. destruct (t k) eqn:E; [split; [lia|auto]|].
  destruct (IHc (S k)) as [A B]; [|split; [lia|auto]]. exists q. split; auto. destruct (Nat.eq_dec q k); [congruence|lia].
Qed.
Lemma Reqb_if (a b : R) (x y : R) : (a = b -> (if Reqb a b then x else y) = x) /\ (a <> b -> (if Reqb a b then x else y) = y).
Proof. unfold Reqb. destruct (Req_EM_T a b); tauto. Qed.
Lemma lowest_ok p : (1 <= v_n p)%nat -> (lowest p < v_n p)%nat /\ v_y p (lowest p) = lmin (v_y p) (v_n p) /\
  forall k, (k < v_n p)%nat -> v_y p k = lmin (v_y p) (v_n p) -> v_x p (lowest p) <= v_x p k.
Proof.
  intros Hn. unfold lowest. cbv zeta. set (my := lmin (v_y p) (v_n p)). set (xs := fun k => if Reqb (v_y p k) my then v_x p k else lmax (v_x p) (v_n p)).
  set (t := fun k => (Reqb (v_y p k) my && Reqb (v_x p k) (lmin xs (v_n p)))%bool).
  destruct (first_from_ok t (v_n p) 0) as [A B].
  { destruct (lmin_in (v_y p) (v_n p) Hn) as [q [Q1 Q2]]. destruct (lmin_in xs (v_n p) Hn) as [k [K1 K2]].
    destruct (Req_EM_T (v_y p k) my) as [E|E].
    - exists k. split; [lia|]. unfold t. apply Bool.andb_true_iff. rewrite !Reqb_true. split; auto. rewrite <- K2. unfold xs. symmetry. apply Reqb_if. auto.
    - exists q. split; [lia|]. unfold t. apply Bool.andb_true_iff. rewrite !Reqb_true. split; auto.
      assert (Eq : xs q = v_x p q) by (unfold xs; apply Reqb_if; auto).
      assert (Ek : xs k = lmax (v_x p) (v_n p)) by (unfold xs; apply Reqb_if; auto).
      apply Rle_antisym; [rewrite <- K2, Ek; apply lmax_ge; auto|rewrite <- Eq; apply lmin_le; auto]. }
  unfold t in B. apply Bool.andb_true_iff in B. rewrite !Reqb_true in B. destruct B as [B1 B2]. fold t in B1, B2. split; [lia|]. split; auto.
  intros k Hk Ek. rewrite B2. assert (Exk : xs k = v_x p k) by (unfold xs; apply Reqb_if; auto).
  rewrite <- Exk. apply lmin_le; auto.
Qed.
(* the rectangle of half-widths xr, yr at xc, yc with direction (c, s) *)
Definition rpoly (xr yr c s xc yc : R) : poly := mkpoly 4 (fun k => rcx k xr * c - rcy k yr * s + xc) (fun k => rcx k xr * s + rcy k yr * c + yc).
Definition in_rp (xr yr c s xc yc x y : R) : Prop := Rabs (c * (x - xc) + s * (y - yc)) <= xr /\ Rabs (c * (y - yc) - s * (x - xc)) <= yr.
Lemma abs_frac u h m : 0 < h -> u = h * (2 * m - 1) -> (Rabs u <= h <-> 0 <= m <= 1).
Proof.
  intros H ->. split.
  - intros A. assert (B : - h <= h * (2 * m - 1) <= h) by (split; unfold Rabs in A; destruct (Rcase_abs _); lra).
    split; apply (Rmult_le_reg_l h); lra.
  - intros [A B]. assert (0 <= h * m) by (apply Rmult_le_pos; lra). assert (h * m <= h * 1) by (apply Rmult_le_compat_l; lra). apply Rabs_le. lra.
Qed.
Lemma abs_frac2 u h m : 0 < h -> (u = h * (2 * m - 1) \/ u = - (h * (2 * m - 1))) -> (Rabs u <= h <-> 0 <= m <= 1).
Proof. intros H [E|E]; [apply abs_frac; auto|]. rewrite <- Rabs_Ropp. apply abs_frac; auto. rewrite E. ring. Qed.
Lemma e1_pos e1x e1y e2x e2y : 0 <= e1y -> 0 <= e2y -> 0 < e2x * e1y - e2y * e1x -> (e1y = 0 -> 0 <= e1x) -> 0 < e1y.
Proof. intros H1 H2 H3 H4. destruct (Req_dec e1y 0) as [E|E]; [|lra]. specialize (H4 E). rewrite E in H3. assert (0 <= e2y * e1x) by (apply Rmult_le_pos; auto). lra. Qed.
Lemma max_top f a b d e m : (a < 4)%nat -> (forall k, (k < 4)%nat -> k = a \/ k = b \/ k = d \/ k = e) -> f a = m -> f b <= m -> f d <= m -> f e <= m -> lmax f 4 = m.
Proof.
  intros Ha H A B D E. apply Rle_antisym; [|rewrite <- A; apply lmax_ge; auto].
  destruct (lmax_in f 4) as [k [K1 <-]]; [lia|]. destruct (H k K1) as [->|[->|[->| ->]]]; lra.
Qed.
Lemma rect_para xr yr c s xc yc : 0 < xr -> 0 < yr -> c * c + s * s = 1 -> let p := rpoly xr yr c s xc yc in
  exists l r t bx by_ e1x e1y e2x e2y, para p (lowest p) l r t bx by_ e1x e1y e2x e2y /\ lmin (v_y p) 4 = by_ /\
    forall x y, in_rp xr yr c s xc yc x y <-> by_ <= y <= by_ + e1y + e2y /\ xleft_of bx by_ e1x e1y e2x e2y y <= x <= xright_of bx by_ e1x e1y e2x e2y y.
Proof.
  intros Hx Hy Hcs p. destruct (lowest_ok p) as [B1 [B2 B3]]; [cbn; lia|]. change (v_n p) with 4%nat in *.
  assert (XY : 0 < xr * yr) by (apply Rmult_lt_0_compat; auto).
  assert (M : forall k, (k < 4)%nat -> lmin (v_y p) 4 <= v_y p k) by (intros; apply lmin_le; auto).
  pose proof (M 0%nat ltac:(lia)) as M0. pose proof (M 1%nat ltac:(lia)) as M1. pose proof (M 2%nat ltac:(lia)) as M2. pose proof (M 3%nat ltac:(lia)) as M3. clear M.
  pose proof (B3 0%nat ltac:(lia)) as X0. pose proof (B3 1%nat ltac:(lia)) as X1. pose proof (B3 2%nat ltac:(lia)) as X2. pose proof (B3 3%nat ltac:(lia)) as X3. clear B3.
  set (b := lowest p) in *. rewrite <- B2 in *. clear B2.
  cbn [v_x v_y p rpoly rcx rcy] in M0, M1, M2, M3, X0, X1, X2, X3.
  assert (U : forall x y : R, c * (c * x + s * y) - s * (c * y - s * x) = x) by (intros; replace (c * (c * x + s * y) - s * (c * y - s * x)) with ((c * c + s * s) * x) by ring; rewrite Hcs; ring).
  assert (V : forall x y : R, s * (c * x + s * y) + c * (c * y - s * x) = y) by (intros; replace (s * (c * x + s * y) + c * (c * y - s * x)) with ((c * c + s * s) * y) by ring; rewrite Hcs; ring).
  assert (G : forall l r t e1x e1y e2x e2y, vnext 4 b = l -> vnext 4 l = t -> vprev 4 b = r -> vprev 4 r = t -> vnext 4 t = r -> vprev 4 t = l ->
    (forall k, (k < 4)%nat -> k = t \/ k = l \/ k = r \/ k = b) -> (t < 4)%nat ->
    v_x p l = v_x p b + e1x -> v_y p l = v_y p b + e1y -> v_x p r = v_x p b + e2x -> v_y p r = v_y p b + e2y -> v_x p t = v_x p b + e1x + e2x -> v_y p t = v_y p b + e1y + e2y ->
    0 <= e1y -> 0 <= e2y -> (e1y = 0 -> 0 <= e1x) -> e2x * e1y - e2y * e1x = 4 * (xr * yr) ->
    (forall u v, exists m k, xc + (c * u - s * v) = v_x p b + (e1x * m + e2x * k) /\ yc + (s * u + c * v) = v_y p b + (e1y * m + e2y * k) /\
      (Rabs u <= xr <-> 0 <= (if Nat.even b then k else m) <= 1) /\ (Rabs v <= yr <-> 0 <= (if Nat.even b then m else k) <= 1)) ->
    exists l r t bx by_ e1x e1y e2x e2y, para p b l r t bx by_ e1x e1y e2x e2y /\ v_y p b = by_ /\
    forall x y, in_rp xr yr c s xc yc x y <-> by_ <= y <= by_ + e1y + e2y /\ xleft_of bx by_ e1x e1y e2x e2y y <= x <= xright_of bx by_ e1x e1y e2x e2y y).
  { intros l r t e1x e1y e2x e2y P1 P2 P3 P4 P5 P6 PA PT L1 L2 R1 R2 T1 T2 H1 H2 H3 H4 HC.
    assert (Ho : 0 < e2x * e1y - e2y * e1x) by lra. assert (HE : 0 < e1y) by (apply (e1_pos e1x e1y e2x e2y); auto).
    exists l, r, t, (v_x p b), (v_y p b), e1x, e1y, e2x, e2y. split; [|split; [reflexivity|]].
    - constructor; auto. apply (max_top _ t l r b); auto; lra.
    - intros x y. unfold in_rp. set (u := c * (x - xc) + s * (y - yc)). set (v := c * (y - yc) - s * (x - xc)).
      destruct (HC u v) as [m [k [E1 [E2 [E3 E4]]]]]. pose proof (U (x - xc) (y - yc)) as E5. pose proof (V (x - xc) (y - yc)) as E6. fold u v in E5, E6.
      rewrite E3, E4. replace x with (v_x p b + (e1x * m + e2x * k)) by lra. replace y with (v_y p b + (e1y * m + e2y * k)) by lra.
      rewrite <- section_coords by auto. destruct (Nat.even b); tauto. }
  assert (b = 0 \/ b = 1 \/ b = 2 \/ b = 3)%nat as [E|[E|[E|E]]] by lia; clearbody b; subst b.
  - assert (W : forall k, (k < 4)%nat -> k = 2%nat \/ k = 1%nat \/ k = 3%nat \/ k = 0%nat) by (intros; lia).
    apply (G 1%nat 3%nat 2%nat (- (2 * yr * s)) (2 * yr * c) (2 * xr * c) (2 * xr * s)); try reflexivity; try assumption; try lia; clear W; cbn [v_x v_y p rpoly rcx rcy] in *; try lra.
    + replace (2 * xr * c * (2 * yr * c) - 2 * xr * s * - (2 * yr * s)) with (4 * (xr * yr) * (c * c + s * s)) by ring. rewrite Hcs. ring.
    + intros u v. exists ((v / yr + 1) / 2), ((u / xr + 1) / 2). split; [field; lra|]. split; [field; lra|]. cbn [Nat.even].
      split; [apply abs_frac2; auto; first [left; field; lra|right; field; lra]|apply abs_frac2; auto; first [left; field; lra|right; field; lra]].
  - assert (W : forall k, (k < 4)%nat -> k = 3%nat \/ k = 2%nat \/ k = 0%nat \/ k = 1%nat) by (intros; lia).
    apply (G 2%nat 0%nat 3%nat (2 * xr * c) (2 * xr * s) (2 * yr * s) (- (2 * yr * c))); try reflexivity; try assumption; try lia; clear W; cbn [v_x v_y p rpoly rcx rcy] in *; try lra.
    + replace (2 * yr * s * (2 * xr * s) - - (2 * yr * c) * (2 * xr * c)) with (4 * (xr * yr) * (c * c + s * s)) by ring. rewrite Hcs. ring.
    + intros u v. exists ((u / xr + 1) / 2), ((1 - v / yr) / 2). split; [field; lra|]. split; [field; lra|]. cbn [Nat.even].
      split; [apply abs_frac2; auto; first [left; field; lra|right; field; lra]|apply abs_frac2; auto; first [left; field; lra|right; field; lra]].
  - assert (W : forall k, (k < 4)%nat -> k = 0%nat \/ k = 3%nat \/ k = 1%nat \/ k = 2%nat) by (intros; lia).
    apply (G 3%nat 1%nat 0%nat (2 * yr * s) (- (2 * yr * c)) (- (2 * xr * c)) (- (2 * xr * s))); try reflexivity; try assumption; try lia; clear W; cbn [v_x v_y p rpoly rcx rcy] in *; try lra.
    + replace (- (2 * xr * c) * - (2 * yr * c) - - (2 * xr * s) * (2 * yr * s)) with (4 * (xr * yr) * (c * c + s * s)) by ring. rewrite Hcs. ring.
    + intros u v. exists ((1 - v / yr) / 2), ((1 - u / xr) / 2). split; [field; lra|]. split; [field; lra|]. cbn [Nat.even].
      split; [apply abs_frac2; auto; first [left; field; lra|right; field; lra]|apply abs_frac2; auto; first [left; field; lra|right; field; lra]].
  - assert (W : forall k, (k < 4)%nat -> k = 1%nat \/ k = 0%nat \/ k = 2%nat \/ k = 3%nat) by (intros; lia).
    apply (G 0%nat 2%nat 1%nat (- (2 * xr * c)) (- (2 * xr * s)) (- (2 * yr * s)) (2 * yr * c)); try reflexivity; try assumption; try lia; clear W; cbn [v_x v_y p rpoly rcx rcy] in *; try lra.
    + replace (- (2 * yr * s) * - (2 * xr * s) - 2 * yr * c * - (2 * xr * c)) with (4 * (xr * yr) * (c * c + s * s)) by ring. rewrite Hcs. ring.
    + intros u v. exists ((1 - u / xr) / 2), ((1 + v / yr) / 2). split; [field; lra|]. split; [field; lra|]. cbn [Nat.even].
      split; [apply abs_frac2; auto; first [left; field; lra|right; field; lra]|apply abs_frac2; auto; first [left; field; lra|right; field; lra]].
Qed.
