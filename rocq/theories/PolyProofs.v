(* Proofs for C104: the scan of a convex polygon, one line *)
From Coquelicot Require Import Coquelicot.
From Verif Require Import Base StrBase RBase CBase PropModel PrpModel DmSurfProofs2 EllProofs ApModel ApSpec ApProofs ApProofs2 RectModel RectSpec RectProofs RectProofs2 RectProofs3 RectProofs4 RectProofs5 PolySpec.
Open Scope R_scope.
(* ---- hulls ---- *)
Lemma hull_vertex p k : (k < v_n p)%nat -> in_hull p (v_x p k) (v_y p k).
Proof.
  intros H. exists (fun m => if (m =? k)%nat then 1 else 0).
  assert (S : forall (f : nat -> R) n, (k < n)%nat -> rsum n (fun m => (if (m =? k)%nat then 1 else 0) * f m) = f k).
  { intros f n. induction n as [|n IH]; intros K; [lia|]. cbn [rsum]. destruct (Nat.eqb_spec n k) as [->|NE].
    - rewrite rsum_zero; [apply eq_trans with (1 * f k); [apply Rplus_0_l|apply Rmult_1_l]|]. intros m M. cbv beta. destruct (Nat.eqb_spec m k); [lia|ring].
    - rewrite IH by lia. cbv iota; ring. }
  split; [intros m _; destruct (m =? k)%nat; lra|]. split; [|split; symmetry; apply S; auto].
  refine (eq_trans _ (S (fun _ => 1) (v_n p) H)). apply rsum_ext. intros m _. cbv beta. destruct (m =? k)%nat; ring.
Qed.
Lemma hull_mix p x y x' y' t : 0 <= t <= 1 -> in_hull p x y -> in_hull p x' y' -> in_hull p (x + t * (x' - x)) (y + t * (y' - y)).
Proof.
  intros T [a [A1 [A2 [A3 A4]]]] [b [B1 [B2 [B3 B4]]]]. exists (fun k => (1 - t) * a k + t * b k).
  assert (S : forall f n, rsum n (fun k => ((1 - t) * a k + t * b k) * f k) = (1 - t) * rsum n (fun k => a k * f k) + t * rsum n (fun k => b k * f k)).
  { intros f n. induction n as [|n IH]; cbn [rsum]; [ring|]. rewrite IH. ring. }
  split; [|split; [|split]].
  - intros k K. specialize (A1 k K). specialize (B1 k K). nra.
  - assert (E : rsum (v_n p) (fun k => (1 - t) * a k + t * b k) = (1 - t) * rsum (v_n p) a + t * rsum (v_n p) b).
    { generalize (v_n p). intros n. induction n as [|n IH]; cbn [rsum]; [ring|]. rewrite IH. ring. }
    rewrite E, A2, B2. ring.
  - rewrite S, A3, B3. ring.
  - rewrite S, A4, B4. ring.
Qed.
(* what holds of the vertices and is linear holds of the hull *)
Lemma hull_half p x y a b c : in_hull p x y -> (forall k, (k < v_n p)%nat -> a * v_x p k + b * v_y p k <= c) -> a * x + b * y <= c.
Proof.
  intros [w [W1 [W2 [-> ->]]]] H.
  assert (E : forall n, a * rsum n (fun k => w k * v_x p k) + b * rsum n (fun k => w k * v_y p k) = rsum n (fun k => w k * (a * v_x p k + b * v_y p k))).
  { induction n as [|n IH]; cbn [rsum]; [ring|]. rewrite <- IH. ring. }
  rewrite E. replace c with (c * rsum (v_n p) w) by (rewrite W2; ring). clear E W2. revert W1 H. generalize (v_n p). intros n. induction n as [|n IH]; intros W1 H; cbn [rsum]; [lra|].
  assert (G : rsum n (fun k => w k * (a * v_x p k + b * v_y p k)) <= c * rsum n w) by (apply IH; intros; [apply W1|apply H]; lia).
  pose proof (W1 n ltac:(lia)). pose proof (H n ltac:(lia)). nra.
Qed.
Lemma hull_y p x y lo hi : in_hull p x y -> (forall k, (k < v_n p)%nat -> lo <= v_y p k <= hi) -> lo <= y <= hi.
Proof.
  intros H B. split.
  - assert (0 * x + -1 * y <= - lo); [|lra]. apply (hull_half p); auto. intros k K. pose proof (B k K). lra.
  - assert (0 * x + 1 * y <= hi); [|lra]. apply (hull_half p); auto. intros k K. pose proof (B k K). lra.
Qed.
(* ---- one side of the polygon ---- *)
(* before line y: vertex V k and the next, at most one to pass *)
Definition rdy (yv : nat -> R) (V : nat -> nat) (m : nat) (y : R) (a b : nat) : Prop :=
  exists k, (k < m)%nat /\ a = V k /\ b = V (S k) /\ (k = 0%nat \/ yv (V k) <= y) /\ ((S (S k) <= m)%nat -> y < yv (V (S (S k)))).
(* on line y *)
Definition onl (yv : nat -> R) (V : nat -> nat) (m : nat) (top y : R) (a b : nat) : Prop :=
  exists k, (k <= m)%nat /\ a = V k /\ b = V (S k) /\ yv (V k) <= y /\ (((k < m)%nat /\ y < yv (V (S k))) \/ (k = m /\ y = top)).
Lemma rdy_onl yv V m top gap first y a b nx : climbs yv top gap first V m -> rdy yv V m y a b -> yv (V 0%nat) <= y <= top ->
  (forall k, nx (V k) = V (S k)) ->
  let l := if Rle_dec (yv b) y then (b, nx b) else (a, b) in onl yv V m top y (fst l) (snd l).
Proof.
  intros [C1 [C2 [C3 [C4 C5]]]] [k [K [-> [-> [H1 H2]]]]] [Y1 Y2] NX. cbv zeta.
  assert (YK : yv (V k) <= y) by (destruct H1 as [->|H1]; auto).
  destruct (Rle_dec (yv (V (S k))) y) as [D|D]; cbn [fst snd].
  - exists (S k). split; [lia|]. split; [reflexivity|]. split; [apply NX|]. split; [exact D|]. destruct (Nat.eq_dec (S k) m) as [E|NE].
    + right. split; auto. rewrite E, C4 in D. lra.
    + left. split; [lia|]. apply H2. lia.
  - exists k. split; [lia|]. split; [reflexivity|]. split; [reflexivity|]. split; [exact YK|]. left. split; [exact K|lra].
Qed.
Lemma onl_rdy yv V m top gap first y y' a b : climbs yv top gap first V m -> y < y' -> y' <= y + gap -> y' <= top -> onl yv V m top y a b -> rdy yv V m y' a b.
Proof.
  intros [C1 [C2 [C3 [C4 C5]]]] L1 L2 L3 [k [K [-> [-> [H1 H2]]]]]. destruct H2 as [[H2 H3]|[_ H2]]; [|lra].
  exists k. split; auto. split; auto. split; auto. split; [right; lra|]. intros Q. pose proof (C3 (S k) ltac:(lia)). lra.
Qed.
(* a side that is not begun stays so *)
Lemma start_rdy yv V m top gap first y y' : climbs yv top gap first V m -> y < yv (V 0%nat) -> y' <= y + gap -> rdy yv V m y' (V 0%nat) (V 1%nat).
Proof.
  intros [C1 [C2 [C3 [C4 C5]]]] L1 L2. exists 0%nat. split; [lia|]. split; auto. split; auto. split; [now left|]. intros Q. pose proof (C3 1%nat ltac:(lia)). lra.
Qed.
Lemma first_rdy yv V m top gap first : climbs yv top gap first V m -> rdy yv V m first (V 0%nat) (V 1%nat).
Proof. intros [C1 [C2 [C3 [C4 C5]]]]. exists 0%nat. split; [lia|]. split; [reflexivity|]. split; [reflexivity|]. split; [now left|exact C5]. Qed.
Lemma rdy_below yv V m top gap first y a b : climbs yv top gap first V m -> 0 < gap -> rdy yv V m y a b -> y < yv (V 0%nat) -> a = V 0%nat /\ b = V 1%nat.
Proof.
  intros [C1 [C2 [C3 [C4 C5]]]] G [k [K [-> [-> [[->|H1] _]]]]] L; [auto|]. exfalso.
  assert (Q : forall q, (S q <= m)%nat -> yv (V 0%nat) <= yv (V (S q))). { induction q as [|q IH]; intros W; auto. pose proof (C3 (S q) ltac:(lia)). specialize (IH ltac:(lia)). lra. }
  destruct k as [|k]; [lra|]. specialize (Q k ltac:(lia)). lra.
Qed.
(* where the current edge crosses the line: a point of the hull *)
Lemma onl_hull p V m top y a b : (forall k, (V k < v_n p)%nat) -> onl (v_y p) V m top y a b -> v_y p (V m) = top -> in_hull p (crossing p a b y) y.
Proof.
  intros HV [k [K [-> [-> [H1 H2]]]]] T. unfold crossing. cbv zeta. destruct H2 as [[H2 H3]|[-> ->]].
  - destruct (Req_EM_T (v_y p (V (S k)) - v_y p (V k)) 0) as [Z|Z]; [lra|].
    pose proof (hull_mix p _ _ _ _ ((y - v_y p (V k)) / (v_y p (V (S k)) - v_y p (V k))) ltac:(split; [apply Rdiv_le_0_compat; lra|]; apply (Rmult_le_reg_r (v_y p (V (S k)) - v_y p (V k))); [lra|]; unfold Rdiv; rewrite Rmult_assoc, Rinv_l; lra) (hull_vertex p _ (HV k)) (hull_vertex p _ (HV (S k)))) as M.
    match type of M with in_hull _ ?x1 ?y1 => match goal with |- in_hull _ ?x2 ?y2 => replace x2 with x1 by (field; lra); replace y2 with y1 at 2 by (field; lra) end end. exact M.
  - assert (E : (if Req_EM_T (v_y p (V (S m)) - v_y p (V m)) 0 then v_x p (V m) else (v_x p (V (S m)) - v_x p (V m)) / (v_y p (V (S m)) - v_y p (V m)) * (top - v_y p (V m)) + v_x p (V m)) = v_x p (V m)).
    { destruct (Req_EM_T _ 0); [reflexivity|]. rewrite T. ring. }
    rewrite E, <- T. apply hull_vertex, HV.
Qed.
(* sg = 1: the hull is on the right of the side; sg = -1: on the left *)
Lemma onl_bound p V m top gap first y a b sg : 0 < gap -> climbs (v_y p) top gap first V m -> v_y p (V 0%nat) < top ->
  (forall k v, (k < m)%nat -> (v < v_n p)%nat -> sg * ((v_x p (V (S k)) - v_x p (V k)) * (v_y p v - v_y p (V k)) - (v_y p (V (S k)) - v_y p (V k)) * (v_x p v - v_x p (V k))) <= 0) ->
  onl (v_y p) V m top y a b -> forall x, in_hull p x y -> sg * (crossing p a b y) <= sg * x.
Proof.
  intros G [C1 [C2 [C3 [C4 C5]]]] LT HC [k [K [-> [-> [H1 H2]]]]] x HX.
  assert (ST : forall q, (q < m)%nat -> v_y p (V q) < v_y p (V (S q)) -> sg * ((v_x p (V (S q)) - v_x p (V q)) / (v_y p (V (S q)) - v_y p (V q)) * (y - v_y p (V q)) + v_x p (V q)) <= sg * x).
  { intros q Q D. set (dy := v_y p (V (S q)) - v_y p (V q)) in *. set (ex := v_x p (V (S q)) - v_x p (V q)) in *.
    assert (F : (- (sg * dy)) * x + (sg * ex) * y <= sg * (ex * v_y p (V q) - dy * v_x p (V q))).
    { apply (hull_half p _ _ _ _ _ HX). intros v HV. specialize (HC q v Q HV). fold dy ex in HC. lra. }
    assert (DP : 0 < dy) by (unfold dy; lra). apply (Rmult_le_reg_r dy); auto.
    replace (sg * (ex / dy * (y - v_y p (V q)) + v_x p (V q)) * dy) with (sg * (ex * (y - v_y p (V q)) + dy * v_x p (V q))) by (field; lra). lra. }
  unfold crossing. cbv zeta. destruct H2 as [[H2 H3]|[-> ->]].
  - destruct (Req_EM_T (v_y p (V (S k)) - v_y p (V k)) 0) as [Z|Z]; [lra|]. apply ST; auto. lra.
  - assert (E : (if Req_EM_T (v_y p (V (S m)) - v_y p (V m)) 0 then v_x p (V m) else (v_x p (V (S m)) - v_x p (V m)) / (v_y p (V (S m)) - v_y p (V m)) * (top - v_y p (V m)) + v_x p (V m)) = v_x p (V m)).
    { destruct (Req_EM_T _ 0); [reflexivity|]. rewrite C4. ring. }
    rewrite E. destruct m as [|q]; [lia|]. assert (D : v_y p (V q) < v_y p (V (S q))). { destruct q as [|q]; [rewrite C4; exact LT|]. pose proof (C3 (S q) ltac:(lia)). lra. }
    pose proof (ST q ltac:(lia) D) as F. rewrite C4 in F. replace ((v_x p (V (S q)) - v_x p (V q)) / (top - v_y p (V q)) * (top - v_y p (V q)) + v_x p (V q)) with (v_x p (V (S q))) in F by (field; rewrite C4 in D; lra). exact F.
Qed.
