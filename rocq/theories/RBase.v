(* Real-number helpers: finite sums over R. *)
From Coq Require Export Reals Lra Psatz.
From Flocq Require Export Core.Raux Core.Generic_fmt Core.Round_NE.
From Verif Require Export Base.
#[global] Open Scope Z_scope.
#[global] Open Scope R_scope.

Fixpoint rsum (n : nat) (f : nat -> R) : R :=
  match n with O => 0 | S m => rsum m f + f m end.

Fixpoint rsuml (l : list R) : R :=
  match l with [] => 0 | x :: t => x + rsuml t end.

Lemma rsum_ext n f g : (forall k, (k < n)%nat -> f k = g k) -> rsum n f = rsum n g.
Proof. induction n as [|n IH]; intros H; simpl; [reflexivity|]. rewrite IH, H; auto with arith. Qed.
Lemma rsum_plus n f g : rsum n (fun k => f k + g k) = rsum n f + rsum n g.
Proof. induction n as [|n IH]; simpl; [ring|]. rewrite IH; ring. Qed.
Lemma rsum_scal n c f : rsum n (fun k => c * f k) = c * rsum n f.
Proof. induction n as [|n IH]; simpl; [ring|]. rewrite IH; ring. Qed.
Lemma rsum_const n c : rsum n (fun _ => c) = INR n * c.
Proof. induction n as [|n IH]; [simpl; ring|]. cbn [rsum]. rewrite IH, S_INR; ring. Qed.
Lemma rsum_zero n f : (forall k, (k < n)%nat -> f k = 0) -> rsum n f = 0.
Proof. intros H. rewrite (rsum_ext n f (fun _ => 0)) by auto. rewrite rsum_const; ring. Qed.
Lemma rsum_app n m f : rsum (n + m) f = rsum n f + rsum m (fun k => f (n + k)%nat).
Proof.
  induction m as [|m IH]; simpl.
  - rewrite Nat.add_0_r; ring.
  - rewrite Nat.add_succ_r; cbn [rsum]. rewrite IH; ring.
Qed.
Lemma rsum_mul_blocks a b f :
  rsum (a * b) f = rsum a (fun i => rsum b (fun j => f (i * b + j)%nat)).
Proof.
  induction a as [|a IH]; cbn [rsum]; [reflexivity|].
  replace (S a * b)%nat with (a * b + b)%nat by lia.
  rewrite rsum_app, IH. reflexivity.
Qed.
Lemma rsum_swap n m f :
  rsum n (fun i => rsum m (fun j => f i j)) = rsum m (fun j => rsum n (fun i => f i j)).
Proof.
  induction n as [|n IH]; cbn [rsum].
  - symmetry. apply rsum_zero; auto.
  - rewrite IH, rsum_plus. reflexivity.
Qed.
Lemma rsum_single n k f : (k < n)%nat ->
  (forall i, (i < n)%nat -> i <> k -> f i = 0) -> rsum n f = f k.
Proof.
  induction n as [|n IH]; intros Hk Hz; [lia|]. cbn [rsum].
  destruct (Nat.eq_dec n k) as [->|Hne].
  - rewrite rsum_zero; [ring|]. intros i Hi; apply Hz; lia.
  - rewrite IH; [rewrite (Hz n); try ring; lia | lia | intros; apply Hz; lia].
Qed.
Lemma rsum_nonneg n f : (forall k, (k < n)%nat -> 0 <= f k) -> 0 <= rsum n f.
Proof.
  induction n as [|n IH]; intros H; cbn [rsum]; [lra|].
  assert (0 <= rsum n f) by (apply IH; auto with arith). specialize (H n (Nat.lt_succ_diag_r n)). lra.
Qed.
Lemma rsuml_map_seq n f : rsuml (map f (seq 0 n)) = rsum n f.
Proof.
  assert (H : forall s m, rsuml (map f (seq s m)) = rsum m (fun k => f (s + k)%nat)).
  { intros s m; revert s; induction m as [|m IH]; intros s; [reflexivity|].
    cbn [seq map rsuml]. rewrite IH. replace (S m) with (1 + m)%nat by lia. rewrite rsum_app. cbn [rsum].
    rewrite Nat.add_0_r. rewrite Rplus_0_l. f_equal. apply rsum_ext; intros; f_equal; lia. }
  rewrite H. apply rsum_ext; intros; f_equal; lia.
Qed.
Lemma rsuml_app a b : rsuml (a ++ b) = rsuml a + rsuml b.
Proof. induction a as [|x a IH]; simpl; [ring|]. rewrite IH; ring. Qed.
