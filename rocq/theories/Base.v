(* Common definitions: exceptions as values, Python integer and slice rules,
   2-D numpy arrays, finite sums.  No definition here models a falco function;
   they model the Python / numpy semantics the falco functions rely on. *)
From Coq Require Export List ZArith Lia Bool.
From Coq Require Export ZifyBool ZifyNat.
Export ListNotations.
#[global] Open Scope Z_scope.
Ltac Zify.zify_post_hook ::= Z.div_mod_to_equations.

(* ---- exceptions as values ---- *)
Inductive exn : Set :=
| TypeError | ValueError | AttributeError | KeyError | IndexError | NameError
| NotImplementedError | ZeroDivisionError | CheckException | ImportError
| LinAlgError | OtherError.

Inductive res (A : Type) : Type :=
| Ok : A -> res A
| Raise : exn -> res A.
Arguments Ok {A} _.
Arguments Raise {A} _.

Definition rbind {A B} (x : res A) (f : A -> res B) : res B :=
  match x with Ok a => f a | Raise e => Raise e end.
Notation "'do' x <- a ; b" := (rbind a (fun x => b))
  (at level 200, x pattern, a at level 100, b at level 200, right associativity).

Definition exn_eqb (a b : exn) : bool :=
  match a, b with
  | TypeError, TypeError | ValueError, ValueError | AttributeError, AttributeError
  | KeyError, KeyError | IndexError, IndexError | NameError, NameError
  | NotImplementedError, NotImplementedError | ZeroDivisionError, ZeroDivisionError
  | CheckException, CheckException | ImportError, ImportError
  | LinAlgError, LinAlgError | OtherError, OtherError => true
  | _, _ => false
  end.

(* ---- 2-D numpy arrays: shape and contents ---- *)
Record arr (A : Type) : Type := mkarr { nr : Z; nc : Z; px : Z -> Z -> A }.
Arguments mkarr {A} _ _ _.
Arguments nr {A} _.
Arguments nc {A} _.
Arguments px {A} _ _ _.

(* Equality of arrays: same shape, same pixels. Index values outside the shape
   carry no meaning. *)
Definition arr_eq {A} (a b : arr A) : Prop :=
  nr a = nr b /\ nc a = nc b /\
  forall i j, 0 <= i < nr a -> 0 <= j < nc a -> px a i j = px b i j.

Definition res_arr_eq {A} (x y : res (arr A)) : Prop :=
  match x, y with
  | Ok a, Ok b => arr_eq a b
  | Raise e, Raise f => e = f
  | _, _ => False
  end.

(* One bound of a Python slice on an axis of length n: negative values count from the
   end, everything is clipped to [0, n]. *)
Definition slice_bound (n k : Z) : Z :=
  if k <? 0 then Z.max 0 (k + n) else Z.min k n.

(* a[r0:r1, c0:c1] *)
Definition slice2 {A} (a : arr A) (r0 r1 c0 c1 : Z) : arr A :=
  let r0' := slice_bound (nr a) r0 in
  let r1' := slice_bound (nr a) r1 in
  let c0' := slice_bound (nc a) c0 in
  let c1' := slice_bound (nc a) c1 in
  mkarr (Z.max 0 (r1' - r0')) (Z.max 0 (c1' - c0'))
        (fun i j => px a (r0' + i) (c0' + j)).

(* out[r0:r1, c0:c1] = src : numpy broadcasts length-1 axes, otherwise a shape
   mismatch raises ValueError. *)
Definition set_slice2 {A} (out : arr A) (r0 r1 c0 c1 : Z) (src : arr A) : res (arr A) :=
  let r0' := slice_bound (nr out) r0 in
  let r1' := slice_bound (nr out) r1 in
  let c0' := slice_bound (nc out) c0 in
  let c1' := slice_bound (nc out) c1 in
  let h := Z.max 0 (r1' - r0') in
  let w := Z.max 0 (c1' - c0') in
  if ((nr src =? h) || (nr src =? 1)) && ((nc src =? w) || (nc src =? 1)) then
    Ok (mkarr (nr out) (nc out)
         (fun i j =>
            if (r0' <=? i) && (i <? r0' + h) && (c0' <=? j) && (j <? c0' + w)
            then px src (if nr src =? 1 then 0 else i - r0') (if nc src =? 1 then 0 else j - c0')
            else px out i j))
  else Raise ValueError.

(* Row-major list of the pixels (for examples). *)
Definition zrange (n : Z) : list Z := map Z.of_nat (seq 0 (Z.to_nat n)).
Definition arr_to_lists {A} (a : arr A) : list (list A) :=
  map (fun i => map (fun j => px a i j) (zrange (nc a))) (zrange (nr a)).

(* ---- finite sums over Z-valued data ---- *)
Fixpoint zsum (n : nat) (f : nat -> Z) : Z :=
  match n with O => 0 | S m => zsum m f + f m end.

Lemma in_zrange n k : In k (zrange n) <-> 0 <= k < n.
Proof.
  unfold zrange; rewrite in_map_iff; split.
  - intros [x [<- Hx]]. apply in_seq in Hx. lia.
  - intros H. exists (Z.to_nat k). split; [lia|]. apply in_seq. lia.
Qed.

Lemma zrange_length n : length (zrange n) = Z.to_nat n.
Proof. unfold zrange. now rewrite map_length, seq_length. Qed.

Lemma nth_zrange n k d : 0 <= k < n -> nth (Z.to_nat k) (zrange n) d = k.
Proof.
  intros H. unfold zrange.
  rewrite nth_indep with (d' := Z.of_nat 0) by (rewrite map_length, seq_length; lia).
  rewrite map_nth, seq_nth by lia. lia.
Qed.

Lemma arr_eq_refl {A} (a : arr A) : arr_eq a a.
Proof. repeat split; auto. Qed.
Lemma arr_eq_sym {A} (a b : arr A) : arr_eq a b -> arr_eq b a.
Proof.
  intros (H1 & H2 & H3). repeat split; auto.
  intros i j Hi Hj. symmetry. apply H3; [now rewrite H1|now rewrite H2].
Qed.
Lemma arr_eq_trans {A} (a b c : arr A) : arr_eq a b -> arr_eq b c -> arr_eq a c.
Proof.
  intros (H1 & H2 & H3) (G1 & G2 & G3). repeat split; try congruence.
  intros i j Hi Hj. rewrite H3 by auto. apply G3; [now rewrite <- H1|now rewrite <- H2].
Qed.
