(* Independent description of the classes of values the checkers are documented to accept. *)
From Coq Require Import String QArith.
From Verif Require Import Base CheckModel.
Open Scope Z_scope.

(* The real number a scalar denotes, if it denotes one. *)
Inductive denotes : pyval -> fl -> Prop :=
| d_bool b : denotes (VBool b) (Fin (if b then 1 else 0))
| d_int z : denotes (VInt z) (Fin (inject_Z z))
| d_npint z : denotes (VNpInt z) (Fin (inject_Z z))
| d_float x : denotes (VFloat x) x
| d_rat q : denotes (VRational q) (Fin q).

(* The integer an integer-typed scalar denotes. *)
Inductive denotes_int : pyval -> Z -> Prop :=
| di_true : denotes_int (VBool true) 1
| di_false : denotes_int (VBool false) 0
| di_int z : denotes_int (VInt z) z
| di_npint z : denotes_int (VNpInt z) z.

Inductive positive : fl -> Prop :=
| pos_fin q : (0 < q)%Q -> positive (Fin q)
| pos_inf : positive PInf.
Inductive nonnegative : fl -> Prop :=
| nn_fin q : (0 <= q)%Q -> nonnegative (Fin q)
| nn_inf : nonnegative PInf.

(* What numpy sees: dtype kind and shape of an array or array-like. *)
Inductive seen_as : pyval -> dkind -> list Z -> Prop :=
| s_arr k s : seen_as (VArr k s) k s
| s_seq k s : seen_as (VSeq (Some (k, s))) k s.

Definition is_text (v : pyval) : Prop := (exists s, v = VStr s) \/ (exists s, v = VBytes s).
Definition is_exc (v : pyval) : Prop := exists e, v = VExcClass e.

(* chk accepts exactly the values satisfying [good], returning them unchanged; it raises the
   caller's exception class otherwise; misuse raises CheckException. *)
Definition exact_checker (chk : pyval -> pyval -> pyval -> res pyval) (good : pyval -> Prop) : Prop :=
  (forall v s e, good v -> chk v (VStr s) (VExcClass e) = Ok v) /\
  (forall v s e, ~ good v -> chk v (VStr s) (VExcClass e) = Raise e) /\
  (forall v n e, ~ is_text n \/ ~ is_exc e -> chk v n e = Raise CheckException).

(* Same for array checkers, which return the numpy view of the value.  A sequence numpy
   cannot convert (ragged) raises numpy's own ValueError. *)
Definition exact_array_checker (chk : pyval -> pyval -> pyval -> res pyval)
    (good : dkind -> list Z -> Prop) : Prop :=
  (forall v s e k sh, seen_as v k sh -> good k sh -> chk v (VStr s) (VExcClass e) = Ok (VArr k sh)) /\
  (forall v s e, v <> VSeq None -> (forall k sh, seen_as v k sh -> ~ good k sh) ->
     chk v (VStr s) (VExcClass e) = Raise e) /\
  (forall s e, chk (VSeq None) (VStr s) (VExcClass e) = Raise ValueError) /\
  (forall v n e, ~ is_text n \/ ~ is_exc e -> chk v n e = Raise CheckException).
