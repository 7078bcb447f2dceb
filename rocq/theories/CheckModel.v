(* Model of falco/check.py: argument checkers over a universe of Python values. *)
From Coq Require Import String QArith.
From Verif Require Import Base.
Open Scope Z_scope.

(* A real number as a Python/numpy float can hold it. Finite floats are rationals. *)
Inductive fl : Type := Fin (q : Q) | NaN | PInf | NInf.

(* numpy dtype kinds (dtype.kind): b i u f c O S U *)
Inductive dkind : Set := KBool | KInt | KUInt | KFloat | KComplex | KObject | KBytes | KStr.

Inductive pyval : Type :=
| VNone
| VBool (b : bool)                 (* Python bool: a subclass of int *)
| VInt (z : Z)                     (* Python int *)
| VNpInt (z : Z)                   (* numpy integer scalar *)
| VNpBool (b : bool)               (* numpy bool: not registered as a number *)
| VFloat (x : fl)                  (* Python float or numpy floating scalar *)
| VRational (q : Q)                (* fractions.Fraction / decimal.Decimal *)
| VComplex (re im : fl)            (* Python complex or numpy complex scalar *)
| VStr (s : string)
| VBytes (s : string)
| VDict
| VArr (k : dkind) (shape : list Z)          (* numpy ndarray *)
| VSeq (conv : option (dkind * list Z))      (* list/tuple; conv = the ndarray numpy.asarray
                                                builds from it, None if it refuses (ragged) *)
| VExcClass (e : exn)                        (* subclass of Exception *)
| VOtherClass                                (* any other class *)
| VObject.                                   (* any other object *)

(* isinstance(v, numbers.Number) *)
Definition is_number (v : pyval) : bool :=
  match v with
  | VBool _ | VInt _ | VNpInt _ | VFloat _ | VRational _ | VComplex _ _ => true
  | _ => false
  end.
(* isinstance(v, (int, np.integer)) *)
Definition is_int_type (v : pyval) : bool :=
  match v with VBool _ | VInt _ | VNpInt _ => true | _ => false end.
(* np.isrealobj(v): not a complex scalar and not an array of complex dtype *)
Definition isrealobj (v : pyval) : bool :=
  match v with
  | VComplex _ _ => false
  | VArr KComplex _ => false
  | VSeq (Some (KComplex, _)) => false
  | _ => true
  end.
Definition iscomplexobj (v : pyval) : bool := negb (isrealobj v).

(* v <= 0 and v < 0 for real numbers; comparisons with nan are False *)
Definition fl_le0 (x : fl) : bool :=
  match x with Fin q => Qle_bool q 0 | NaN => false | PInf => false | NInf => true end.
Definition fl_lt0 (x : fl) : bool :=
  match x with Fin q => negb (Qle_bool 0 q) | NaN => false | PInf => false | NInf => true end.
Definition to_fl (v : pyval) : fl :=
  match v with
  | VBool b => Fin (if b then 1 else 0)
  | VInt z | VNpInt z => Fin (inject_Z z)
  | VFloat x => x
  | VRational q => Fin q
  | _ => NaN
  end.
Definition le0 v := fl_le0 (to_fl v).
Definition lt0 v := fl_lt0 (to_fl v).

(* np.asarray(v): dtype kind and shape; ragged nested sequences raise ValueError *)
Definition asarray (v : pyval) : res pyval :=
  match v with
  | VArr k s => Ok (VArr k s)
  | VSeq (Some (k, s)) => Ok (VArr k s)
  | VSeq None => Raise ValueError
  | VBool _ | VNpBool _ => Ok (VArr KBool [])
  | VInt _ | VNpInt _ => Ok (VArr KInt [])
  | VFloat _ => Ok (VArr KFloat [])
  | VComplex _ _ => Ok (VArr KComplex [])
  | VStr _ => Ok (VArr KStr [])
  | VBytes _ => Ok (VArr KBytes [])
  | _ => Ok (VArr KObject [])
  end.
Definition shape (v : pyval) : list Z := match v with VArr _ s => s | _ => [] end.
Definition kind (v : pyval) : dkind := match v with VArr k _ => k | _ => KObject end.

(* falco/check.py:18-25 *)
Definition checkname (vname : pyval) : res unit :=
  match vname with VStr _ | VBytes _ => Ok tt | _ => Raise CheckException end.

(* falco/check.py:28-39 *)
Definition checkexc (vexc : pyval) : res unit :=
  match vexc with VExcClass _ => Ok tt | _ => Raise CheckException end.

(* raise vexc(vname + '...'): bytes + str is itself a TypeError *)
Definition raise_exc {A} (vname vexc : pyval) : res A :=
  match vname with
  | VStr _ => match vexc with VExcClass e => Raise e | _ => Raise TypeError end
  | _ => Raise TypeError
  end.

(* falco/check.py:41-64 *)
Definition centering (var : pyval) : res pyval :=
  match var with
  | VStr s => if (String.eqb s "pixel" || String.eqb s "interpixel")%bool
              then Ok var else Raise ValueError
  | _ => Raise TypeError
  end.

(* falco/check.py:67-82 *)
Definition is_dict (var vname : pyval) : res pyval :=
  do _ <- checkname vname;
  match var with VDict => Ok var | _ => Raise TypeError end.

(* falco/check.py:85-100 *)
Definition is_bool (var vname : pyval) : res pyval :=
  do _ <- checkname vname;
  match var with VBool _ => Ok var | _ => Raise TypeError end.

(* falco/check.py:103-125 *)
Definition real_positive_scalar (var vname vexc : pyval) : res pyval :=
  do _ <- checkname vname; do _ <- checkexc vexc;
  if negb (is_number var) then raise_exc vname vexc
  else if negb (isrealobj var) then raise_exc vname vexc
  else if le0 var then raise_exc vname vexc
  else Ok var.

(* falco/check.py:128-152 *)
Definition real_array (var vname vexc : pyval) : res pyval :=
  do _ <- checkname vname; do _ <- checkexc vexc;
  do v <- asarray var;
  if Nat.eqb (List.length (shape v)) 0 then raise_exc vname vexc
  else if negb (isrealobj v) then raise_exc vname vexc
  else if match kind v with KBool | KInt | KUInt | KFloat => false | _ => true end
  then raise_exc vname vexc
  else Ok v.

(* falco/check.py:155-176 (n=1), 179-200 (n=2), 230-251 (n=3): identical code but for the
   number of dimensions *)
Definition nD_array (n : nat) (var vname vexc : pyval) : res pyval :=
  do _ <- checkname vname; do _ <- checkexc vexc;
  do v <- asarray var;
  if negb (Nat.eqb (List.length (shape v)) n) then raise_exc vname vexc
  else if negb (isrealobj v) && negb (iscomplexobj v) then raise_exc vname vexc
  else Ok v.
Definition oneD_array := nD_array 1.
Definition twoD_array := nD_array 2.
Definition threeD_array := nD_array 3.

(* falco/check.py:203-227 *)
Definition twoD_square_array (var vname vexc : pyval) : res pyval :=
  do _ <- checkname vname; do _ <- checkexc vexc;
  do v <- asarray var;
  if negb (Nat.eqb (List.length (shape v)) 2) then raise_exc vname vexc
  else if negb (nth 0 (shape v) 0 =? nth 1 (shape v) 0) then raise_exc vname vexc
  else if negb (isrealobj v) && negb (iscomplexobj v) then raise_exc vname vexc
  else Ok v.

(* falco/check.py:255-275 *)
Definition real_scalar (var vname vexc : pyval) : res pyval :=
  do _ <- checkname vname; do _ <- checkexc vexc;
  if negb (is_number var) then raise_exc vname vexc
  else if negb (isrealobj var) then raise_exc vname vexc
  else Ok var.

(* falco/check.py:278-300 *)
Definition real_nonnegative_scalar (var vname vexc : pyval) : res pyval :=
  do _ <- checkname vname; do _ <- checkexc vexc;
  if negb (is_number var) then raise_exc vname vexc
  else if negb (isrealobj var) then raise_exc vname vexc
  else if lt0 var then raise_exc vname vexc
  else Ok var.

(* falco/check.py:303-325 *)
Definition positive_scalar_integer (var vname vexc : pyval) : res pyval :=
  do _ <- checkname vname; do _ <- checkexc vexc;
  if negb (is_number var) then raise_exc vname vexc
  else if negb (is_int_type var) then raise_exc vname vexc
  else if le0 var then raise_exc vname vexc
  else Ok var.

(* falco/check.py:328-350 *)
Definition nonnegative_scalar_integer (var vname vexc : pyval) : res pyval :=
  do _ <- checkname vname; do _ <- checkexc vexc;
  if negb (is_number var) then raise_exc vname vexc
  else if negb (is_int_type var) then raise_exc vname vexc
  else if lt0 var then raise_exc vname vexc
  else Ok var.

(* falco/check.py:353-373 *)
Definition scalar_integer (var vname vexc : pyval) : res pyval :=
  do _ <- checkname vname; do _ <- checkexc vexc;
  if negb (is_number var) then raise_exc vname vexc
  else if negb (is_int_type var) then raise_exc vname vexc
  else Ok var.

(* falco/check.py:376-394 *)
Definition string_check (var vname vexc : pyval) : res pyval :=
  do _ <- checkname vname; do _ <- checkexc vexc;
  match var with VStr _ | VBytes _ => Ok var | _ => raise_exc vname vexc end.

(* falco/check.py:397-415 *)
Definition boolean (var vname vexc : pyval) : res pyval :=
  do _ <- checkname vname; do _ <- checkexc vexc;
  match var with VBool _ => Ok var | _ => raise_exc vname vexc end.

(* falco/check.py:418-436 *)
Definition dictionary (var vname vexc : pyval) : res pyval :=
  do _ <- checkname vname; do _ <- checkexc vexc;
  match var with VDict => Ok var | _ => raise_exc vname vexc end.
