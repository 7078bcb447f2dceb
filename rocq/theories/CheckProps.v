(* Property theorems C10 about falco/check.py. *)
From Coq Require Import String QArith.
From Verif Require Import Base CheckModel CheckSpec CheckProofs.
Open Scope Z_scope.

Theorem C10_real_scalar : exact_checker real_scalar (fun v => exists x, denotes v x).
Proof. exact real_scalar_exact. Qed.
Print Assumptions C10_real_scalar.

(* NaN passes: a comparison with nan is False *)
Theorem C10_real_positive_scalar :
  exact_checker real_positive_scalar (fun v => exists x, denotes v x /\ (positive x \/ x = NaN)).
Proof. exact real_positive_exact. Qed.
Print Assumptions C10_real_positive_scalar.

Theorem C10_real_nonnegative_scalar :
  exact_checker real_nonnegative_scalar (fun v => exists x, denotes v x /\ (nonnegative x \/ x = NaN)).
Proof. exact real_nonnegative_exact. Qed.
Print Assumptions C10_real_nonnegative_scalar.

Theorem C10_scalar_integer : exact_checker scalar_integer (fun v => exists z, denotes_int v z).
Proof. exact scalar_integer_exact. Qed.
Print Assumptions C10_scalar_integer.

Theorem C10_positive_scalar_integer :
  exact_checker positive_scalar_integer (fun v => exists z, denotes_int v z /\ 0 < z).
Proof. exact positive_integer_exact. Qed.
Print Assumptions C10_positive_scalar_integer.

Theorem C10_nonnegative_scalar_integer :
  exact_checker nonnegative_scalar_integer (fun v => exists z, denotes_int v z /\ 0 <= z).
Proof. exact nonnegative_integer_exact. Qed.
Print Assumptions C10_nonnegative_scalar_integer.

Theorem C10_string : exact_checker string_check is_text.
Proof. exact string_exact. Qed.
Print Assumptions C10_string.

Theorem C10_boolean : exact_checker boolean (fun v => exists b, v = VBool b).
Proof. exact boolean_exact. Qed.
Print Assumptions C10_boolean.

Theorem C10_dictionary : exact_checker dictionary (fun v => v = VDict).
Proof. exact dictionary_exact. Qed.
Print Assumptions C10_dictionary.

Theorem C10_oneD_array : exact_array_checker oneD_array (fun k sh => List.length sh = 1%nat).
Proof. exact (nD_exact 1 (le_n 1)). Qed.
Print Assumptions C10_oneD_array.
Theorem C10_twoD_array : exact_array_checker twoD_array (fun k sh => List.length sh = 2%nat).
Proof. exact (nD_exact 2 (le_S 1 1 (le_n 1))). Qed.
Print Assumptions C10_twoD_array.
Theorem C10_threeD_array : exact_array_checker threeD_array (fun k sh => List.length sh = 3%nat).
Proof. exact (nD_exact 3 (le_S 1 2 (le_S 1 1 (le_n 1)))). Qed.
Print Assumptions C10_threeD_array.
Theorem C10_twoD_square_array :
  exact_array_checker twoD_square_array (fun k sh => exists n, sh = [n; n]).
Proof. exact square_exact. Qed.
Print Assumptions C10_twoD_square_array.
Theorem C10_real_array : exact_array_checker real_array
    (fun k sh => sh <> [] /\ (k = KBool \/ k = KInt \/ k = KUInt \/ k = KFloat)).
Proof. exact real_array_exact. Qed.
Print Assumptions C10_real_array.

Theorem C10_centering : forall v,
  centering v = match v with
                | VStr s => if string_dec s "pixel" then Ok v
                            else if string_dec s "interpixel" then Ok v else Raise ValueError
                | _ => Raise TypeError end.
Proof. exact centering_exact. Qed.
Print Assumptions C10_centering.

Theorem C10_is_dict_is_bool : forall v n,
  (is_text n -> is_dict v n = (match v with VDict => Ok v | _ => Raise TypeError end) /\
                is_bool v n = (match v with VBool _ => Ok v | _ => Raise TypeError end)) /\
  (~ is_text n -> is_dict v n = Raise CheckException /\ is_bool v n = Raise CheckException).
Proof. exact is_dict_is_bool. Qed.
Print Assumptions C10_is_dict_is_bool.

(* "a real positive scalar" is violated by nan, which is accepted *)
Theorem C10_positive_excludes_nan_refuted : exists v s e,
  (forall x, denotes v x -> ~ positive x) /\ real_positive_scalar v (VStr s) (VExcClass e) = Ok v.
Proof. exact nan_accepted. Qed.
Print Assumptions C10_positive_excludes_nan_refuted.

(* with a bytes name (accepted by the name check) the caller's exception class is not the one raised *)
Theorem C10_bytes_name_raises_given_class_refuted : exists v s e,
  (forall x, ~ denotes v x) /\ e <> TypeError /\
  real_scalar v (VBytes s) (VExcClass e) = Raise TypeError.
Proof. exact bytes_name_wrong_exc. Qed.
Print Assumptions C10_bytes_name_raises_given_class_refuted.

(* Python's True is an integer *)
Example C10_true_is_positive_integer :
  positive_scalar_integer (VBool true) (VStr "n") (VExcClass TypeError) = Ok (VBool true).
Proof. reflexivity. Qed.
Example C10_square_accepts : seen_as (VArr KFloat [4; 4]) KFloat [4; 4] /\ exists n, [4; 4] = [n; n].
Proof. split; [constructor|eauto]. Qed.
