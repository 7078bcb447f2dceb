(* Model of falco/thinfilm.py: the thin-film solver.  Exact complex arithmetic.  numpy's division by zero gives inf/nan
   with a warning; here it gives Coquelicot's total inverse, and the theorems exclude it. *)
From Verif Require Import Base RBase StrBase CBase OptModel.
Open Scope R_scope.
(* np.sqrt on a complex array: principal branch, cut on the negative real axis (approached from above; signed zeros are not modelled) *)
Definition csqrt (z : C) : C :=
  let m := Cmod z in
  (sqrt ((m + fst z) / 2), if Rlt_dec (snd z) 0 then - sqrt ((m - fst z) / 2) else sqrt ((m - fst z) / 2)).
(* np.exp on a complex array *)
Definition cexp (z : C) : C := Cmult (RtoC (exp (fst z))) (cis (snd z)).
(* a 2x2 complex matrix and np.matmul *)
Record m2 := mkm2 { a00 : C; a01 : C; a10 : C; a11 : C }.
Definition eye2 : m2 := mkm2 (RtoC 1) (RtoC 0) (RtoC 0) (RtoC 1).
Definition mmul (A B : m2) : m2 :=
  mkm2 (Cplus (Cmult (a00 A) (a00 B)) (Cmult (a01 A) (a10 B))) (Cplus (Cmult (a00 A) (a01 B)) (Cmult (a01 A) (a11 B)))
       (Cplus (Cmult (a10 A) (a00 B)) (Cmult (a11 A) (a10 B))) (Cplus (Cmult (a10 A) (a01 B)) (Cmult (a11 A) (a11 B))).
Definition ith (l : list C) (i : nat) : C := nth i l (RtoC 0).
Definition rth (l : list R) (i : nat) : R := nth i l 0.

(* falco/thinfilm.py:385-387 : kx and kz *)
Definition tf_kx (n : list C) (theta lam : R) : C := Cdiv (Cmult (Cmult (RtoC (2 * PI)) (ith n 0)) (RtoC (sin theta))) (RtoC lam).
Definition tf_kz (n : list C) (theta lam : R) (i : nat) : C :=
  let k := Cdiv (Cmult (RtoC (2 * PI)) (ith n i)) (RtoC lam) in
  Copp (csqrt (Cminus (Cmult k k) (Cmult (tf_kx n theta lam) (tf_kx n theta lam)))).
(* falco/thinfilm.py:389-392 : kzz *)
Definition tf_kzz (n : list C) (theta lam : R) (tetm : bool) (i : nat) : C :=
  if tetm then Cdiv (tf_kz n theta lam i) (Cmult (ith n i) (ith n i)) else tf_kz n theta lam i.
(* falco/thinfilm.py:394-406 : eep, eem, tin, ri and the matrix of interface i *)
Definition tf_mat (n : list C) (d : list R) (theta lam : R) (tetm : bool) (i : nat) : m2 :=
  let kz := tf_kz n theta lam in
  let kzz := tf_kzz n theta lam tetm in
  let eep := cexp (Cmult (Cmult (Copp Ci) (kz i)) (RtoC (rth d i))) in
  let eem := cexp (Cmult (Cmult Ci (kz i)) (RtoC (rth d i))) in
  let tin := Cdiv (Cmult (RtoC (/ 2)) (Cplus (kzz i) (kzz (S i)))) (kzz i) in
  let ri := Cdiv (Cminus (kzz i) (kzz (S i))) (Cplus (kzz i) (kzz (S i))) in
  mkm2 (Cmult tin eep) (Cmult tin (Cmult ri eep)) (Cmult tin (Cmult ri eem)) (Cmult tin eem).
(* falco/thinfilm.py:403-406 : the loop over the interfaces *)
Definition tf_prod (n : list C) (d : list R) (theta lam : R) (tetm : bool) : m2 :=
  fold_left (fun A i => mmul A (tf_mat n d theta lam tetm i)) (seq 0 (length n - 1)) eye2.
Record tf_out := mktf { tf_R : R; tf_T : R; tf_rr : C; tf_tt : C }.
(* falco/thinfilm.py:339-424 : solver.  n is a complex array, d0 a real array, theta and lam are real scalars, tetm is a bool
   (arguments of the wrong type are refused by the checks of falco/check.py, modelled in CheckModel) *)
Definition solver (n : list C) (d0 : list R) (theta lam : R) (tetm : bool) : res tf_out :=
  if negb (Z.eqb (Z.of_nat (length d0)) (Z.of_nat (length n) - 2)) then Raise ValueError
  else if Rlt_dec theta 0 then Raise TypeError
  else if Rle_dec lam 0 then Raise TypeError
  else
    let d := (0 :: d0) ++ [0] in
    let A := tf_prod n d theta lam tetm in
    let rr := Cdiv (a10 A) (a00 A) in
    let tt := Cdiv (RtoC 1) (a00 A) in
    let last := (length n - 1)%nat in
    let kz := tf_kz n theta lam in
    let Pn := if tetm then fst (Cdiv (Cdiv (kz last) (Cmult (ith n last) (ith n last))) (Cdiv (kz 0%nat) (Cmult (ith n 0) (ith n 0))))
              else fst (Cdiv (kz last) (kz 0%nat)) in
    Ok (mktf (Cmod rr * Cmod rr) (Pn * (Cmod tt * Cmod tt)) rr (Cmult (RtoC (sqrt Pn)) tt)).
