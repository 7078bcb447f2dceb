(* Model of PROPER's fit of actuator commands (falco/proper/prop_fit_dm.py).  Real arithmetic *)
From Verif Require Import Base RBase.
Open Scope R_scope.
Definition image := nat -> nat -> R.
(* a kernel of k_r rows and k_c columns *)
Record kernel : Type := mkker { k_r : nat; k_c : nat; k_w : image }.
(* scipy.ndimage's default extension 'reflect' of n samples: d c b a | a b c d | d c b a *)
Definition refl (n : nat) (k : Z) : nat :=
  let r := (k mod (2 * Z.of_nat n))%Z in if (r <? Z.of_nat n)%Z then Z.to_nat r else Z.to_nat (2 * Z.of_nat n - 1 - r).
(* scipy.ndimage.convolve(c, w) of an n x m array: the origin is the sample size // 2 of the kernel *)
Definition conv (n m : nat) (w : kernel) (c : image) : image := fun i j =>
  rsum (k_r w) (fun a => rsum (k_c w) (fun b => k_w w a b * c (refl n (Z.of_nat i - Z.of_nat a + Z.of_nat (k_r w / 2))) (refl m (Z.of_nat j - Z.of_nat b + Z.of_nat (k_c w / 2))))).
(* np.sqrt(np.sum(d**2)) *)
Definition norm2 (n m : nat) (d : image) : R := sqrt (rsum n (fun i => rsum m (fun j => d i j ^ 2))).
Definition sub2 (a b : image) : image := fun i j => a i j - b i j.
Definition add2 (a b : image) : image := fun i j => a i j + b i j.
(* np.max(np.abs(d)) *)
Fixpoint rmax (n : nat) (f : nat -> R) : R := match n with O => 0 | S k => Rmax (rmax k f) (f k) end.
Definition peak (n m : nat) (d : image) : R := rmax n (fun i => rmax m (fun j => Rabs (d i j))).
(* falco/proper/prop_fit_dm.py:67-70 *)
Definition fit_end (cmd last surf : image) (e e0 : R) : image * image := if Rlt_dec e0 e then (last, surf) else (cmd, surf).
(* falco/proper/prop_fit_dm.py:54: e < e0 and (e0-e)/e > 0.01; numpy gives infinity when e is 0 *)
Definition go_on (e e0 : R) : bool := if Rlt_dec e e0 then if Req_EM_T e 0 then true else if Rlt_dec (1 / 100) ((e0 - e) / e) then true else false else false.
(* falco/proper/prop_fit_dm.py:54-64, at most fuel times: None when that is not enough *)
Fixpoint fit_loop (fuel n m : nat) (z : image) (w : kernel) (cmd last surf : image) (e e0 : R) : option (image * image) :=
  match fuel with
  | O => None
  | S k =>
    if go_on e e0 then
      let cmd' := add2 cmd (sub2 z surf) in
      let surf' := conv n m w cmd' in
      let d := sub2 z surf' in
      if Rlt_dec (peak n m d) (1 / 10 ^ 15) then Some (fit_end cmd' cmd surf' e e)
      else fit_loop k n m z w cmd' cmd surf' (norm2 n m d) e
    else Some (fit_end cmd last surf e e0)
  end.
(* falco/proper/prop_fit_dm.py:19-72, for arrays of floats with at least one element (scipy would round the surface of an array of integers) *)
Definition prop_fit_dm (fuel n m : nat) (z : image) (w : kernel) : option (image * image) :=
  let surf := conv n m w z in fit_loop fuel n m z w z z surf (norm2 n m (sub2 z surf)) 1000000.
