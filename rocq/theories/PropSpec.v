(* Specification vocabulary for propagation. *)
From Verif Require Import Base RBase CBase PropModel.
Open Scope R_scope.
(* arrays with the same shape and the same entries *)
Definition feq {A} (a b : field A) : Prop :=
  frows a = frows b /\ fcols a = fcols b /\
  forall i j, (i < frows a)%nat -> (j < fcols a)%nat -> fpx a i j = fpx b i j.
Definition req_field {A} (a b : res (field A)) : Prop :=
  match a, b with Ok x, Ok y => feq x y | Raise e, Raise e' => e = e' | _, _ => False end.
(* total energy *)
Definition fenergy (E : field C) : R := energy (frows E) (fcols E) (fpx E).
(* coordinate of sample k on an axis of n samples: 0 is at sample n//2, or half a sample to its left
   for inter-pixel centring of an even axis *)
Definition coord (n : nat) (step : R) (c : centering) (k : nat) : R :=
  (INR k - INR (n / 2) + (if interp c && Nat.even n then 1/2 else 0)) * step.
(* the Fourier integral as a Riemann sum at point (eta, xi) *)
Definition fourier_sum (M N : nat) (E : nat -> nat -> C) (y x : nat -> R) (lf eta xi : R) : C :=
  csum M (fun i => csum N (fun j => Cmult (E i j) (cis (- (2 * PI) * (eta * y i + xi * x j) / lf)))).
(* pointwise combination of two fields of one shape *)
Definition fcomb (a b : C) (E F : field C) : field C :=
  mkf (frows E) (fcols E) (fun i j => Cplus (Cmult a (fpx E i j)) (Cmult b (fpx F i j))).
