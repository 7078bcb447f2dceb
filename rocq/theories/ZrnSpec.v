(* Specification vocabulary for the Zernike polynomials (C83, C84, C85) *)
From Coq Require Import Factorial.
From Coquelicot Require Import Coquelicot.
From Verif Require Import Base RBase StrBase CBase.
Open Scope R_scope.
(* v is the mean of f(r, t) over the annulus a <= r <= 1 *)
Definition annulus_mean (a : R) (f : R -> R -> R) (v : R) : Prop :=
  exists g, (forall t, is_RInt (fun r => f r t * r) a 1 (g t)) /\ is_RInt g 0 (2 * PI) (v * (PI * (1 - a ^ 2))).
(* radial polynomial of degree n and azimuthal order m, with m <= n of the same parity *)
Definition radial (n m : nat) (r : R) : R :=
  rsum ((n - m) / 2 + 1) (fun s =>
    (-1) ^ s * INR (fact (n - s)) / (INR (fact s) * INR (fact ((n + m) / 2 - s)) * INR (fact ((n - m) / 2 - s))) * r ^ (n - 2 * s)).
(* Noll's polynomials (J. Opt. Soc. Am. 66, 207, 1976) *)
Definition zernike (n m : nat) (cosine : bool) (r t : R) : R :=
  if Nat.eqb m 0 then sqrt (INR (n + 1)) * radial n 0 r
  else sqrt (2 * INR (n + 1)) * radial n m r * (if cosine then cos (INR m * t) else sin (INR m * t)).
(* Noll's numbering: the modes of degree n are numbers n(n+1)/2 + 1 .. (n+1)(n+2)/2, by increasing m, cosines at even numbers *)
Definition noll (j n m : nat) : Prop :=
  exists k, (k <= n)%nat /\ (2 * j = n * (n + 1) + 2 * (k + 1))%nat /\ (if Nat.even n then m = 2 * ((k + 1) / 2) else m = 2 * (k / 2) + 1)%nat.
(* sum of v * f k over the two lists *)
Fixpoint combo (f : nat -> R) (ks : list nat) (vs : list R) : R :=
  match ks, vs with k :: kr, v :: vr => v * f k + combo f kr vr | _, _ => 0 end.
Fixpoint sumsq (vs : list R) : R := match vs with [] => 0 | v :: r => v ^ 2 + sumsq r end.
