(* Specification vocabulary for C100 *)
From Verif Require Import Base StrBase RBase CtrlModel UtilModel DmSurfModel CubModel DmcModel CBase PropModel OptModel PrpModel ErrModel ErrSpec PsdModel.
Open Scope R_scope.
(* sum over an n x n array *)
Definition sum2 (n : nat) (f : nat -> nat -> R) : R := rsum n (fun i => rsum n (fun j => f i j)).
Definition mean2 (n : nat) (f : nat -> nat -> R) : R := sum2 n f / INR (n * n).
(* r is the RMS of an array about its mean *)
Definition rms_about_mean (n : nat) (f : nat -> nat -> R) (r : R) : Prop := 0 <= r /\ r * r * INR (n * n) = sum2 n (fun i j => (f i j - mean2 n f) * (f i j - mean2 n f)).
Definition uniform (n : nat) (f : nat -> nat -> R) : Prop := forall i j k l, (i < n)%nat -> (j < n)%nat -> (k < n)%nat -> (l < n)%nat -> f i j = f k l.
(* the documented densities, at a frequency that is not 0 *)
Definition density (tpf : bool) (amp b c kf : R) : R := if tpf then amp / (1 + Rpower (kf / b) c) else amp / Rpower (1 + kf / b * (kf / b)) ((c + 1) / 2).
(* spatial frequency of row i, column j of an n x n array of spacing dk with zero frequency at n // 2 *)
Definition frequency (n : nat) (dk : R) (i j : nat) : R := sqrt (IZR (off n i) * IZR (off n i) + IZR (off n j) * IZR (off n j)) * dk.
(* ... and the documented density there, without piston *)
Definition density_at (n : nat) (dk : R) (tpf : bool) (amp b c : R) (i j : nat) : R :=
  if (Nat.eqb i (n / 2) && Nat.eqb j (n / 2))%bool then 0 else density tpf amp b c (frequency n dk i j).
(* component (p, q) of an array m, measured from its centre: sum of m(i, j) exp(2 pi i (p x + q y) / n), p and q from the centre as well *)
Definition component (n : nat) (m : nat -> nat -> R) (p q : nat) : C :=
  csum n (fun i => csum n (fun j => Cmult (RtoC (m i j)) (cis (2 * PI * (IZR (off n p) * IZR (off n i) + IZR (off n q) * IZR (off n j)) / INR n)))).
(* the index of the opposite frequency *)
Definition opposite (n p : nat) : nat := if Nat.eqb p 0 then 0 else (n - p)%nat.
(* neither kind of reshaping: no file to read, no angles *)
Definition fresh (file : option (option mapfile)) : Prop := match file with Some (Some _) => False | _ => True end.
Definition upright (k : pkeys) : Prop := p_rot k = None /\ p_inc k = None.
(* the frequency the code gives row i, column j under ROTATION and INCLINATION, as it is (in degrees; the second coordinate is turned from the first after it was turned): columns run along X, rows along Y *)
Definition turned_frequency (n : nat) (dk rot inc : R) (i j : nat) : R :=
  let X := IZR (off n j) in let Y := IZR (off n i) in let a := rot * PI / 180 in
  let along := X * cos a + Y * sin a in let across := (Y * cos a - along * sin a) * cos (inc * PI / 180) in sqrt (along * along + across * across) * dk.
Definition turned_density_at (n : nat) (dk rot inc : R) (tpf : bool) (amp b c : R) (i j : nat) : R :=
  if (Nat.eqb i (n / 2) && Nat.eqb j (n / 2))%bool then 0 else density tpf amp b c (turned_frequency n dk rot inc i j).
(* the angle of a keyword, 0 without it *)
Definition degrees (o : option R) : R := match o with None => 0 | Some d => d end.
