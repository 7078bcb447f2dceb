(* Specification vocabulary for C99 *)
From Verif Require Import Base StrBase RBase CtrlModel UtilModel DmSurfModel CubModel DmcModel CBase PropModel OptModel ErrModel MagModel.
Open Scope R_scope.
(* sin(pi t) / (pi t) *)
Definition sinc (t : R) : R := if Req_EM_T t 0 then 1 else sin (PI * t) / (PI * t).
(* Lanczos' kernel, half width 6 *)
Definition lanczos6 (t : R) : R := if Rlt_dec (Rabs t) 6 then sinc t * sinc (t / 6) else 0.
(* the place in an image of n pixels that pixel i of an image of m, magnified by mag, shows; the centres n // 2 and m // 2 correspond *)
Definition place (n m : nat) (mag : R) (i : nat) : R := INR (n / 2) + (INR i - INR (m / 2)) / mag.
(* the image read at row y, column x: every pixel, weighted by the kernel *)
Definition read_at (im : field R) (y x : R) : R := rsum (frows im) (fun a => rsum (fcols im) (fun b => lanczos6 (INR a - y) * lanczos6 (INR b - x) * fpx im a b)).
(* what the keywords divide by *)
Definition divisor (k : mkeys) (complexes : bool) (mag : R) : R := match m_cons k, m_amp k, complexes with true, _, false => mag * mag | true, _, true => mag | false, true, _ => mag | false, false, _ => 1 end.
Definition square (im : field R) (n : nat) : Prop := frows im = n /\ fcols im = n.
(* a place whose 13 x 13 surroundings lie in the image for either rounding, and one for which they do for neither *)
Definition inner (n : nat) (p : R) : Prop := 7 <= p <= INR n - 8.
Definition outer (n : nat) (p : R) : Prop := p < 5 \/ INR n - 6 < p.
