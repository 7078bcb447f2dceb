(* Specification vocabulary for the eighth-order occulter (C105) *)
From Verif Require Import Base RBase CBase PropModel PrpModel ApModel ApSpec OctModel.
Open Scope R_scope.
(* sin(u) / u *)
Definition sinc1 (u : R) : R := if Req_EM_T u 0 then 1 else sin u / u.
(* amplitude of the ideal occulter at rho half widths from its centre: 2/3 - sinc(a rho)^3 + sinc(3 a rho)/3 where 3 a = 1.788 pi *)
Definition ideal (rho : R) : R := let u := PI * (1788 / 1000) / 3 * rho in 2 / 3 - sinc1 u ^ 3 + sinc1 (3 * u) / 3.
(* the half width in metres, from lambda / D without METERS *)
Definition half_width (w : wavefront) (hwhm : R) (k : okeys) : R := if k_meters k then hwhm else hwhm * (w_fratio w * w_lam w).
(* distance in pixels of row i, column j from the middle n / 2 of the grid (half-way between pixels if n is odd): to the column or row
   through it, to it, or along ellipses (heights q times their widths) *)
Definition away (n : nat) (k : okeys) (i j : nat) : R :=
  let x := INR j - INR n / 2 in let y := INR i - INR n / 2 in
  if k_circ k then sqrt (x * x + y * y) else
  match k_ell k with Some q => sqrt (x * x + y / q * (y / q)) | None => if k_yaxis k then Rabs y else Rabs x end.
(* distance in half widths, and the ideal intensity there *)
Definition rho_at (w : wavefront) (hwhm : R) (k : okeys) (i j : nat) : R := away (w_n w) k i j * w_dx w / half_width w hwhm k.
Definition ideal_at (w : wavefront) (hwhm : R) (k : okeys) (i j : nat) : R := ideal (rho_at w hwhm k i j) * ideal (rho_at w hwhm k i j).
(* arguments that make sense *)
Definition sound (w : wavefront) (hwhm : R) (k : okeys) : Prop :=
  0 < w_dx w /\ 0 < w_fratio w * w_lam w /\ 0 < hwhm /\ (k_circ k = false -> k_ell k <> Some 0).
(* pixel (p, q) is where f is largest on an n x n array *)
Definition largest (n : nat) (f : nat -> nat -> R) (p q : nat) : Prop := (p < n)%nat /\ (q < n)%nat /\ forall i j, (i < n)%nat -> (j < n)%nat -> f i j <= f p q.
Definition smallest (n : nat) (f : nat -> nat -> R) (p q : nat) : Prop := (p < n)%nat /\ (q < n)%nat /\ forall i j, (i < n)%nat -> (j < n)%nat -> f p q <= f i j.
