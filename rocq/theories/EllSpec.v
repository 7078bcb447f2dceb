(* Specification vocabulary for antialiased ellipses (C82) *)
From Verif Require Import Base RBase StrBase CBase PropModel EllModel.
Open Scope R_scope.
(* Positions are in beam diameters, x to the right along the columns, y along the rows, from the centre of the array: pixel N/2 of
   N when pixel-centred, between the two middle pixels when interpixel-centred *)
Definition px_pos (e : ell) (k : nat) : R :=
  (INR k - (if String.eqb (e_centering e) "pixel" then INR (e_narray e) / 2 else (INR (e_narray e) - 1) / 2)) / e_nbeam e.
(* the point (x, y) is in the ellipse with centre (xShear, yShear) and semi-axes m*radiusX and m*radiusY, turned by the clocking *)
Definition in_ellipse (e : ell) (m x y : R) : Prop :=
  let a := PI * e_clock e / 180 in
  let u := cos a * (x - e_xs e) + sin a * (y - e_ys e) in
  let v := - sin a * (x - e_xs e) + cos a * (y - e_ys e) in
  (u / (m * e_rx e)) ^ 2 + (v / (m * e_ry e)) ^ 2 <= 1.
(* sample s of 101 across a pixel, in beam diameters from its centre *)
Definition sub_pos (e : ell) (s : nat) : R := (INR s - 50) / (101 * e_nbeam e).
(* how many of the 101 x 101 samples (s, t) of pixel [i, j] satisfy P x y *)
Definition hits (e : ell) (P : R -> R -> Prop) (dec : forall x y, {P x y} + {~ P x y}) (i j : nat) : nat :=
  length (filter (fun st => if dec (px_pos e j + sub_pos e (fst st)) (px_pos e i + sub_pos e (snd st)) then true else false)
                 (list_prod (seq 0 101) (seq 0 101))).
Definition in_ellipse_dec (e : ell) (m x y : R) : {in_ellipse e m x y} + {~ in_ellipse e m x y}.
Proof. apply Rle_dec. Defined.
(* fraction of the pixel [i, j] covered by the ellipse, to within the 101 x 101 samples *)
Definition coverage (e : ell) (m : R) (i j : nat) : R := INR (hits e (in_ellipse e m) (in_ellipse_dec e m) i j) / 10201.
Definition valid_centering (e : ell) : Prop := e_centering e = "pixel"%string \/ e_centering e = "interpixel"%string.
(* usual arguments *)
Record proper_ell (e : ell) : Prop := { pe_c : valid_centering e; pe_n : (2 <= e_narray e)%nat; pe_b : 0 < e_nbeam e;
  pe_rx : 0 < e_rx e; pe_ry : 0 < e_ry e; pe_m : 0 < e_mag e }.
(* the grid is wide enough, measured from the centre of the ellipse at the centre of the first pixel: for circles 50.5 pixels in one
   direction are enough; for ellipses along the axes, 50.5 pixels along the shorter axis, and not more along the longer one *)
Definition well_framed (e : ell) : Prop :=
  let x0 := Rabs (px_pos e 0 - e_xs e) in let y0 := Rabs (px_pos e 0 - e_ys e) in let d := / e_nbeam e in
  (e_rx e = e_ry e /\ (101/2 * d <= x0 \/ 101/2 * d <= y0)) \/
  (e_clock e = 0 /\ e_rx e <= e_ry e /\ 101/2 * d <= x0 /\ y0 <= x0) \/
  (e_clock e = 0 /\ e_ry e <= e_rx e /\ 101/2 * d <= y0 /\ x0 <= y0).
