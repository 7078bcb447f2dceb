(* Specification vocabulary for PROPER's ellipses and the masks made of them (C101) *)
From Verif Require Import Base StrBase RBase CBase PropModel PrpModel ApModel.
Open Scope R_scope.
(* sample k of nsub (odd) across pixel j of n, from the centre of the wavefront, pixel n / 2; lengths in units of the sampling dx *)
Definition sample (n nsub : nat) (dx : R) (j : Z) (k : nat) : R := (IZR j - INR (n / 2) + (INR k - (INR nsub - 1) / 2) / INR nsub) * dx.
(* the point X, Y (X along the columns, Y along the rows) is in the ellipse centred at xc, yc with semi-axes xr, yr, turned by rot degrees
   from +y towards +x; scaled: tol = 1 is the ellipse itself *)
Definition inside (tol xr yr xc yc rot X Y : R) : Prop :=
  let t := rot * PI / 180 in
  let u := cos t * (X - xc) - sin t * (Y - yc) in
  let v := sin t * (X - xc) + cos t * (Y - yc) in
  (u / xr) ^ 2 + (v / yr) ^ 2 <= tol.
Definition inside_dec tol xr yr xc yc rot X Y : {inside tol xr yr xc yc rot X Y} + {~ inside tol xr yr xc yc rot X Y}.
Proof. apply Rle_dec. Defined.
(* fraction of the nsub x nsub samples of pixel [i, j] that are inside; i and j may be outside of the array *)
Definition coverage (n nsub : nat) (dx tol xr yr xc yc rot : R) (i j : Z) : R :=
  INR (length (filter (fun kl => if inside_dec tol xr yr xc yc rot (sample n nsub dx j (fst kl)) (sample n nsub dx i (snd kl)) then true else false)
    (list_prod (seq 0 nsub) (seq 0 nsub)))) / (INR nsub * INR nsub).
(* the code takes points up to 1 + 1e-10 for inside *)
Definition covers (n nsub : nat) (dx xr yr xc yc rot : R) (v : R) (i j : Z) : Prop :=
  coverage n nsub dx 1 xr yr xc yc rot i j <= v <= coverage n nsub dx (1 + / 10 ^ 10) xr yr xc yc rot i j.
(* lengths are multiplied by the beam radius with NORM *)
Definition len (w : wavefront) (norm : bool) (x : R) : R := if norm then x * get_beamradius w else x.
(* the ellipse meets the square between the outermost pixel centres *)
Definition meets_grid (n : nat) (dx xr yr xc yc rot : R) : Prop :=
  exists X Y, inside 1 xr yr xc yc rot X Y /\ 
    - INR (n / 2) * dx <= X <= (INR n - 1 - INR (n / 2)) * dx /\ - INR (n / 2) * dx <= Y <= (INR n - 1 - INR (n / 2)) * dx.
Definition square_w (w : wavefront) : Prop := frows (w_arr w) = w_n w /\ fcols (w_arr w) = w_n w.
(* field at row i, column j counted from the top left with the centre of the wavefront at n / 2 *)
Definition centred (w : wavefront) (i j : nat) : C := fpx (shift_center (w_arr w)) i j.
(* ---- the masks of FALCO; lengths in lambda/D, 1 / n_res the width of a pixel ---- *)
Definition valid_centering (s : string) : Prop := s = "pixel"%string \/ s = "interpixel"%string.
(* the centre of an array: pixel N/2, or the corner below and left of it *)
Definition half_pixel (centering : string) (dx : R) : R := if String.eqb centering "interpixel" then - (dx / 2) else 0.
Definition rho_max (p : annular) : R := match n_out p with Some r => r | None => n_in p end.
Definition largest_offset (p : annular) : R := Rmax (Rabs (n_xo p)) (Rabs (n_yo p)).
Definition between_pixels (n : nat) (dx x : R) : Prop := - INR (n / 2) * dx <= x <= (INR n - 1 - INR (n / 2)) * dx.
(* the least even size that is enough for a disc of radius rho with the offsets, with one pixel more when pixel-centred *)
Definition least_even (x : R) (z : Z) : Prop := (exists k, z = 2 * k)%Z /\ x <= IZR z /\ forall m, (exists k, m = 2 * k)%Z -> x <= IZR m -> (z <= m)%Z.
Definition default_size (p : annular) (N : nat) : Prop :=
  least_even (2 * (rho_max p + largest_offset p) * n_res p + (if String.eqb (n_centering p) "pixel" then 1 else 0)) (Z.of_nat N).
Definition in_array (n : nat) (i j : Z) : Prop := (0 <= i < Z.of_nat n)%Z /\ (0 <= j < Z.of_nat n)%Z.
