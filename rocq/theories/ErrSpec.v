(* Specification vocabulary for C98 *)
From Verif Require Import Base StrBase RBase CtrlModel UtilModel DmSurfModel CubModel CubProps DmcModel CBase PropModel OptModel PrpModel ErrModel.
Open Scope R_scope.
(* an interpolation that is exact at pixels, two pixels from the first border and one from the last: at x = X, y = Y it gives row Y, column X *)
Definition grid_exact (ip : interpolator) : Prop := forall g n xv yv r k X Y, (r < n)%nat -> (k < n)%nat -> xv k = IZR X -> yv r = IZR Y ->
  (2 <= X <= nc g - 2)%Z -> (2 <= Y <= nr g - 2)%Z -> ip g (Axes n n xv yv) r k = px g Y X.
(* ... for a row of points that are all pixels *)
Definition row_exact (ip : interpolator) : Prop := forall g n xv yv k X Y, (k < n)%nat -> (forall i, (i < n)%nat -> exists a b, xv 0%nat i = IZR a /\ yv 0%nat i = IZR b) ->
  xv 0%nat k = IZR X -> yv 0%nat k = IZR Y -> (2 <= X <= nc g - 2)%Z -> (2 <= Y <= nr g - 2)%Z -> ip g (Points n 1 xv yv) 0%nat k = px g Y X.
(* ... exact for maps that are quadratic in x and y *)
Definition grid_quadratic (ip : interpolator) : Prop := forall g c n xv yv r k, (r < n)%nat -> (k < n)%nat -> (forall Y X, px g Y X = biquadratic c (IZR X) (IZR Y)) ->
  (2 <= roundval (xv k) < nc g - 2)%Z -> (2 <= roundval (yv r) < nr g - 2)%Z -> ip g (Axes n n xv yv) r k = biquadratic c (xv k) (yv r).
(* a wavefront whose array has its own size *)
Definition square_wf (w : wavefront) : Prop := frows (w_arr w) = w_n w /\ fcols (w_arr w) = w_n w.
(* neither amplitude map, rotation nor magnification; one unit; the kind of map is given *)
Definition plain_keys (k : ekeys) : Prop := e_amp k = false /\ (e_nm k && e_um k = false)%bool /\ e_rot k = None /\ e_mag k = None /\ (e_mirror k || e_wave k = true)%bool.
(* metres of optical path per number in the file *)
Definition path_factor (k : ekeys) : R :=
  (if e_mirror k then -2 else 1) * (if e_um k then 1 / 10 ^ 6 else if e_nm k then 1 / 10 ^ 9 else 1) * match e_mul k with Some a => a | None => 1 end.
Definition unit_factor (k : ekeys) : R := (if e_um k then 1 / 10 ^ 6 else if e_nm k then 1 / 10 ^ 9 else 1) * match e_mul k with Some a => a | None => 1 end.
(* pixel i of an array of n, counted from the centre *)
Definition off (n i : nat) : Z := (Z.of_nat i - Z.of_nat (n / 2))%Z.
(* the pixel width a call uses: RADPIX of the file before SAMPLING of the call before PIXSIZE of the file *)
Definition pixel_width (w : wavefront) (f : mapfile) (k : ekeys) : option R :=
  match m_radpix f with Some r => Some (get_beamradius w / r) | None => match e_sam k with Some p => Some p | None => m_pixsize f end end.
(* the pixel of the map that comes to the centre of the wavefront *)
Definition centre_is (f : mapfile) (k : ekeys) (cx cy : R) : Prop :=
  match e_xc k, e_yc k with Some x, Some y => cx = x /\ cy = y | None, None => cx = IZR (nr (m_data f) / 2) /\ cy = IZR (nc (m_data f) / 2) | _, _ => False end.
(* counter-clockwise quarter turns of (x, y) *)
Fixpoint turn (q : nat) (p : Z * Z) : Z * Z := match q with O => p | S q => let '(x, y) := turn q p in ((- y)%Z, x) end.
