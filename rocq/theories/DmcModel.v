(* Model of propcustom_dm (falco/dm.py:202-475) and of the way gen_surf_from_act and gen_poke_cube place actuators *)
From Verif Require Import StrBase Base RBase CtrlModel UtilModel DmSurfModel CubModel.
Open Scope R_scope.
(* scipy.signal.fftconvolve(a, k, mode='same') as the exact convolution: full[t] = sum_s a[s] k[t-s], from index (len(k)-1)//2 on *)
Definition conv_same (a k : arr R) : arr R :=
  mkarr (nr a) (nc a) (fun Y X =>
    rsum (Z.to_nat (nr a)) (fun s => rsum (Z.to_nat (nc a)) (fun t =>
      px a (Z.of_nat s) (Z.of_nat t) * get0 k (Y - Z.of_nat s + (nr k - 1) / 2) (X - Z.of_nat t + (nc k - 1) / 2)))).
(* an interpolator: a grid and coordinates (x: columns, y: rows) to an array, row r, column k *)
Definition interpolator : Type := arr R -> coords -> nat -> nat -> R.
(* prop_cubic_conv(dm_grid.T, xdm, ydm, GRID=False) on one processor *)
Definition plain_cubic : interpolator := fun g c => cubic_conv Forder (nc g) (nr g) (fun X Y => px g Y X) c.
(* the influence-function file: map, pixel width (P2PDX_M) and pitch (C2CDX_M) of its header *)
Record inffile : Type := mkinf { i_map : arr R; i_pix : R; i_pitch : R }.
(* keywords of propcustom_dm; absent: None.  The file names and FIT are not modelled *)
Record dmkw : Type := mkkw { k_xyz : bool; k_zyx : bool; k_xtilt : option R; k_ytilt : option R; k_ztilt : option R; k_sign : option string; k_nact : option Z; k_noapply : bool }.
Definition opt0 (o : option R) : R := match o with Some x => x | None => 0 end.
(* falco/dm.py:315-322 *)
Definition sign_factor (o : option string) : res R :=
  match o with None => Ok 1 | Some s => if String.eqb s "+" then Ok 1 else if String.eqb s "-" then Ok (-1) else Raise NameError end.
(* falco/dm.py:420-434: entries of m; rows i, columns j *)
Definition tilt_m (XYZ : bool) (a b g : R) (i j : nat) : R :=
  let row (x y z : R) := match j with 0%nat => x | 1%nat => y | _ => z end in
  if XYZ then match i with
    | 0%nat => row (cos b * cos g) (- cos b * sin g) (sin b)
    | 1%nat => row (cos a * sin g + sin a * sin b * cos g) (cos a * cos g - sin a * sin b * sin g) (- sin a * cos b)
    | _ => row (sin a * sin g - cos a * sin b * cos g) (sin a * cos g + cos a * sin b * sin g) (cos a * cos b)
    end
  else match i with
    | 0%nat => row (cos b * cos g) (cos g * sin a * sin b - cos a * sin g) (cos a * cos g * sin b + sin a * sin g)
    | 1%nat => row (cos b * sin g) (cos a * cos g + sin a * sin b * sin g) (- cos g * sin a + cos a * sin b * sin g)
    | _ => row (- sin b) (cos b * sin a) (cos a * cos b)
    end.
(* falco/dm.py:438-442 *)
Definition edge (i j : nat) : R :=
  match j with
  | 0%nat => match i with 0%nat => -1 | 1%nat => 1 | 2%nat => 1 | _ => -1 end
  | 1%nat => match i with 0%nat => -1 | 1%nat => -1 | 2%nat => 1 | _ => 1 end
  | _ => 0
  end.
(* np.dot(edge, m) (443); the fourth coordinate is 0 *)
Definition new_xyz (m : nat -> nat -> R) (i j : nat) : R := rsum 3 (fun k => edge i k * m k j).
(* falco/dm.py:446-454: the point of the DM's own plane seen at (x, y) *)
Definition back_project (m : nat -> nat -> R) (x y : R) : R * R :=
  let n := new_xyz m in
  let dx_dxs := (n 0%nat 0%nat - n 1%nat 0%nat) / (edge 0 0 - edge 1 0) in
  let dx_dys := (n 1%nat 0%nat - n 2%nat 0%nat) / (edge 1 1 - edge 2 1) in
  let dy_dxs := (n 0%nat 1%nat - n 1%nat 1%nat) / (edge 0 0 - edge 1 0) in
  let dy_dys := (n 1%nat 1%nat - n 2%nat 1%nat) / (edge 1 1 - edge 2 1) in
  ((x / dx_dxs - y * dx_dys / (dx_dxs * dy_dys)) / (1 - dy_dxs * dx_dys / (dx_dxs * dy_dys)),
   (y / dy_dys - x * dy_dxs / (dx_dxs * dy_dys)) / (1 - dx_dys * dy_dxs / (dx_dxs * dy_dys))).
(* dmap[y0:y1, x0:x1] = v for 0 <= y0, 0 <= x0: slices are cut at n; NumPy broadcasts an axis of length 1 *)
Definition slice_len (n lo hi : Z) : Z := Z.max 0 (Z.min hi n - Z.min lo n).
Definition fits (v s : Z) : bool := ((v =? s) || (v =? 1))%Z%bool.
Definition put (n y0 y1 x0 x1 : Z) (v : arr R) : res (arr R) :=
  if (fits (nr v) (slice_len n y0 y1) && fits (nc v) (slice_len n x0 x1))%bool then
    Ok (mkarr n n (fun i j => if ((y0 <=? i) && (i <? Z.min y1 n) && (x0 <=? j) && (j <? Z.min x1 n))%Z%bool
      then px v (if (nr v =? 1)%Z then 0 else i - y0) (if (nc v =? 1)%Z then 0 else j - x0) else 0))
  else Raise ValueError.
(* grid size, sampling and beam radius of the wavefront (324-326) *)
Record wfgeom : Type := mkwf { w_n : Z; w_dx : R; w_beam : R }.
(* falco/dm.py:386-401: the actuators on the fine grid; xoff_grid *)
Definition margin (mag : Z) : Z := (9 * mag)%Z.
Definition off_grid (mag : Z) : Z := (margin mag + mag / 2)%Z.
Definition act_grid (mag : Z) (z : arr R) : arr R :=
  mkarr (nr z * mag + 2 * margin mag)%Z (nc z * mag + 2 * margin mag)%Z (fun Y X =>
    let y := (Y - off_grid mag)%Z in let x := (X - off_grid mag)%Z in
    if ((y mod mag =? 0) && (x mod mag =? 0) && (0 <=? y / mag) && (y / mag <? nr z) && (0 <=? x / mag) && (x / mag <? nc z))%Z%bool
    then px z (y / mag) (x / mag) else 0).
(* falco/dm.py:203-475 from a command array; transposed: whether grid has shape (xdim, ydim), as after the reshape of line 461.
   Returns the surface map; prop_add_phase (473) is not modelled *)
Definition propcustom_dm (itp : interpolator) (transposed : bool) (w : wfgeom) (z : arr R) (xc yc spacing : R) (f : inffile) (k : dmkw) : res (arr R) :=
  if (k_zyx k && k_xyz k)%bool then Raise ValueError
  else
    let XYZ := negb (k_zyx k) in
    do sg <- sign_factor (k_sign k);
    let inf := mkarr (nr (i_map f)) (nc (i_map f)) (fun i j => sg * px (i_map f) i j) in
    let ratio := i_pitch f / i_pix f in
    let mag := ZnearestE ratio in
    if Rlt_dec (1 / 10 ^ 8) (Rabs (IZR mag - ratio)) then Raise ValueError
    else
      do dx_dm <- match k_nact k with
        | Some m => if Req_EM_T spacing 0 then (if (m =? 0)%Z then Raise ZeroDivisionError else Ok (2 * w_beam w / IZR m)) else Raise ValueError
        | None => if Req_EM_T spacing 0 then Raise ValueError else Ok spacing
        end;
      let dx_inf := i_pix f * dx_dm / i_pitch f in
      let grid0 := conv_same (act_grid mag z) inf in
      let side := fun m : Z => Z.min (ZnearestE (sqrt 2 * IZR m * dx_inf / w_dx w)) (w_n w) in
      let xd := side (nc grid0) in let yd := side (nr grid0) in
      let rad := fun t => opt0 t * PI / 180 in
      let m := tilt_m XYZ (rad (k_xtilt k)) (rad (k_ytilt k)) (rad (k_ztilt k)) in
      let at_pix := fun (r c : nat) => back_project m (IZR (Z.of_nat c - xd / 2) * w_dx w) (IZR (Z.of_nat r - yd / 2) * w_dx w) in
      let xdm := fun r c => (fst (at_pix r c) + xc * dx_dm) / dx_inf + IZR (off_grid mag) in
      let ydm := fun r c => (snd (at_pix r c) + yc * dx_dm) / dx_inf + IZR (off_grid mag) in
      let g := itp grid0 (Points (Z.to_nat xd) (Z.to_nat yd) xdm ydm) in
      let grid := if transposed then mkarr xd yd (fun i j => g (Z.to_nat ((i * yd + j) / xd)) (Z.to_nat ((i * yd + j) mod xd)))
                  else mkarr yd xd (fun i j => g (Z.to_nat i) (Z.to_nat j)) in
      let y0 := (w_n w / 2 - yd / 2)%Z in let x0 := (w_n w / 2 - xd / 2)%Z in
      put (w_n w) y0 (y0 + nc grid)%Z x0 (x0 + nr grid)%Z grid.
(* ---- where actuators are placed ---- *)
(* falco/dm.py:53-59: gen_surf_from_act's shift of the centre, in actuators *)
Definition cshift (interpixel : bool) (nout dx spacing : R) : R := if interpixel then - (nout * dx) / 2 / nout / spacing else 0.
(* falco/dm.py:552-553, 569-599, 635-639: gen_poke_cube's actuator centre, in actuator widths; row a, column b of the grid *)
Definition poke_center (XYZ : bool) (xtilt ytilt zrot xc yc : R) (a b : Z) : R * R :=
  rot_xy XYZ (xtilt * PI / 180) (ytilt * PI / 180) (- zrot * PI / 180) (IZR b - xc) (IZR a - yc).
(* falco/dm.py:769-776, 789-791: where, along one axis, the influence function is sampled at array index idx for an actuator at x
   (actuator widths): index idx is pixel idx - lower left of the stamp *)
Definition stamp_sample (x spacing dx : R) (ndmpad nbox : Z) (idx : R) : R :=
  let inPix := x * (spacing / dx) + / 2 in
  let box := IZR (ZnearestE inPix) in
  let p := idx - (box + (IZR ndmpad - IZR nbox) / 2) in
  (p - (IZR nbox - 1) / 2) * dx - (inPix - box) * dx.
