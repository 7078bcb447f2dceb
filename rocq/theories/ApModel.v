(* Model of PROPER's antialiased ellipses, circular and elliptical apertures and obscurations, and of the annular focal plane masks
   and DM stops that FALCO makes of them.  Real arithmetic *)
From Verif Require Import Base StrBase RBase CtrlModel UtilModel CBase PropModel OptModel PrpModel.
Open Scope R_scope.
(* arguments of prop_ellipse: radii, centre, ROTATION in degrees (0 without it), NORM; DARK *)
Record epar : Type := mkep { a_xr : R; a_yr : R; a_xc : R; a_yc : R; a_rot : R; a_norm : bool; a_dark : bool }.
Definition min4 (f : nat -> R) : R := Rmin (Rmin (f 0%nat) (f 1%nat)) (Rmin (f 2%nat) (f 3%nat)).
Definition max4 (f : nat -> R) : R := Rmax (Rmax (f 0%nat) (f 1%nat)) (Rmax (f 2%nat) (f 3%nat)).
(* np.clip(x, 0, n - 1) *)
Definition clipz (n : nat) (x : Z) : Z := Z.min (Z.max x 0) (Z.of_nat n - 1).
(* falco/proper/prop_ellipse.py:63-77: centre and radii in pixels *)
Definition to_pix (w : wavefront) (norm : bool) (x : R) : R := if norm then x * (get_beamradius w / get_sampling w) else x / get_sampling w.
Definition cpix (w : wavefront) (norm : bool) (x : R) : R := INR (w_n w / 2) + to_pix w norm x.
(* falco/proper/prop_ellipse.py:79-93: corners of the turned box *)
Definition corner_x (k : nat) (xr : R) : R := match k with 0%nat => - xr | 1%nat => xr | 2%nat => xr | _ => - xr end.
Definition corner_y (k : nat) (yr : R) : R := match k with 0%nat => - yr | 1%nat => - yr | 2%nat => yr | _ => yr end.
Definition xbox (xr yr t xc : R) (k : nat) : R := corner_x k xr * cos t - corner_y k yr * sin t + xc.
Definition ybox (xr yr t yc : R) (k : nat) : R := corner_x k xr * sin t + corner_y k yr * cos t + yc.
(* falco/proper/prop_ellipse.py:97-103, 140-143: the two coordinates in the frame of the ellipse *)
Definition exr (xr t x y : R) : R := (x * cos t - y * sin t) / xr.
Definition eyr (yr t x y : R) : R := (x * sin t + y * cos t) / yr.
(* falco/proper/prop_ellipse.py:128-144: fraction of the nsub x nsub points of pixel [i, j] that are inside *)
Definition sub_off (nsub k : nat) : R := (INR k - INR (nsub / 2)) / INR nsub.
Definition edge_px (nsub : nat) (xr yr t xc yc : R) (i j : nat) : R :=
  rsum nsub (fun l => rsum nsub (fun k =>
    let xs := sub_off nsub k + (INR j - xc) in let ys := sub_off nsub l + (INR i - yc) in
    if Rle_dec (exr xr t xs ys * exr xr t xs ys + eyr yr t xs ys * eyr yr t xs ys) (1 + / 10 ^ 10) then 1 else 0)) / (INR nsub * INR nsub).
(* falco/proper/prop_ellipse.py:107-121 *)
Definition edge_width (xr yr t : R) : R :=
  let drx := 1 / xr * cos t - 1 / yr * sin t in let dry := 1 / xr * sin t + 1 / yr * cos t in Rmax (Rabs drx) (Rabs dry).
Definition mask_px (nsub : nat) (xr yr t xc yc : R) (i j : nat) : R :=
  let x := INR j - xc in let y := INR i - yc in
  let r := sqrt (exr xr t x y * exr xr t x y + eyr yr t x y * eyr yr t x y) in
  let dr := edge_width xr yr t in
  if Rle_dec r (1 - dr) then 1 else if Rlt_dec (1 + dr) r then 0 else edge_px nsub xr yr t xc yc i j.
(* falco/proper/prop_ellipse.py:13-156.  nsub: proper.antialias_subsampling.  r[0, 1] and r[1, 0] need two columns and two rows (104-105).
   With NORM the radii are numpy's, and a zero radius gives nan and not an exception: not modelled *)
Definition prop_ellipse (nsub : nat) (w : wavefront) (p : epar) : res (field R) :=
  let n := w_n w in
  if Req_EM_T (get_sampling w) 0 then Raise ZeroDivisionError
  else
    let xc := cpix w (a_norm p) (a_xc p) in let yc := cpix w (a_norm p) (a_yc p) in
    let xr := to_pix w (a_norm p) (a_xr p) in let yr := to_pix w (a_norm p) (a_yr p) in
    let t := a_rot p * PI / 180 in
    let minx := clipz n (ZnearestE (min4 (xbox xr yr t xc)) - 1) in
    let maxx := clipz n (ZnearestE (max4 (xbox xr yr t xc)) + 1) in
    let miny := clipz n (ZnearestE (min4 (ybox xr yr t yc)) - 1) in
    let maxy := clipz n (ZnearestE (max4 (ybox xr yr t yc)) + 1) in
    if (maxx - minx + 1 <? 2)%Z then Raise IndexError
    else if (maxy - miny + 1 <? 2)%Z then Raise IndexError
    else if Req_EM_T xr 0 then Raise ZeroDivisionError
    else if Req_EM_T yr 0 then Raise ZeroDivisionError
    else
      let bx i j := ((minx <=? Z.of_nat j) && (Z.of_nat j <=? maxx) && (miny <=? Z.of_nat i) && (Z.of_nat i <=? maxy))%Z%bool in
      Ok (mkf n n (fun i j =>
        if a_dark p then (if bx i j then 1 - mask_px nsub xr yr t xc yc i j else 1)
        else (if bx i j then mask_px nsub xr yr t xc yc i j else 0))).
(* wf.wfarr *= prop_shift_center(mask) *)
Definition times_mask (w : wavefront) (m : field R) : res wavefront := do E <- imul (w_arr w) (shift_center (fmap RtoC m)); Ok (set_arr w E).
(* falco/proper/prop_elliptical_aperture.py:46-56, prop_circular_aperture.py:40-44 (xr = yr, no rotation) *)
Definition elliptical_aperture (nsub : nat) (w : wavefront) (xr yr xc yc rot : R) (norm : bool) : res wavefront :=
  do m <- prop_ellipse nsub w (mkep xr yr xc yc rot norm false); times_mask w m.
Definition circular_aperture (nsub : nat) (w : wavefront) (r xc yc : R) (norm : bool) : res wavefront :=
  do m <- prop_ellipse nsub w (mkep r r xc yc 0 norm false); times_mask w m.
(* falco/proper/prop_elliptical_obscuration.py:46-56, prop_circular_obscuration.py:40-43 *)
Definition elliptical_obscuration (nsub : nat) (w : wavefront) (xr yr xc yc rot : R) (norm : bool) : res wavefront :=
  do m <- prop_ellipse nsub w (mkep xr yr xc yc rot norm true); times_mask w m.
Definition circular_obscuration (nsub : nat) (w : wavefront) (r xc yc : R) (norm : bool) : res wavefront :=
  do m <- prop_ellipse nsub w (mkep r r xc yc 0 norm true); times_mask w m.
(* np.abs of the wavefront's array, shifted to the centre *)
Definition amplitude (w : wavefront) : field R :=
  roll2 (- half (frows (w_arr w))) (- half (fcols (w_arr w))) (mkf (frows (w_arr w)) (fcols (w_arr w)) (fun i j => Cmod (fpx (w_arr w) i j))).
(* inputs of gen_annular_fpm; rhoOuter: None is np.inf; Narray: None without the key *)
Record annular : Type := mkan { n_res : R; n_in : R; n_out : option R; n_xo : R; n_yo : R; n_centering : string; n_amp : R; n_narray : option nat }.
(* falco/mask.py:851-876 *)
Definition annular_size (p : annular) (rho : R) : res nat :=
  let dx := 1 / n_res p in let o := Rmax (Rabs (n_xo p)) (Rabs (n_yo p)) in
  if String.eqb (n_centering p) "interpixel" then Ok (Z.to_nat (ceil_even (2 * rho / dx + 2 * o / dx)))
  else if String.eqb (n_centering p) "pixel" then Ok (Z.to_nat (ceil_even (2 * rho / dx + 2 * o / dx + 1)))
  else match n_narray p with Some n => Ok n | None => Raise NameError end.
(* falco/mask.py:824-906.  Dmask is in pixels and Darray in lambda/D: the ratio only has to make the sampling dx *)
Definition gen_annular_fpm (p : annular) : res (field R) :=
  let rho := match n_out p with Some r => r | None => n_in p end in
  if Req_EM_T (n_res p) 0 then Raise ZeroDivisionError
  else
    do nd <- annular_size p rho;
    let N := match n_narray p with Some n => n | None => nd end in
    let dx := 1 / n_res p in let dmask := 2 * n_res p * rho in let darray := INR N * dx in
    if Req_EM_T darray 0 then Raise ZeroDivisionError
    else
      let cs := if String.eqb (n_centering p) "interpixel" then - darray / 2 / INR N else 0 in
      do w <- prop_begin dmask (/ 1000000) N (dmask / darray);
      do w1 <- (match n_out p with Some r => circular_aperture 101 w r (0 + cs + n_xo p) (0 + cs + n_yo p) false | None => Ok w end);
      do s <- prop_ellipse 101 w1 (mkep (n_in p) (n_in p) (0 + cs + n_xo p) (0 + cs + n_yo p) 0 false true);
      let m := amplitude w1 in
      Ok (mkf (frows m) (fcols m) (fun i j => fpx m i j * (fpx s i j * (1 - n_amp p) + n_amp p))).
(* falco/mask.py:13-28, 30-65.  nsub: whatever the last prop_set_antialiasing left, 11 at first *)
Definition gen_dm_stop (nsub : nat) (dx diam : R) (centering : string) : res (field R) :=
  if Rle_dec dx 0 then Raise TypeError
  else if Rle_dec diam 0 then Raise TypeError
  else if negb (String.eqb centering "pixel" || String.eqb centering "interpixel")%bool then Raise ValueError
  else
    let N := Z.to_nat (ceil_even (diam / dx + (if String.eqb centering "pixel" then 1 / 2 else 0))) in
    do w <- prop_begin (INR N * dx) (/ 1000000) N 1;
    let cs := - dx / 2 * (if String.eqb centering "interpixel" then 1 else 0) in
    do w1 <- circular_aperture nsub w (diam / 2) cs cs false;
    Ok (amplitude w1).
