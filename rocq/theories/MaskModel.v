(* Model of falco/mask.py falco_gen_SW_mask and of falco/setup.py falco_configure_dark_hole_region. *)
From Verif Require Import Base RBase StrBase UtilModel.
From Verif Require EstModel.
Open Scope R_scope.

(* np.radians *)
Definition radians (d : R) : R := d * PI / 180.
(* np.angle(np.exp(1j*t)) *)
Definition wrapped (t : R) : R := EstModel.atan2 (sin t) (cos t).
(* np.finfo(float).eps *)
Definition eps : R := / 2 ^ 52.

(* the "inputs" dictionary: None is a missing key *)
Record sw_in : Type := mksw {
  pixresFP : R; rhoInner : R; rhoOuter : R; angDeg : R; whichSide : string;
  centering : option string; shape : option string; clockAngDeg : option R; FOV : option R;
  xiOffset : option R; etaOffset : option R; xiFOV : option R; etaFOV : option R;
  Nxi : option Z; Neta : option Z }.
Definition dget {A} (o : option A) (d : A) : A := match o with Some x => x | None => d end.   (* inputs.get(key, d) *)

Local Open Scope string_scope.
(* falco/mask.py:643-654: angle of the chosen side; None is the ValueError *)
Definition side_angle (s : string) : option R :=
  if str_in s ["r"; "right"; "lr"; "rl"; "leftright"; "rightleft"; "both"] then Some 0
  else if str_in s ["l"; "left"] then Some PI
  else if str_in s ["t"; "top"; "u"; "up"; "tb"; "bt"; "ud"; "du"; "topbottom"; "bottomtop"; "updown"; "downup"] then Some (PI / 2)
  else if str_in s ["b"; "bottom"; "d"; "down"] then Some (3 / 2 * PI)
  else None.
(* falco/mask.py:702-703 *)
Definition two_sided (s : string) : bool :=
  str_in s ["both"; "lr"; "rl"; "leftright"; "rightleft"; "tb"; "bt"; "ud"; "du"; "topbottom"; "bottomtop"; "updown"; "downup"].

(* falco/mask.py:663-698: the shape test on one pixel; c = clockAngRad, ri/ro the widened radii *)
Definition shape_test (sh : string) (rho th c ri ro : R) : option bool :=
  let xr := rho * cos (th - c) in
  let yr := rho * sin (th - c) in
  if str_in sh ["circle"; "annulus"] then Some (Rle_bool ri rho && Rle_bool rho ro)
  else if str_in sh ["square"] then
    Some (((Rle_bool xr ro && Rle_bool (- ro) xr && Rle_bool yr ro && Rle_bool (- ro) yr)
           || (Rle_bool (- ro) xr && Rle_bool xr ro && Rle_bool yr ro && Rle_bool (- ro) yr)) && Rle_bool ri rho)
  else if str_in sh ["rect"; "rectangle"] then
    Some ((Rle_bool ri xr && Rle_bool xr ro && Rle_bool yr ro && Rle_bool (- ro) yr)
          || (Rle_bool xr (- ri) && Rle_bool (- ro) xr && Rle_bool yr ro && Rle_bool (- ro) yr))
  else if str_in sh ["d"] then Some ((Rle_bool ri xr || Rle_bool xr (- ri)) && Rle_bool rho ro)
  else None.
(* falco/mask.py:700, 704-705 *)
Definition sector_test (th c ang : R) : bool := Rle_bool (Rabs (wrapped (th - c))) (ang / 2).

(* falco/mask.py:613-616 *)
Definition max_extent (sh : string) (clk : R) : R :=
  if str_in sh ["square"; "rect"; "rectangle"] then Rmax 1 (2 * Rabs (cos (radians clk))) else 1.
(* falco/mask.py:621-628: default array size on one axis *)
Definition default_size (inter : bool) (minFOV res : R) : Z :=
  if inter then ceil_even (2 * minFOV * res) else ceil_even (2 * (minFOV * res + 1 / 2)).
(* falco/mask.py:632-638: coordinate k of an axis of N samples (np.arange in exact arithmetic) *)
Definition sw_axis (inter : bool) (N : Z) (d : R) (k : Z) : R :=
  if inter then (- ((IZR N - 1) / 2) + IZR k) * d else (- (IZR N / 2) + IZR k) * d.

Record sw_out : Type := mkswo { sw_mask : arr bool; sw_xis : Z -> R; sw_etas : Z -> R }.

(* falco/mask.py:566-711 *)
Definition falco_gen_SW_mask (p : sw_in) : res sw_out :=
  let cen := dget (centering p) "pixel" in
  if negb (str_in cen ["pixel"; "interpixel"]) then Raise ValueError else
  let inter := String.eqb cen "interpixel" in
  let sh := lower (dget (shape p) "circle") in
  let clk := dget (clockAngDeg p) 0 in
  let fov := dget (FOV p) (rhoOuter p) in
  let xo := dget (xiOffset p) 0 in
  let eo := dget (etaOffset p) 0 in
  let ext := max_extent sh clk in
  let minxi := dget (xiFOV p) (ext * fov + Rabs xo) in
  let mineta := dget (etaFOV p) (ext * fov + Rabs eo) in
  let nx := dget (Nxi p) (default_size inter minxi (pixresFP p)) in
  let ne := dget (Neta p) (default_size inter mineta (pixresFP p)) in
  if Req_EM_T (pixresFP p) 0 then Raise ZeroDivisionError else
  let xis := sw_axis inter nx (1 / pixresFP p) in
  let etas := sw_axis inter ne (1 / pixresFP p) in
  match side_angle (whichSide p) with
  | None => Raise ValueError
  | Some c0 =>
    let c := c0 + radians clk in
    let ri := rhoInner p - 13 * eps in
    let ro := rhoOuter p + 13 * eps in
    match shape_test sh 0 0 0 0 0 with
    | None => Raise ValueError
    | Some _ =>
      Ok (mkswo (mkarr (Z.max 0 ne) (Z.max 0 nx) (fun i j =>
            let x := xis j - xo in
            let y := etas i - eo in
            let rho := sqrt (x * x + y * y) in
            let th := EstModel.atan2 y x in
            match shape_test sh rho th c ri ro with
            | None => false
            | Some m0 => (m0 && sector_test th c (radians (angDeg p)))
                         || (two_sided (whichSide p) && (m0 && sector_test th (c + PI) (radians (angDeg p))))
            end)) xis etas)
    end
  end.
