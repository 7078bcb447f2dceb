(* Model of PROPER's error maps: prop_writemap, prop_readmap, prop_resamplemap, prop_rotate and prop_errormap.
   Real arithmetic; a FITS file returns the array and the numbers that were written *)
From Verif Require Import Base StrBase RBase CtrlModel UtilModel DmSurfModel CubModel DmcModel CBase PropModel OptModel PrpModel.
Open Scope R_scope.
(* header and data of a map's file; XC_PIX and YC_PIX are written and never read *)
Record mapfile : Type := mkmap { m_type : string; m_radpix : option R; m_pixsize : option R; m_xc : Z; m_yc : Z; m_data : arr R }.
(* keywords of prop_writemap; absent: None or false *)
Record wkeys : Type := mkwk { k_amp : bool; k_mir : bool; k_rad : option R; k_sam : option R }.
(* falco/proper/prop_writemap.py:51-81 *)
Definition prop_writemap (d : arr R) (k : wkeys) : res mapfile :=
  match k_rad k, k_sam k with
  | None, None => Raise ValueError
  | r, s =>
    let t := if k_amp k then "amplitude" else if k_mir k then "mirror" else "wavefront" in
    Ok (mkmap t r (match r with Some _ => None | None => s end) (nr d / 2) (nc d / 2) d)
  end%string.
(* falco/proper/prop_cubic_conv.py:94-134 with the threaded library, called with the transpose of g; any schedule of the threads gives this
   (proved: threaded_is) *)
Definition threaded_cubic : interpolator := fun g c r k =>
  let ii := (r * xdim c + k)%nat in
  thread_px (in_memory Forder (nc g) (nr g) (fun X Y => px g Y X)) (nc g) (nr g) (flat_x c) (flat_y c) (ydim c) (ii / ydim c) (ii mod ydim c).
(* falco/proper/prop_resamplemap.py:58-74; ip: prop_cubic_conv, or scipy's map_coordinates, with the transposed map.  pix = 0: xshift / pixscale *)
Definition axis (n : nat) (dx pix c : R) (i : nat) : R := (INR i - INR (n / 2)) * dx / pix + c.
Definition resamplemap (ip : interpolator) (w : wavefront) (d : arr R) (pix xc yc xshift yshift : R) : res (field R) :=
  if Req_EM_T pix 0 then Raise ZeroDivisionError
  else
    let n := w_n w in
    let x := axis n (get_sampling w) pix (xc - xshift / pix) in
    let y := axis n (get_sampling w) pix (yc - xshift / pix) in
    Ok (mkf n n (ip d (Axes n n x y))).
(* falco/proper/prop_readmap.py:60-89.  rxc, ryc, rsam: the keywords XC_MAP, YC_MAP, SAMPLING *)
Definition readmap (ip : interpolator) (w : wavefront) (f : mapfile) (xshift yshift : R) (rxc ryc rsam : option R) : res (field R) :=
  do pix <- (match m_radpix f, rsam, m_pixsize f with
             | Some r, _, _ => Ok (get_beamradius w / r)
             | None, None, None => Raise ValueError
             | None, None, Some p => Ok p
             | None, Some p, _ => Ok p
             end);
  do c <- (match rxc, ryc with
           | None, _ => Ok (IZR (nr (m_data f) / 2), IZR (nc (m_data f) / 2))
           | Some x, Some y => Ok (x, y)
           | Some _, None => Raise KeyError
           end);
  do d <- resamplemap ip w (m_data f) pix (fst c) (snd c) xshift yshift;
  Ok (shift_center d).
(* keywords of prop_rotate; the angle in degrees *)
Record rkeys : Type := mkrk { r_xc : option R; r_yc : option R; r_xs : option R; r_ys : option R; r_missing : option R }.
Definition to_arr (f : field R) : arr R := mkarr (Z.of_nat (frows f)) (Z.of_nat (fcols f)) (fun i j => fpx f (Z.to_nat i) (Z.to_nat j)).
(* falco/proper/prop_rotate.py:60-90 with the cubic-convolution library, for a square real image: the variables XC, YC, xshift and yshift are
   only assigned when their keyword is absent (UnboundLocalError).  The image is not transposed before the call; being square and stored by rows it is
   read as the transpose of an array stored by columns would be (C88_c_order) *)
Definition prop_rotate (ip : interpolator) (f : field R) (theta : R) (k : rkeys) : res (field R) :=
  match r_xc k, r_yc k, r_xs k, r_ys k with
  | None, None, None, None =>
    let n := frows f in
    let c := INR (n / 2) in
    let t := - theta * PI / 180 in
    let x0 := fun i : nat => INR i - c - 0 in
    Ok (mkf n n (fun j i =>
      let y0 := INR j - c - 0 in
      ip (to_arr f) (Points n 1 (fun _ i => x0 i * cos t - y0 * sin t + c) (fun _ i => x0 i * sin t + y0 * cos t + c)) 0%nat i))
  | _, _, _, _ => Raise NameError
  end.
(* keywords of prop_errormap *)
Record ekeys : Type := mkek { e_amp : bool; e_nm : bool; e_um : bool; e_mirror : bool; e_wave : bool; e_xc : option R; e_yc : option R; e_sam : option R;
  e_rot : option R; e_mag : option R; e_mul : option R }.
Definition fscale (a : R) (f : field R) : field R := mkf (frows f) (fcols f) (fun i j => a * fpx f i j).
(* falco/proper/prop_errormap.py:92-143; mg: prop_magnify.  SystemExit is OtherError; proper_switch_set is not defined (NameError); the map is left
   unassigned (UnboundLocalError) with one of XC_MAP and YC_MAP alone.  Result: the returned map and the wavefront *)
Definition prop_errormap (ip : interpolator) (mg : field R -> R -> nat -> res (field R)) (w : wavefront) (f : mapfile) (xshift yshift : R) (k : ekeys) : res (field R * wavefront) :=
  if e_amp k then (if e_nm k then Raise OtherError else Raise NameError)
  else if e_nm k && e_um k then Raise OtherError
  else
    do d0 <- (match e_xc k, e_yc k, e_sam k with
              | None, None, None => readmap ip w f xshift yshift None None None
              | Some x, Some y, Some p => readmap ip w f xshift yshift (Some x) (Some y) (Some p)
              | Some x, Some y, None => readmap ip w f xshift yshift (Some x) (Some y) None
              | _, _, Some p => readmap ip w f xshift yshift None None (Some p)
              | _, _, None => Raise NameError
              end);
    do d1 <- (match e_rot k, e_mag k with
              | None, None => Ok d0
              | r, m =>
                let a := shift_center d0 in
                do b <- (match r with Some th => prop_rotate ip a th (mkrk None None None None (Some 0)) | None => Ok a end);
                do c <- (match m with Some x => mg b x (frows b) | None => Ok b end);
                Ok (shift_center c)
              end);
    let d2 := if e_um k then fscale (1 / 10 ^ 6) d1 else d1 in
    let d3 := if e_nm k then fscale (1 / 10 ^ 9) d2 else d2 in
    let d := match e_mul k with Some a => fscale a d3 | None => d3 end in
    do E <- (if e_mirror k then imul (w_arr w) (mkf (frows d) (fcols d) (fun i j => cis (-4 * PI / w_lam w * fpx d i j)))
             else if e_wave k then imul (w_arr w) (mkf (frows d) (fcols d) (fun i j => cis (2 * PI / w_lam w * fpx d i j)))
             else Raise ValueError);
    Ok (shift_center d, set_arr w E).
