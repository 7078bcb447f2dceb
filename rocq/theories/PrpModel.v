(* Model of the wavefront propagation of the bundled PROPER library (falco/proper), over exact numbers.
   numpy's fft2 / ifft2 are the sums that define them (PropModel); use_fftw and use_ffti are off.
   Printing, the tables of prop_table and gc.collect have no effect on the wavefront and are left out. *)
From Verif Require Import Base RBase StrBase CBase PropModel OptModel.
Open Scope R_scope.
(* falco/proper/prop_wavefront.py:46-61.  w_inside: beam_type_old = "INSIDE_"; w_planar: reference_surface = "PLANAR".
   R_beam and R_beam_inf are never read; propagator_type is set by each call before it is read. *)
Record wavefront : Type := mkw { w_arr : field C; w_lam : R; w_dx : R; w_inside : bool; w_planar : bool; w_z : R; w_zw0 : R;
  w_w0 : R; w_zray : R; w_fratio : R; w_n : nat }.
Definition set_arr (w : wavefront) (E : field C) : wavefront :=
  mkw E (w_lam w) (w_dx w) (w_inside w) (w_planar w) (w_z w) (w_zw0 w) (w_w0 w) (w_zray w) (w_fratio w) (w_n w).
(* array, sampling, reference surface and position *)
Definition moved (w : wavefront) (E : field C) (dx : R) (pl : bool) (z : R) : wavefront :=
  mkw E (w_lam w) dx (w_inside w) pl z (w_zw0 w) (w_w0 w) (w_zray w) (w_fratio w) (w_n w).
(* falco/proper/prop_begin.py:41-61 *)
Definition prop_begin (diam lam : R) (n : nat) (frac : R) : res wavefront :=
  let ndiam := INR n * frac in
  let w0 := diam / 2 in
  if Req_EM_T lam 0 then Raise ZeroDivisionError
  else if Req_EM_T ndiam 0 then Raise ZeroDivisionError
  else Ok (mkw (mkf n n (fun _ _ => RtoC 1)) lam (diam / ndiam) true true 0 0 w0 (PI * w0 ^ 2 / lam) 1000000000 n).
(* falco/proper/prop_shift_center.py:31-38 *)
Definition shift_center {A} (E : field A) : field A := roll2 (half (frows E)) (half (fcols E)) E.
(* falco/proper/prop_get_beamradius.py, prop_get_refradius.py, prop_get_sampling.py, prop_get_wavefront.py: last lines *)
Definition get_beamradius (w : wavefront) : R := w_w0 w * sqrt (1 + (w_lam w * (w_z w - w_zw0 w) / (PI * w_w0 w ^ 2)) ^ 2).
Definition get_refradius (w : wavefront) : R := w_z w - w_zw0 w.
Definition get_sampling (w : wavefront) : R := w_dx w.
Definition get_wavefront (w : wavefront) : field C := shift_center (w_arr w).
(* falco/proper/prop_qphase.py:37-52: factor at [i, j]; int(-n/2) = -(n//2) *)
Definition qphase_factor (n : nat) (lam dx c : R) (i j : nat) : C :=
  let r2 := fun k => ((INR (roll_ix n (- half n) k) - INR n / 2) * dx) ^ 2 in
  cis (PI / (lam * c) * (r2 j + r2 i)).
Definition qphase (n : nat) (lam dx c : R) (E : field C) : field C :=
  if Req_EM_T c 0 then E else mul_by (qphase_factor n lam dx c) E.
(* forward: fft2 / size * n; backward: ifft2 * size / n (prop_wts.py:51-64, prop_stw.py:54-67) *)
Definition pfft (n : nat) (E : field C) : field C := scal (RtoC (INR n)) (scal (RtoC (/ size E)) (fftn E)).
Definition pifft (n : nat) (E : field C) : field C := scal (RtoC (/ INR n)) (scal (RtoC (size E)) (ifftn E)).
(* prop_ptp.py:92-93, prop_wts.py:66-67, prop_stw.py:71-72 *)
Definition offset_phase (po : bool) (lam d : R) (E : field C) : field C := if po then scal (cis (2 * PI * d / lam)) E else E.
(* falco/proper/prop_ptp.py:76-81: factor at [u, v]; int(n/2) = n//2 *)
Definition ptp_factor (n : nat) (lam dx dz : R) (u v : nat) : C :=
  let f2 := fun k => ((INR (roll_ix n (half n) k) - INR (n / 2)) / (INR n * dx)) ^ 2 in
  cis (- (PI * lam * dz) * (f2 v + f2 u)).
(* falco/proper/prop_ptp.py:51-98; po = proper.phase_offset *)
Definition prop_ptp (po : bool) (w : wavefront) (dz : R) : res wavefront :=
  if Rlt_dec (Rabs dz) (/ 1000000000000) then Ok w
  else if negb (w_planar w) then Raise ValueError
  else
    let E := pifft (w_n w) (mul_by (ptp_factor (w_n w) (w_lam w) (w_dx w) dz) (pfft (w_n w) (w_arr w))) in
    Ok (moved w (offset_phase po (w_lam w) dz E) (w_dx w) true (w_z w + dz)).
(* falco/proper/prop_wts.py:40-74 *)
Definition prop_wts (po : bool) (w : wavefront) (dz : R) : wavefront :=
  if Req_EM_T dz 0 then moved w (w_arr w) (w_dx w) false (w_z w)
  else
    let E := qphase (w_n w) (w_lam w) (w_dx w) dz (w_arr w) in
    let F := if Rle_dec 0 dz then pfft (w_n w) E else pifft (w_n w) E in
    moved w (offset_phase po (w_lam w) dz F) (w_lam w * Rabs dz / (INR (w_n w) * w_dx w)) false (w_z w + dz).
(* falco/proper/prop_stw.py:35-79 *)
Definition prop_stw (po : bool) (w : wavefront) (dz0 : R) : res wavefront :=
  if w_planar w then prop_ptp po w dz0
  else
    let dz := if Req_EM_T dz0 0 then w_zw0 w - w_z w else dz0 in
    let dx := w_lam w * Rabs dz / (INR (w_n w) * w_dx w) in
    let F := if Rle_dec 0 dz then pfft (w_n w) (w_arr w) else pifft (w_n w) (w_arr w) in
    Ok (moved w (offset_phase po (w_lam w) dz (qphase (w_n w) (w_lam w) dx dz F)) dx true (w_z w + dz)).
(* falco/proper/prop_select_propagator.py:40-54: the new beam type *)
Definition inside_at (w : wavefront) (z : R) : bool := if Rlt_dec (Rabs (w_zw0 w - z)) (1 * w_zray w) then true else false.
Definition set_type (w : wavefront) (b : bool) : wavefront :=
  mkw (w_arr w) (w_lam w) (w_dx w) b (w_planar w) (w_z w) (w_zw0 w) (w_w0 w) (w_zray w) (w_fratio w) (w_n w).
(* falco/proper/prop_propagate.py:48-69; tp = TO_PLANE.  Only the second half of propagator_type is changed by TO_PLANE (54) *)
Definition prop_propagate (po : bool) (w : wavefront) (dz : R) (tp : bool) : res wavefront :=
  let was := w_inside w in
  let new := inside_at w (w_z w + dz) in
  let w1 := set_type w new in
  let z1 := w_z w in
  let z2 := z1 + dz in
  match was, (new || tp)%bool with
  | true, true => prop_ptp po w1 dz
  | true, false => do a <- prop_ptp po w1 (w_zw0 w - z1); Ok (prop_wts po a (z2 - w_zw0 w))
  | false, true => do a <- prop_stw po w1 (w_zw0 w - z1); prop_ptp po a (z2 - w_zw0 w)
  | false, false => do a <- prop_stw po w1 (w_zw0 w - z1); Ok (prop_wts po a (z2 - w_zw0 w))
  end.
(* falco/proper/prop_add_phase.py:34-43 with an array; the array has the shape of the wavefront, or one that numpy refuses *)
Definition prop_add_phase (w : wavefront) (p : field R) : res wavefront :=
  let f := shift_center p in
  do E <- imul (w_arr w) (mkf (frows f) (fcols f) (fun i j => cis (2 * PI / w_lam w * fpx f i j)));
  Ok (set_arr w E).
(* falco/proper/prop_multiply.py:33-40 with an array *)
Definition prop_multiply (w : wavefront) (v : field C) : res wavefront := do E <- imul (w_arr w) (shift_center v); Ok (set_arr w E).
(* falco/proper/prop_radius.py:38-54, without NORM *)
Definition prop_radius (w : wavefront) : field R :=
  let n := w_n w in
  mkf n n (fun j i => sqrt ((INR i - INR (n / 2)) ^ 2 + (INR j - INR (n / 2)) ^ 2) * w_dx w).
(* falco/proper/prop_lens.py:50-51: radius of the pilot beam at the lens *)
Definition lens_zr (w : wavefront) : R := PI * w_w0 w ^ 2 / w_lam w.
Definition lens_ws (w : wavefront) : R := w_w0 w * sqrt (1 + ((w_z w - w_zw0 w) / lens_zr w) ^ 2).
(* falco/proper/prop_lens.py:53-70: curvature of the pilot beam after the lens; None is infinite *)
Definition lens_curv (w : wavefront) (f : R) : option R :=
  let d := w_z w - w_zw0 w in
  if Req_EM_T d 0 then Some (- f)
  else let old := d + lens_zr w ^ 2 / d in if Req_EM_T old f then None else Some (1 / (1 / old - 1 / f)).
(* falco/proper/prop_lens.py:78-87: the new waist *)
Definition lens_zw0 (w : wavefront) (f : R) : R :=
  match lens_curv w f with Some g => - g / (1 + (w_lam w * g / (PI * lens_ws w ^ 2)) ^ 2) + w_z w | None => w_z w end.
Definition lens_w0 (w : wavefront) (f : R) : R :=
  match lens_curv w f with Some g => lens_ws w / sqrt (1 + (PI * lens_ws w ^ 2 / (w_lam w * g)) ^ 2) | None => lens_ws w end.
Definition lens_zr' (w : wavefront) (f : R) : R := PI * lens_w0 w f ^ 2 / w_lam w.
(* falco/proper/prop_lens.py:88-93; proper.rayleigh_factor is 1, as prop_begin.py:52 sets it *)
Definition lens_inside (w : wavefront) (f : R) : bool := if Rlt_dec (Rabs (lens_zw0 w f - w_z w)) (1 * lens_zr' w f) then true else false.
(* falco/proper/prop_lens.py:73-76, 88-93, 116-128.  1./R_beam_old (121) divides by the Python float 0.0 when the reference
   surface is planar (74). *)
Definition lens_phase (w : wavefront) (f : R) : res R :=
  let Rold := if (w_inside w || w_planar w)%bool then 0 else w_z w - w_zw0 w in
  let Rnew := if lens_inside w f then 0 else w_z w - lens_zw0 w f in
  match w_inside w, lens_inside w f with
  | true, true => Ok (1 / f)
  | true, false => Ok (1 / f + 1 / Rnew)
  | false, true => if Req_EM_T Rold 0 then Raise ZeroDivisionError else Ok (1 / f - 1 / Rold)
  | false, false => if Req_EM_T Rold 0 then Ok (1 / f + 1 / Rnew)
                    else if Req_EM_T Rnew 0 then Ok (1 / f - 1 / Rold)
                    else Ok (1 / f - 1 / Rold + 1 / Rnew)
  end.
(* falco/proper/prop_lens.py:50-146.  A focal length 0 always ends in 1./lens_fl (57, 117-128).  prop_radius uses only the grid
   and the sampling, which do not change. *)
Definition prop_lens (w : wavefront) (f : R) : res wavefront :=
  if Req_EM_T f 0 then Raise ZeroDivisionError else
  do phase <- lens_phase w f;
  let new := lens_inside w f in
  let w' := mkw (w_arr w) (w_lam w) (w_dx w) new new (w_z w) (lens_zw0 w f) (lens_w0 w f) (lens_zr' w f)
                (Rabs (lens_zw0 w f - w_z w) / (2 * lens_ws w)) (w_n w) in
  let rho := prop_radius w in
  prop_add_phase w' (mkf (frows rho) (fcols rho) (fun i j => - fpx rho i j ^ 2 * (phase / 2))).
(* falco/proper/prop_define_entrance.py:30-35: a wavefront without light gives nan *)
Definition total_intensity (E : field C) : R := rsum (frows E) (fun i => rsum (fcols E) (fun j => abs2 (fpx E i j))).
Definition prop_define_entrance (w : wavefront) : wavefront :=
  set_arr w (scal (RtoC (/ sqrt (total_intensity (w_arr w)))) (w_arr w)).
(* falco/proper/prop_end.py:42-54: intensity and sampling.  EXTRACT (49-52) gives floats as slice bounds *)
Definition prop_end (w : wavefront) (extract : bool) : res (field R * R) :=
  if extract then Raise TypeError
  else Ok (shift_center (mkf (frows (w_arr w)) (fcols (w_arr w)) (fun i j => abs2 (fpx (w_arr w) i j))), w_dx w).
