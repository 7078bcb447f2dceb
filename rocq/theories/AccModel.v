(* Model of PROPER's functions that read a wavefront and that multiply, divide and add to it.  Exact complex arithmetic *)
From Verif Require Import Base StrBase RBase CBase PropModel OptModel PrpModel EstModel.
Open Scope R_scope.
(* the second argument: a float, a complex number, or a 2-D array or list of lists *)
Inductive operand : Type := Flt (x : R) | Cpx (z : C) | Arr (f : field C).
(* A /= B and A += B for arrays: the result must have the shape of A.  numpy's x / 0 is inf or nan and a warning: not modelled *)
Definition ipl (f : C -> C -> C) (A B : field C) : res (field C) :=
  do P <- bop f A B; if Nat.eqb (frows P) (frows A) && Nat.eqb (fcols P) (fcols A) then Ok P else Raise ValueError.
(* falco/proper/prop_multiply.py:33-40; float() refuses complex numbers *)
Definition multiply_by (w : wavefront) (v : operand) : res wavefront :=
  match v with
  | Flt x => Ok (set_arr w (fmap (fun z => Cmult z (RtoC x)) (w_arr w)))
  | Cpx _ => Raise TypeError
  | Arr f => prop_multiply w f
  end.
(* falco/proper/prop_divide.py:34-41 *)
Definition divide_by (w : wavefront) (v : operand) : res wavefront :=
  match v with
  | Flt x => Ok (set_arr w (fmap (fun z => Cdiv z (RtoC x)) (w_arr w)))
  | Cpx _ => Raise TypeError
  | Arr f => do E <- ipl Cdiv (w_arr w) (shift_center f); Ok (set_arr w E)
  end.
(* falco/proper/prop_add_wavefront.py:36-41 *)
Definition add_to (w : wavefront) (v : operand) : res wavefront :=
  match v with
  | Flt x => Ok (set_arr w (fmap (fun z => Cplus z (RtoC x)) (w_arr w)))
  | Cpx c => Ok (set_arr w (fmap (fun z => Cplus z c) (w_arr w)))
  | Arr f => do E <- ipl Cplus (w_arr w) (shift_center f); Ok (set_arr w E)
  end.
(* falco/proper/prop_get_amplitude.py:29 *)
Definition get_amplitude (w : wavefront) : field R := shift_center (mkf (frows (w_arr w)) (fcols (w_arr w)) (fun i j => Cmod (fpx (w_arr w) i j))).
(* falco/proper/prop_get_phase.py:28 *)
Definition get_phase (w : wavefront) : field R := shift_center (mkf (frows (w_arr w)) (fcols (w_arr w)) (fun i j => atan2 (snd (fpx (w_arr w) i j)) (fst (fpx (w_arr w) i j)))).
(* falco/proper/prop_get_distancetofocus.py:26 *)
Definition get_distancetofocus (w : wavefront) : R := w_zw0 w - w_z w.
(* falco/proper/prop_get_nyquistsampling.py:33-36: lamx = 0 when it is not given *)
Definition get_nyquistsampling (w : wavefront) (lamx : R) : R := if Req_EM_T lamx 0 then w_fratio w * w_lam w / 2 else w_fratio w * lamx / 2.
(* falco/proper/prop_get_sampling_radians.py:29-30, prop_get_sampling_arcsec.py:30-31; diam: the diameter given to prop_begin, which the record of
   wavefronts leaves out *)
Definition get_sampling_radians (w : wavefront) (diam : R) : R := get_sampling w / (w_fratio w * diam).
Definition get_sampling_arcsec (w : wavefront) (diam : R) : R := get_sampling w * 360 * 3600 / (2 * PI * (w_fratio w * diam)).
(* falco/proper/prop_radius.py:42-66, with or without NORM *)
Definition radius_map (w : wavefront) (norm : bool) : field R :=
  mkf (w_n w) (w_n w) (fun j i => sqrt ((INR i - INR (w_n w / 2)) ^ 2 + (INR j - INR (w_n w / 2)) ^ 2) * (if norm then get_sampling w / get_beamradius w else get_sampling w)).
