(* Model of PROPER's error maps from power spectral densities: prop_psd_errormap *)
From Verif Require Import Base StrBase RBase CtrlModel UtilModel DmSurfModel CubModel DmcModel CBase PropModel OptModel PrpModel ErrModel ThpModel.
Open Scope R_scope.
(* keywords AMPLITUDE, MIRROR, TPF, RMS, NO_APPLY, MAX_FREQUENCY, INCLINATION and ROTATION in degrees *)
Record pkeys : Type := mkpk { p_amp : option R; p_mirror : bool; p_tpf : bool; p_rms : bool; p_noapply : bool; p_maxf : option R; p_inc : option R; p_rot : option R }.
(* falco/proper/prop_psd_errormap.py:147-155: degrees to radians, 0 without the keyword *)
Definition angle (o : option R) : R := match o with None => 0 | Some d => d * PI / 180 end.
(* falco/proper/prop_psd_errormap.py:157-163: row i, column j; yk is computed from the new xk (161) *)
Definition xk (n : nat) (rot : R) (i j : nat) : R := (INR j - INR (n / 2)) * cos (- rot) - (INR i - INR (n / 2)) * sin (- rot).
Definition yk (n : nat) (rot inc : R) (i j : nat) : R := (xk n rot i j * sin (- rot) + (INR i - INR (n / 2)) * cos (- rot)) * cos (- inc).
Definition kpsd (n : nat) (dk rot inc : R) (i j : nat) : R := sqrt (xk n rot i j ^ 2 + yk n rot inc i j ^ 2) * dk.
(* numpy's power of a number that is not negative; 0 to a negative power is infinite there, not modelled *)
Definition npow (x c : R) : R := if Req_EM_T x 0 then (if Req_EM_T c 0 then 1 else 0) else Rpower x c.
(* falco/proper/prop_psd_errormap.py:164-169 *)
Definition psd2d (n : nat) (dk amp b c : R) (k : pkeys) (i j : nat) : R :=
  if (Nat.eqb i (n / 2) && Nat.eqb j (n / 2))%bool then 0
  else let f := kpsd n dk (angle (p_rot k)) (angle (p_inc k)) i j in
    if p_tpf k then amp / (1 + npow (f / b) c) else amp / npow (1 + (f / b) ^ 2) ((c + 1) / 2).
Definition total (n : nat) (f : nat -> nat -> R) : R := rsum n (fun i => rsum n (fun j => f i j)).
(* np.std of an n x n array *)
Definition np_std (n : nat) (f : nat -> nat -> R) : R :=
  let m := total n f / (INR n * INR n) in sqrt (total n (fun i j => (f i j - m) ^ 2) / (INR n * INR n)).
(* falco/proper/prop_psd_errormap.py:172-180: the random numbers u lie in [0, 1); with MAX_FREQUENCY the density is multiplied by the frequency *)
Definition cutoff (n : nat) (dk : R) (k : pkeys) (i j : nat) : R :=
  match p_maxf k with None => 1 | Some m => let f := kpsd n dk (angle (p_rot k)) (angle (p_inc k)) i j in if Rlt_dec m f then 0 else f end.
Definition spectrum (n : nat) (dk amp b c : R) (k : pkeys) (u : nat -> nat -> R) : field C :=
  mkf n n (fun i j => Cmult (RtoC (sqrt (psd2d n dk amp b c k i j * cutoff n dk k i j) / dk)) (cis (2 * PI * u i j - PI))).
(* falco/proper/prop_psd_errormap.py:182-188 *)
Definition raw_map (n : nat) (s amp b c : R) (k : pkeys) (u : nat -> nat -> R) : nat -> nat -> R :=
  let F := fft_scaled (-1) (/ (INR n * INR n)) (shift_center (spectrum n (1 / (INR n * s)) amp b c k u)) in
  fun i j => fst (fpx F i j) / (INR n ^ 2 * s ^ 2).
(* falco/proper/prop_psd_errormap.py:138-197; a standard deviation of 0 gives nan in numpy, not modelled *)
Definition new_map (n : nat) (s amp b c : R) (k : pkeys) (u : nat -> nat -> R) : field R :=
  let dk := 1 / (INR n * s) in
  let rms_psd := sqrt (total n (psd2d n dk amp b c k)) * dk in
  let d := raw_map n s amp b c k u in
  let g := match p_rms k, p_amp k with false, None => rms_psd / np_std n d | _, _ => amp / np_std n d end in
  mkf n n (fun i j => d i j * g).
(* falco/proper/prop_psd_errormap.py:124-265.  file: None without FILE, Some None when there is no such file, Some (Some f) its contents.
   Result: the returned map, the wavefront and the file written *)
Definition prop_psd_errormap (ip : interpolator) (w : wavefront) (amp b c : R) (k : pkeys) (u : nat -> nat -> R) (file : option (option mapfile)) : res (field R * wavefront * option mapfile) :=
  let n := w_n w in
  do d <- (match file with Some (Some f) => readmap ip w f 0 0 None None None | _ => Ok (new_map n (get_sampling w) amp b c k u) end);
  do r <- (match p_amp k with
           | Some a =>
             do m <- ThpModel.np_max d;
             let d' := mkf (frows d) (fcols d) (fun i j => fpx d i j + (a - m)) in
             do E <- (if p_noapply k then Ok (w_arr w) else imul (w_arr w) (mkf (frows d') (fcols d') (fun i j => RtoC (fpx d' i j))));
             Ok (d', E, "amplitude"%string)
           | None =>
             if p_mirror k then
               do E <- (if p_noapply k then Ok (w_arr w) else imul (w_arr w) (mkf (frows d) (fcols d) (fun i j => cis (4 * PI / w_lam w * fpx d i j))));
               Ok (d, E, "mirror surface"%string)
             else
               do E <- (if p_noapply k then Ok (w_arr w) else imul (w_arr w) (mkf (frows d) (fcols d) (fun i j => cis (2 * PI / w_lam w * fpx d i j))));
               Ok (d, E, "wavefront"%string)
           end);
  let '(d', E, t) := r in
  let out := shift_center d' in
  Ok (out, set_arr w E, match file with Some None => Some (mkmap t None (Some (get_sampling w)) (Z.of_nat (n / 2)) (Z.of_nat (n / 2)) (to_arr out)) | _ => None end).
