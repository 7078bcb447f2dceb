(* Specification vocabulary for the columns of the control Jacobian of a vortex coronagraph. *)
From Coquelicot Require Import Coquelicot.
From Verif Require Import Base RBase StrBase CBase PropModel PropSpec OptModel OptSpec GradModel GradSpec PokeModel PokeSpec.
From Verif Require EstModel.
Open Scope R_scope.
(* offset of a sample from the centre of an array of n samples *)
Definition off (n k : nat) : R := IZR (Z.of_nat k - Z.of_nat n / 2).
(* Fourier kernel for a frequency (kx, ky) and a position (x, y), in samples of an n x n grid *)
Definition wave (n : nat) (ky kx y x : R) : C := cis (- (2 * PI) * (ky * y + kx * x) / INR n).
(* the focal plane of a pupil array, sampled on the n x n grid of an FFT of n samples *)
Definition focal (n : nat) (E : field C) (k l : nat) : C :=
  csum (frows E) (fun a => csum (fcols E) (fun b => Cmult (fpx E a b) (wave n (off n k) (off n l) (off (frows E) a) (off (fcols E) b)))).
(* ... multiplied by the vortex of charge q, and transformed to the n x n array of the next pupil *)
Definition fft_vortex (n : nat) (q : R) (E : field C) : field C :=
  mkf n n (fun i j => Cmult (RtoC (/ (INR n * INR n)))
    (csum n (fun k => csum n (fun l =>
       Cmult (Cmult (cis (q * EstModel.atan2 (off n k) (off n l))) (focal n E k l)) (wave n (off n k) (off n l) (off n i) (off n j)))))).
(* the compact model with this propagation through the vortex, from the pupil in front of the vortex to the final focal plane *)
Definition vx_from (o : optics) (w I00 : R) (n : nat) (q : R) (EP3 : field C) : res (field C) :=
  do r <- relay (fft_vortex n q EP3) (nrel o (o_n34 o) - 1) (o_cen o);
  do p <- pad_cropf r (o_narr4 o) (o_narr4 o);
  do E <- bop Cmult (o_lyot o) p;
  do F <- to_Fend o w (o_fend o) E;
  Ok (normalise I00 F).
Definition vx_field (o : optics) (w I00 : R) (n : nat) (q : R) (Ein : field C) : res (field C) :=
  do mid <- compact_to_P3 o w Ein; vx_from o w I00 n q (m_EP3 mid).
Definition vx_value (o : optics) (w I00 : R) (n : nat) (q : R) (Ein : field C) (i j : nat) : C :=
  match vx_field o w I00 n q Ein with Ok F => fpx F i j | Raise _ => RtoC 0 end.
(* an instrument with another sampling of the Lyot plane *)
Definition with_dx4 (o : optics) (d : R) : optics :=
  mko (o_pad o) (o_rot o) (o_n12 o) (o_n23 o) (o_n34 o) (o_nend o) (o_cen o) (o_d1 o) (o_d12 o) (o_fl o) (o_lambda0 o) (o_dx2 o) (o_use1 o) (o_use2 o) (o_surf1 o) (o_surf2 o) (o_pupil o) (o_stop1 o) (o_stop2 o) (o_wfe o) (o_apod o) (o_coro o) (o_f3 o) (o_fpm o) (o_trans o) (o_charge o) (o_nbeam1 o) (o_nbeam4 o) d (o_narr4 o) (o_lyot o) (o_downsample o) (o_fend o) (o_eval o).
