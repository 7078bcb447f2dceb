(* Model of falco/prop.py (relay, ptp, mft_f2p, mft_p2f, fft2d, ifft2d) over exact complex numbers.
   np.fft.fftn / ifftn are modelled by the sums that define the discrete Fourier transform. *)
From Verif Require Import Base RBase UtilModel CBase.
Open Scope R_scope.

(* 2-D numpy arrays with natural indices *)
Record field (A : Type) : Type := mkf { frows : nat; fcols : nat; fpx : nat -> nat -> A }.
Arguments mkf {A} _ _ _. Arguments frows {A} _. Arguments fcols {A} _. Arguments fpx {A} _ _ _.

Inductive centering : Set := Pixel | Interpixel | OtherCentering.
Definition interp (c : centering) : bool := match c with Interpixel => true | _ => false end.

(* np.roll along one axis of length n: out[i] = in[(i - s) mod n] *)
Definition roll_ix (n : nat) (s : Z) (i : nat) : nat := Z.to_nat ((Z.of_nat i - s) mod Z.of_nat n).
Definition roll2 {A} (s t : Z) (E : field A) : field A :=
  mkf (frows E) (fcols E) (fun i j => fpx E (roll_ix (frows E) s i) (roll_ix (fcols E) t j)).
(* E[::-1, ::-1] *)
Definition flip2 {A} (E : field A) : field A :=
  mkf (frows E) (fcols E) (fun i j => fpx E (frows E - 1 - i)%nat (fcols E - 1 - j)%nat).

(* falco/prop.py:16-57 *)
Definition relay {A} (E : field A) (Nrelay : Z) (c : centering) : res (field A) :=
  match c with
  | OtherCentering => Raise ValueError
  | _ =>
    if (Nrelay mod 2 =? 1)%Z then
      let out := flip2 E in
      Ok (match c with Pixel => roll2 1 1 out | _ => out end)
    else Ok E
  end.

(* np.fft.fftshift / ifftshift: roll by n//2 / -(n//2) on both axes *)
Definition half (n : nat) : Z := Z.of_nat (n / 2).
Definition fftshift (E : field C) : field C := roll2 (half (frows E)) (half (fcols E)) E.
Definition ifftshift (E : field C) : field C := roll2 (- half (frows E)) (- half (fcols E)) E.
(* np.fft.fftn, ifftn with scale factors a, b: norm=None is (1, 1/(MN)), norm='ortho' is (1/sqrt(MN)) twice *)
Definition fft_scaled (s a : R) (E : field C) : field C :=
  mkf (frows E) (fcols E) (fun u v => Cmult (RtoC a) (dft2 s (frows E) (fcols E) (fpx E) u v)).
Definition size (E : field C) : R := INR (frows E) * INR (fcols E).
Definition fftn (E : field C) : field C := fft_scaled (-1) 1 E.
Definition ifftn (E : field C) : field C := fft_scaled 1 (/ size E) E.
Definition fft2_ortho (E : field C) : field C := fft_scaled (-1) (/ sqrt (size E)) E.
Definition ifft2_ortho (E : field C) : field C := fft_scaled 1 (/ sqrt (size E)) E.

(* falco/prop.py:250-252 *)
Definition fft2d (E : field C) : field C := fftshift (fft2_ortho (ifftshift E)).
(* falco/prop.py:255-257 *)
Definition ifft2d (E : field C) : field C := ifftshift (ifft2_ortho (fftshift E)).

(* np.fft.fftfreq(n, d)[k] *)
Definition fftfreq (n : nat) (d : R) (k : nat) : R :=
  (if Nat.ltb k ((n + 1) / 2) then INR k else INR k - INR n) / (INR n * d).
(* falco/util.py:31-41 *)
Definition transfer (M N : nat) (wvl dx z : R) (u v : nat) : C :=
  Cmult (cis (- (PI * wvl * z) * (fftfreq M dx u * fftfreq M dx u))) (cis (- (PI * wvl * z) * (fftfreq N dx v * fftfreq N dx v))).
Definition mul_by (k : nat -> nat -> C) (E : field C) : field C :=
  mkf (frows E) (fcols E) (fun u v => Cmult (k u v) (fpx E u v)).

(* falco/prop.py:60-112; the sampling warning (91-105) has no effect on the result *)
Definition ptp (E : field C) (full_width wavelength dz : R) : res (field C) :=
  if Rle_dec full_width 0 then Raise TypeError
  else if Rle_dec wavelength 0 then Raise TypeError
  else if Req_EM_T dz 0 then Ok E
  else if Nat.eqb (fcols E) 0 then Raise ZeroDivisionError          (* full_width / N *)
  else if negb (Nat.eqb (frows E) (fcols E)) then Raise ValueError
  else
    let dx := full_width / INR (fcols E) in
    Ok (ifftshift (ifftn (mul_by (transfer (frows E) (fcols E) wavelength dx dz) (fftn (fftshift E))))).

(* np.linalg.multi_dot([pre, E, post]) with pre = exp(coef*outer(a, b)), post = exp(coef*outer(c, d)) *)
Definition mft_core (scaling coef : R) (ra rb rc rd : list R) (E : nat -> nat -> C) (k l : nat) : C :=
  Cmult (RtoC scaling)
    (csum (length rc) (fun j =>
       Cmult (csum (length rb) (fun i => Cmult (cis (coef * (nth k ra 0 * nth i rb 0))) (E i j)))
             (cis (coef * (nth j rc 0 * nth l rd 0))))).

(* falco/prop.py:115-177 *)
Definition mft_f2p (E : field C) (fl wavelength dxi deta dx : R) (N : nat) (c : centering) : res (field C) :=
  match c with OtherCentering => Raise ValueError | _ =>
    if Rle_dec wavelength 0 then Raise TypeError
    else if Rle_dec dxi 0 then Raise TypeError
    else if Rle_dec deta 0 then Raise TypeError
    else if Rle_dec dx 0 then Raise TypeError
    else if Nat.eqb N 0 then Raise TypeError
    else
      do xi <- create_axis (Z.of_nat (fcols E)) dxi (interp c);
      do eta <- create_axis (Z.of_nat (frows E)) dxi (interp c);        (* dxi, not deta: prop.py:158 *)
      do x <- create_axis (Z.of_nat N) dx (interp c);
      if Req_EM_T (wavelength * fl) 0 then Raise ZeroDivisionError
      else Ok (mkf N N (mft_core (sqrt (dx * dx * dxi * deta) / (wavelength * fl)) (- 2 * PI / (wavelength * fl)) x eta xi x (fpx E)))
  end.
(* falco/prop.py:180-247 *)
Definition mft_p2f (E : field C) (fl wavelength dx dxi : R) (Nxi : nat) (deta : R) (Neta : nat) (c : centering) : res (field C) :=
  match c with OtherCentering => Raise ValueError | _ =>
    if Rle_dec wavelength 0 then Raise TypeError
    else if Rle_dec dx 0 then Raise TypeError
    else if Rle_dec dxi 0 then Raise TypeError
    else if Nat.eqb Nxi 0 then Raise TypeError
    else if Rle_dec deta 0 then Raise TypeError
    else if Nat.eqb Neta 0 then Raise TypeError
    else if negb (Nat.eqb (frows E) (fcols E)) then Raise ValueError
    else
      do x <- create_axis (Z.of_nat (fcols E)) dx (interp c);
      do xi <- create_axis (Z.of_nat Nxi) dxi (interp c);
      do eta <- create_axis (Z.of_nat Neta) deta (interp c);
      if Req_EM_T (wavelength * fl) 0 then Raise ZeroDivisionError
      else Ok (mkf Neta Nxi (mft_core (sqrt (dx * dx * dxi * deta) / (wavelength * fl)) (- 2 * PI / (wavelength * fl)) eta x x xi (fpx E)))
  end.
