(* Model of falco_gen_ellipse (falco/mask.py:1655-1734) over exact numbers *)
From Verif Require Import Base RBase StrBase CBase PropModel.
Open Scope R_scope.
(* inputs dictionary (falco/mask.py:1672-1684); optional keys are given their defaults by ell_default.  Narray is an integer
   (np.linspace refuses anything else); clocking in degrees *)
Record ell : Type := mke { e_nbeam : R; e_narray : nat; e_rx : R; e_ry : R; e_centering : string; e_clock : R; e_xs : R; e_ys : R; e_mag : R }.
Definition ell_default (nbeam : R) (narray : nat) (rx ry : R) : ell := mke nbeam narray rx ry "pixel" 0 0 0 1.
(* falco/mask.py:1686-1689: np.linspace with step 1, over Nbeam *)
Definition ell_axis (e : ell) (k : nat) : R :=
  if String.eqb (e_centering e) "pixel" then (- (INR (e_narray e) / 2) + INR k) / e_nbeam e
  else (- ((INR (e_narray e) - 1) / 2) + INR k) / e_nbeam e.
(* 1691-1695 *)
Definition ell_x (e : ell) (k : nat) : R := ell_axis e k - e_xs e.
Definition ell_y (e : ell) (k : nat) : R := ell_axis e k - e_ys e.
Definition ell_dx (e : ell) : R := ell_x e 1 - ell_x e 0.
Definition ell_rad (e : ell) : R := PI / 180 * e_clock e.
(* 1719-1723: the radial coordinate, without the magnification *)
Definition ell_rhoup (e : ell) (x y : R) : R :=
  1/2 * sqrt (1 / e_rx e ^ 2 * (cos (ell_rad e) * x + sin (ell_rad e) * y) ^ 2
            + 1 / e_ry e ^ 2 * (sin (ell_rad e) * x - cos (ell_rad e) * y) ^ 2).
(* 1698-1701 *)
Definition ell_rho (e : ell) (i j : nat) : R := 1 / e_mag e * ell_rhoup e (ell_x e j) (ell_y e i).
(* 1703 *)
Definition ell_half_window (e : ell) : R :=
  Rmax (Rabs (ell_rho e 1 0 - ell_rho e 0 0)) (Rabs (ell_rho e 0 1 - ell_rho e 0 0)).
(* 1710-1712, 1725-1726: mean of the 101 by 101 zeros and ones *)
Definition ell_up (e : ell) (s : nat) : R := (- (100 / 2) + INR s) * (ell_dx e / 101).
Definition ell_gray (e : ell) (i j : nat) : R :=
  rsum 101 (fun t => rsum 101 (fun s =>
    if Rle_dec (ell_rhoup e (ell_up e s + ell_x e j) (ell_up e t + ell_y e i)) (1/2) then 1 else 0)) / 101 ^ 2.
(* 1704-1727 *)
Definition ell_px (e : ell) (i j : nat) : R :=
  let h := ell_half_window e in
  if Rlt_dec (1/2 + h) (Rabs (ell_rho e i j)) then 0
  else if Rlt_dec (Rabs (ell_rho e i j)) (1/2 - h) then 1
  else ell_gray e i j.
(* falco/mask.py:1655-1734.  An unknown centering leaves x unbound (1692); x[1] needs two samples (1696); 1/magFac and 1/radius**2
   divide Python floats (1698-1700) *)
Definition falco_gen_ellipse (e : ell) : res (field R) :=
  if negb (String.eqb (e_centering e) "pixel" || String.eqb (e_centering e) "interpixel")%bool then Raise NameError
  else if Nat.ltb (e_narray e) 2 then Raise IndexError
  else if Req_EM_T (e_mag e) 0 then Raise ZeroDivisionError
  else if Req_EM_T (e_rx e) 0 then Raise ZeroDivisionError
  else if Req_EM_T (e_ry e) 0 then Raise ZeroDivisionError
  else Ok (mkf (e_narray e) (e_narray e) (ell_px e)).
