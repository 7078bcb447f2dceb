(* Model of falco_gen_pupil_Simple (falco/mask.py:1381-1519) over exact numbers *)
From Verif Require Import Base RBase StrBase CBase PropModel PrpModel ApModel EllModel RectModel EstModel.
Open Scope R_scope.
(* inputs dictionary (falco/mask.py:1397-1421).  Npad an integer, angStrut already an array of numbers (np.atleast_1d), degrees; the optional
   keys are given their defaults by simple_default *)
Record simple : Type := mks { s_nbeam : R; s_npad : nat; s_od : R; s_wstrut : R; s_ang : list R; s_id : R; s_centering : string; s_xst : R;
  s_clock : R; s_xs : R; s_ys : R; s_hg : bool }.
Definition simple_default (nbeam : R) (npad : nat) (od : R) : simple := mks nbeam npad od 0 [] 0 "pixel" 1 0 0 0 false.
(* falco/mask.py:1435-1445, 1449-1459; magFac has gen_ellipse's default *)
Definition disc (p : simple) (d : R) : ell :=
  mke (s_nbeam p) (s_npad p) (s_xst p * (5 / 10) * d) (5 / 10 * d) (s_centering p) (s_clock p) (s_xs p) (s_ys p) 1.
(* falco/util.py:89-125 *)
Definition cosd (a : R) : R := cos (a * (PI / 180)).
Definition sind (a : R) : R := sin (a * (PI / 180)).
(* falco/mask.py:1471-1474 *)
Definition cshift (p : simple) (dx : R) : R := if String.eqb (s_centering p) "pixel" then 0 else - dx / 2.
(* falco/mask.py:1478-1485: lStrut 0.6, rcStrut0 0.3; NORM not given; subsampling 101 *)
Fixpoint add_struts (p : simple) (dx : R) (l : list R) (w : wavefront) : res wavefront :=
  match l with
  | [] => Ok w
  | a :: r =>
    let ang := a + s_clock p in
    do w' <- rectangular_obscuration 101 w (6 / 10) (s_wstrut p) (6 / 10 / 2 * cosd ang + cshift p dx + s_xs p)
      (6 / 10 / 2 * sind ang + cshift p dx + s_ys p) ang false;
    add_struts p dx r w'
  end.
(* falco/mask.py:1464-1486: None is the scalar 1.  The division is Python's; amplitude is np.fft.ifftshift(np.abs(wfarr)) *)
Definition strut_mask (p : simple) : res (option (field R)) :=
  match s_ang p with
  | [] => Ok None
  | _ =>
    if Req_EM_T (s_nbeam p) 0 then Raise ZeroDivisionError
    else let dx := 1 / s_nbeam p in
      do w <- prop_begin 1 (1 / 10 ^ 6) (s_npad p) (1 / (INR (s_npad p) * dx));
      do w' <- add_struts p dx (s_ang p) w;
      Ok (Some (amplitude w'))
  end.
(* falco/mask.py:1430-1489; all the masks are Npad by Npad *)
Definition gray_pupil (p : simple) : res (field R) :=
  do o <- falco_gen_ellipse (disc p (s_od p));
  do i <- (if Rlt_dec 0 (s_id p) then do f <- falco_gen_ellipse (disc p (s_id p)); Ok (Some f) else Ok None);
  do s <- strut_mask p;
  Ok (mkf (s_npad p) (s_npad p) (fun r c =>
    fpx o r c * (match i with Some f => 1 - fpx f r c | None => 1 end) * (match s with Some f => fpx f r c | None => 1 end))).
(* ---- hyper-gaussians ---- *)
(* falco/mask.py:1497-1500 *)
Definition hg_axis (p : simple) (k : nat) : R :=
  if String.eqb (s_centering p) "pixel" then - INR (s_npad p) / 2 + INR k else - (INR (s_npad p) - 1) / 2 + INR k.
(* falco/util.py:392-393, 370-371: x along the columns, stretched *)
Definition hg_rho (p : simple) (i j : nat) : R := sqrt ((hg_axis p j / s_xst p) ^ 2 + (hg_axis p i / 1) ^ 2).
Definition hg_theta (p : simple) (i j : nat) : R := atan2 (hg_axis p i / 1) (hg_axis p j / s_xst p).
(* falco/mask.py:1505, 1508 *)
Definition hg_disc (p : simple) (d : R) (i j : nat) : R := exp (- (hg_rho p i j / (s_nbeam p / 2 * d)) ^ 1000).
(* falco/mask.py:1515-1517: one spider *)
Definition hg_strut (p : simple) (a : R) (i j : nat) : R :=
  let t := hg_theta p i j - a * PI / 180 in
  1 - exp (- (hg_rho p i j * sin t / (s_wstrut p * (s_nbeam p / 2))) ^ 100) * (if Rlt_dec 0 (hg_rho p i j * cos t) then 1 else 0).
(* falco/mask.py:1491-1519.  A zero Nbeam, OD or xStretch divides numpy arrays by 0 (a warning, infinities and nan): not modelled, the theorems
   exclude it *)
Definition hg_pupil (p : simple) : field R :=
  let base i j := if Rlt_dec 0 (s_id p) then hg_disc p (s_od p) i j - hg_disc p (s_id p) i j else hg_disc p (s_od p) i j in
  mkf (s_npad p) (s_npad p) (fun i j =>
    if Rlt_dec 0 (s_wstrut p) then fold_left (fun v a => v * hg_strut p a i j) (s_ang p) (base i j) else base i j).
(* falco/mask.py:1381-1519 *)
Definition falco_gen_pupil_Simple (p : simple) : res (field R) :=
  if Rlt_dec (s_wstrut p) 0 then Raise TypeError
  else if negb (String.eqb (s_centering p) "pixel" || String.eqb (s_centering p) "interpixel")%bool then Raise ValueError
  else if Rlt_dec (s_od p) (s_id p) then Raise ValueError
  else if s_hg p then Ok (hg_pupil p)
  else gray_pupil p.
