(* Model of PROPER's eighth-order occulter (falco/proper/prop_8th_order_mask.py) and of the sinc function it uses.  Real arithmetic *)
From Verif Require Import Base StrBase RBase CBase PropModel OptModel PrpModel ApModel RectModel.
Open Scope R_scope.
(* falco/proper/prop_sinc.py:30-47: sin(x) / x, 1 at 0; numbers and arrays alike *)
Definition prop_sinc (x : R) : R := if Req_EM_T x 0 then 1 else sin x / x.
(* keywords: METERS; CIRCULAR, ELLIPTICAL (None without it); Y_AXIS *)
Record okeys : Type := mkok { k_meters : bool; k_circ : bool; k_ell : option R; k_yaxis : bool }.
(* falco/proper/prop_8th_order_mask.py:82-83, 93, 97, 103: ll = 3, mm = 1; the powers 3. and 1. of real numbers *)
Definition profile (x e : R) : R := (3 - 1) / 3 - prop_sinc (x * (PI * e / 3)) ^ 3 + 1 / 3 * prop_sinc (x * (PI * e / 1)) ^ 1.
(* falco/proper/prop_8th_order_mask.py:105-109: one pixel of intensity v; smallest and largest intensity.  An array whose pixels are all the same is
   0 / 0 in Python (nan, a warning) *)
Definition rescale (lo hi tmin tmax v : R) : R := sqrt ((v - lo) / (hi - lo) * (tmax - tmin) + tmin).
(* np.min, np.max of an n x n array: of its rows *)
Definition amin (n : nat) (f : nat -> nat -> R) : R := lmin (fun i => lmin (f i) n) n.
Definition amax (n : nat) (f : nat -> nat -> R) : R := lmax (fun i => lmax (f i) n) n.
(* falco/proper/prop_8th_order_mask.py:65-74: e; Python's division by the number 0 *)
Definition width_e (w : wavefront) (hwhm : R) (meters : bool) : res R :=
  if meters then (if Req_EM_T (w_fratio w * w_lam w) 0 then Raise ZeroDivisionError else
    let h := hwhm / (w_fratio w * w_lam w) in if Req_EM_T h 0 then Raise ZeroDivisionError else Ok (1788 / 1000 / h))
  else if Req_EM_T hwhm 0 then Raise ZeroDivisionError else Ok (1788 / 1000 / hwhm).
(* falco/proper/prop_8th_order_mask.py:76-103, 111-115: n, spacing c, linear, circular or elliptical (CIRCULAR first); np.min of an empty array;
   the mask, row i, column j *)
Definition eighth (w : wavefront) (hwhm tmin tmax : R) (k : okeys) : res (field R) :=
  do e <- width_e w hwhm (k_meters k);
  let n := w_n w in
  if Req_EM_T (w_fratio w * w_lam w) 0 then Raise ZeroDivisionError else
  let c := get_sampling w / (w_fratio w * w_lam w) in
  let ctr (j : nat) := INR j - INR n / 2 in
  let two_d (r : nat -> nat -> R) := let v i j := profile (r i j) e ^ 2 in mkf n n (fun i j => rescale (amin n v) (amax n v) tmin tmax (v i j)) in
  if (n =? 0)%nat then Raise ValueError else
  if k_circ k then Ok (two_d (fun i j => sqrt (ctr j ^ 2 + ctr i ^ 2) * c)) else
  match k_ell k with
  | Some q => if Req_EM_T q 0 then Raise ZeroDivisionError else Ok (two_d (fun i j => sqrt (ctr j ^ 2 + (ctr i / q) ^ 2) * c))
  | None => let v j := profile (ctr j * c) e ^ 2 in let m j := rescale (lmin v n) (lmax v n) tmin tmax (v j) in
      Ok (mkf n n (fun i j => m (if k_yaxis k then i else j)))
  end.
(* falco/proper/prop_8th_order_mask.py:117-119 *)
Definition prop_8th_order_mask (w : wavefront) (hwhm tmin tmax : R) (k : okeys) : res (field R * wavefront) :=
  do m <- eighth w hwhm tmin tmax k; do w' <- times_mask w m; Ok (m, w').
