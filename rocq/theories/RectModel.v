(* Model of PROPER's rectangles, rectangular apertures and obscurations, and irregular polygons: scan conversion line by line.  Real arithmetic *)
From Verif Require Import Base StrBase RBase CtrlModel UtilModel CBase PropModel OptModel PrpModel ApModel.
Open Scope R_scope.
(* vertices in pixels, clockwise *)
Record poly : Type := mkpoly { v_n : nat; v_x : nat -> R; v_y : nat -> R }.
(* left, leftnext, right, rightnext *)
Record chains : Type := mkch { h_l : nat; h_ln : nat; h_r : nat; h_rn : nat }.
(* falco/proper/prop_rectangle.py:124-133, 158-162, 164-169 *)
Definition vnext (nv k : nat) : nat := if (k =? nv - 1)%nat then 0%nat else (k + 1)%nat.
Definition vprev (nv k : nat) : nat := if (k =? 0)%nat then (nv - 1)%nat else (k - 1)%nat.
(* np.min, np.max of f over 0 .. n - 1, n >= 1 *)
Fixpoint lmin (f : nat -> R) (n : nat) : R := match n with O => f 0%nat | S O => f 0%nat | S m => Rmin (lmin f m) (f m) end.
Fixpoint lmax (f : nat -> R) (n : nat) : R := match n with O => f 0%nat | S O => f 0%nat | S m => Rmax (lmax f m) (f m) end.
(* first index below n, from k, where the test holds (n if there is none) *)
Fixpoint first_from (t : nat -> bool) (k cnt : nat) : nat := match cnt with O => k | S c => if t k then k else first_from t (S k) c end.
Definition Reqb (a b : R) : bool := if Req_EM_T a b then true else false.
(* falco/proper/prop_rectangle.py:120-122: among the lowest vertices the first of those most to the left *)
Definition lowest (p : poly) : nat :=
  let my := lmin (v_y p) (v_n p) in
  let xs k := if Reqb (v_y p k) my then v_x p k else lmax (v_x p) (v_n p) in
  first_from (fun k => Reqb (v_y p k) my && Reqb (v_x p k) (lmin xs (v_n p)))%bool 0 (v_n p).
(* falco/proper/prop_rectangle.py:124-133 *)
Definition start (p : poly) : chains := let b := lowest p in mkch b (vnext (v_n p) b) b (vprev (v_n p) b).
(* falco/proper/prop_rectangle.py:157-169: at most one vertex per line on each side *)
Definition advance (p : poly) (y : R) (s : chains) : chains :=
  let l := if Rle_dec (v_y p (h_ln s)) y then (h_ln s, vnext (v_n p) (h_ln s)) else (h_l s, h_ln s) in
  let r := if Rle_dec (v_y p (h_rn s)) y then (h_rn s, vprev (v_n p) (h_rn s)) else (h_r s, h_rn s) in
  mkch (fst l) (snd l) (fst r) (snd r).
(* falco/proper/prop_rectangle.py:171-183: where the edge from a to b crosses y *)
Definition crossing (p : poly) (a b : nat) (y : R) : R :=
  let dy := v_y p b - v_y p a in
  if Req_EM_T dy 0 then v_x p a else (v_x p b - v_x p a) / dy * (y - v_y p a) + v_x p a.
(* falco/proper/prop_rectangle.py:147-183: one line.  None: nothing is painted.  The break at 154-155 leaves the lines that follow, all above
   the top too: the same as continue *)
Definition scan_line (p : poly) (y : R) (s : chains) : chains * option (R * R) :=
  if Rlt_dec y (v_y p (h_l s)) then (s, None)
  else if Rlt_dec (lmax (v_y p) (v_n p)) y then (s, None)
  else let s' := advance p y s in (s', Some (crossing p (h_l s') (h_ln s') y, crossing p (h_r s') (h_rn s') y)).
(* falco/proper/prop_rectangle.py:149: y of line k of row i *)
Definition line_y (mag i k : nat) : R := INR i - 1 / 2 + (1 / 2 + INR k) / INR mag.
(* what a line adds to the columns of its row *)
Definition painter : Type := R -> R -> res (nat -> R).
(* falco/proper/prop_rectangle.py:148-209: cnt lines of row i from line k *)
Fixpoint scan_subs (pt : painter) (p : poly) (mag i k cnt : nat) (s : chains) (row : nat -> R) : res (chains * (nat -> R)) :=
  match cnt with
  | O => Ok (s, row)
  | S c =>
    let a := scan_line p (line_y mag i k) s in
    match snd a with
    | None => scan_subs pt p mag i (S k) c (fst a) row
    | Some (xl, xr) => do add <- pt xl xr; scan_subs pt p mag i (S k) c (fst a) (fun j => row j + add j)
    end
  end.
(* falco/proper/prop_rectangle.py:147: cnt rows from row i *)
Fixpoint scan_rows (pt : painter) (p : poly) (mag i cnt : nat) (s : chains) (img : nat -> nat -> R) : res (nat -> nat -> R) :=
  match cnt with
  | O => Ok img
  | S c =>
    do sr <- scan_subs pt p mag i 0 mag s (img i);
    scan_rows pt p mag (S i) c (fst sr) (fun i' => if (i' =? i)%nat then snd sr else img i')
  end.
(* falco/proper/prop_rectangle.py:185-209: adds mag times the part of [xl, xr] over each pixel *)
Definition b2r (b : bool) (x : R) : R := if b then x else 0.
Definition paint_rect (n mag : nat) : painter := fun xl xr =>
  let l := ZnearestE xl in let r := ZnearestE xr in let N := Z.of_nat n in
  Ok (fun j0 => let j := Z.of_nat j0 in
    if negb (l =? r)%Z then
      b2r ((0 <=? l) && (l <? N) && (j =? l))%Z%bool (INR mag * (IZR l + 1 / 2 - xl)) +
      b2r ((0 <=? r) && (r <? N) && (j =? r))%Z%bool (INR mag * (xr - (IZR r - 1 / 2))) +
      b2r ((1 <? r - l) && (l + 1 <? N) && (0 <? r))%Z%bool
        (b2r (((if l + 1 <? 0 then 0 else l + 1) <=? j) && (j <? (if N <? r then N else r)))%Z%bool (INR mag))
    else b2r ((0 <=? l) && (l <? N) && (j =? l))%Z%bool (INR mag * (xr - xl))).
(* falco/proper/prop_rectangle.py:118-216; the rows from imin to imax, the image divided by mag**2, and DARK *)
Definition fill (pt : painter) (top : Z -> Z) (n mag : nat) (dark : bool) (p : poly) : res (field R) :=
  let lo := ZnearestE (lmin (v_y p) (v_n p)) in
  let imin := if (lo <? 0)%Z then 0%Z else lo in
  let imax := top (ZnearestE (lmax (v_y p) (v_n p))) in
  do img <- scan_rows pt p mag (Z.to_nat imin) (Z.to_nat (imax - imin)) (start p) (fun _ _ => 0);
  Ok (mkf n n (fun i j => let v := img i j / (INR mag * INR mag) in if dark then 1 - v else v)).
(* arguments of prop_rectangle; None: nan, the default; ROTATION in degrees *)
Record rpar : Type := mkrp { r_xsize : R; r_ysize : R; r_xc : option R; r_yc : option R; r_rot : R; r_norm : bool; r_dark : bool }.
Definition ocpix (w : wavefront) (norm : bool) (x : option R) : R := match x with None => INR (w_n w / 2) | Some v => to_pix w norm v + INR (w_n w / 2) end.
(* falco/proper/prop_rectangle.py:110-111 *)
Definition rcx (k : nat) (xr : R) : R := match k with 0%nat => - xr | 1%nat => - xr | 2%nat => xr | _ => xr end.
Definition rcy (k : nat) (yr : R) : R := match k with 0%nat => - yr | 1%nat => yr | 2%nat => yr | _ => - yr end.
(* falco/proper/prop_rectangle.py:81-116 *)
Definition rect_poly (w : wavefront) (q : rpar) : poly :=
  let xc := ocpix w (r_norm q) (r_xc q) in let yc := ocpix w (r_norm q) (r_yc q) in
  let xr := 1 / 2 * to_pix w (r_norm q) (r_xsize q) in let yr := 1 / 2 * to_pix w (r_norm q) (r_ysize q) in
  let t := r_rot q * PI / 180 in
  mkpoly 4 (fun k => rcx k xr * cos t - rcy k yr * sin t + xc) (fun k => rcx k xr * sin t + rcy k yr * cos t + yc).
(* falco/proper/prop_rectangle.py:15-220; mag: proper.antialias_subsampling; imax as in 140-143 *)
Definition prop_rectangle (mag : nat) (w : wavefront) (q : rpar) : res (field R) :=
  if Req_EM_T (get_sampling w) 0 then Raise ZeroDivisionError
  else let n := w_n w in
    fill (paint_rect n mag) (fun hi => if (Z.of_nat n <=? hi + 1)%Z then Z.of_nat n else (hi + 1)%Z) n mag (r_dark q) (rect_poly w q).
(* falco/proper/prop_rectangular_aperture.py:47-57, prop_rectangular_obscuration.py:48-57 *)
Definition rectangular_aperture (mag : nat) (w : wavefront) (width height xc yc rot : R) (norm : bool) : res wavefront :=
  do m <- prop_rectangle mag w (mkrp width height (Some xc) (Some yc) rot norm false); times_mask w m.
Definition rectangular_obscuration (mag : nat) (w : wavefront) (width height xc yc rot : R) (norm : bool) : res wavefront :=
  do m <- prop_rectangle mag w (mkrp width height (Some xc) (Some yc) rot norm true); times_mask w m.
(* ---- irregular polygons ---- *)
(* numpy's index k into n elements, negative ones from the end *)
Definition np_ix (n : nat) (k : Z) : res nat :=
  let N := Z.of_nat n in
  if ((k <? - N) || (N <=? k))%Z%bool then Raise IndexError else Ok (Z.to_nat (if (k <? 0)%Z then k + N else k)).
(* stop of a slice *)
Definition np_stop (n : nat) (k : Z) : Z := if (k <? 0)%Z then Z.max 0 (k + Z.of_nat n) else Z.min k (Z.of_nat n).
(* falco/proper/prop_irregular_polygon.py:163-183 (prop_polygon.py: the same lines) *)
Definition paint_irregular (n mag : nat) : painter := fun xl xr =>
  let l := ZnearestE xl in let r := ZnearestE xr in let N := Z.of_nat n in
  if negb (l =? r)%Z then
    do a <- (if (0 <=? l)%Z then do k <- np_ix n l; Ok (fun j => b2r (j =? k)%nat (INR mag * (IZR l + 1 / 2 - xl))) else Ok (fun _ => 0));
    do b <- (if (r <? N)%Z then do k <- np_ix n r; Ok (fun j => b2r (j =? k)%nat (INR mag * (xr - (IZR r - 1 / 2)))) else Ok (fun _ => 0));
    let lo := if (l + 1 <? 0)%Z then 0%Z else (l + 1)%Z in
    let hi := np_stop n (if (N <=? r)%Z then N - 1 else r)%Z in
    Ok (fun j => a j + b j + b2r (1 <? r - l)%Z (b2r ((lo <=? Z.of_nat j) && (Z.of_nat j <? hi))%Z%bool (INR mag)))
  else Ok (fun j => b2r ((0 <=? l) && (l <? N) && (Z.of_nat j =? l))%Z%bool (INR mag * (xr - xl))).
(* falco/proper/prop_irregular_polygon.py:72-94: vertices in metres, reversed when the first corner turns counter-clockwise *)
Definition polygon_pix (w : wavefront) (norm : bool) (p : poly) : poly :=
  let x := v_x p in let y := v_y p in let nv := v_n p in
  let cp := (x 1%nat - x 0%nat) * (y 2%nat - y 1%nat) - (y 1%nat - y 0%nat) * (x 2%nat - x 1%nat) in
  let o k := if Rlt_dec 0 cp then (nv - 1 - k)%nat else k in
  mkpoly nv (fun k => to_pix w norm (x (o k)) + INR (w_n w / 2)) (fun k => to_pix w norm (y (o k)) + INR (w_n w / 2)).
(* falco/proper/prop_irregular_polygon.py:15-190: three vertices at least; imax as in 121-123 *)
Definition prop_irregular_polygon (mag : nat) (w : wavefront) (p : poly) (norm dark : bool) : res (field R) :=
  if Req_EM_T (get_sampling w) 0 then Raise ZeroDivisionError
  else if (v_n p <? 3)%nat then Raise IndexError
  else let n := w_n w in
    fill (paint_irregular n mag) (fun hi => if (Z.of_nat n <? hi + 1)%Z then Z.of_nat n else (hi + 1)%Z) n mag dark (polygon_pix w norm p).
