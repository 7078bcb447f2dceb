(* Model of PROPER's regular polygons (falco/proper/prop_polygon.py).  Real arithmetic *)
From Verif Require Import Base RBase CBase PropModel PrpModel ApModel RectModel.
Open Scope R_scope.
(* arguments: number of vertices, radius, centre (None: nan, the default), ROTATION in degrees (0 without it), NORM, DARK *)
Record ngon : Type := mkng { g_nv : nat; g_rad : R; g_xc : option R; g_yc : option R; g_rot : R; g_norm : bool; g_dark : bool }.
(* falco/proper/prop_polygon.py:78-92: the centre from ngrid / 2, not ngrid // 2 *)
Definition mid_pix (w : wavefront) (norm : bool) (x : option R) : R := match x with None => INR (w_n w) / 2 | Some v => to_pix w norm v + INR (w_n w) / 2 end.
(* falco/proper/prop_polygon.py:94-117 *)
Definition ngon_poly (w : wavefront) (q : ngon) : poly :=
  let a := if Req_EM_T (g_rot q) 0 then 0 else g_rot q * PI / 180 in
  let t k := - (INR k / INR (g_nv q)) * 2 * PI in
  mkpoly (g_nv q)
    (fun k => (cos (t k) * cos a - sin (t k) * sin a) * to_pix w (g_norm q) (g_rad q) + mid_pix w (g_norm q) (g_xc q))
    (fun k => (cos (t k) * sin a + sin (t k) * cos a) * to_pix w (g_norm q) (g_rad q) + mid_pix w (g_norm q) (g_yc q)).
(* falco/proper/prop_polygon.py:187-205 in row i: numpy's IndexError for rows beyond the grid, when a pixel or a slice of the row is written *)
Definition paint_row (n mag i : nat) : painter := fun xl xr =>
  if (i <? n)%nat then paint_irregular n mag xl xr
  else let l := ZnearestE xl in let r := ZnearestE xr in
    if (negb (l =? r) || ((0 <=? l) && (l <? Z.of_nat n)))%Z%bool then Raise IndexError else Ok (fun _ => 0).
(* falco/proper/prop_polygon.py:152: cnt rows from row i; the painter depends on the row *)
Fixpoint scan_rows_at (pt : nat -> painter) (p : poly) (mag i cnt : nat) (s : chains) (img : nat -> nat -> R) : res (nat -> nat -> R) :=
  match cnt with
  | O => Ok img
  | S c =>
    do sr <- scan_subs (pt i) p mag i 0 mag s (img i);
    scan_rows_at pt p mag (S i) c (fst sr) (fun i' => if (i' =? i)%nat then snd sr else img i')
  end.
(* falco/proper/prop_polygon.py:142-150: imax is one row more than in prop_irregular_polygon when the top vertex rounds to ngrid *)
Definition top_row (n : nat) (hi : Z) : Z := if (Z.of_nat n <? hi)%Z then Z.of_nat n else (hi + 1)%Z.
(* falco/proper/prop_polygon.py:15-212; np.min of no vertices *)
Definition prop_polygon (mag : nat) (w : wavefront) (q : ngon) : res (field R) :=
  if Req_EM_T (get_sampling w) 0 then Raise ZeroDivisionError
  else if (g_nv q =? 0)%nat then Raise ValueError
  else let n := w_n w in let p := ngon_poly w q in
    let lo := ZnearestE (lmin (v_y p) (v_n p)) in
    let imin := if (lo <? 0)%Z then 0%Z else lo in
    let imax := top_row n (ZnearestE (lmax (v_y p) (v_n p))) in
    do img <- scan_rows_at (paint_row n mag) p mag (Z.to_nat imin) (Z.to_nat (imax - imin)) (start p) (fun _ _ => 0);
    Ok (mkf n n (fun i j => let v := img i j / (INR mag * INR mag) in if g_dark q then 1 - v else v)).
