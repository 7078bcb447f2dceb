(* Model of PROPER's cubic-convolution interpolation: the C routines cubic_conv_c.c and cubic_conv_threaded_c.c and the Python
   wrapper prop_cubic_conv.  Doubles are real numbers; C integers do not overflow *)
From Coq Require Import Permutation.
From Verif Require Import Base RBase.
Open Scope R_scope.
(* falco/proper/cubic_conv_c.c:14-20, cubic_conv_threaded_c.c:30-36: halves away from zero *)
Definition roundval (x : R) : Z := if Rlt_dec 0 x then Zfloor (x + / 2) else (- Zfloor (- x + / 2))%Z.
(* falco/proper/cubic_conv_c.c:56-72, 87-103: the two kernel parts at distance d *)
Definition ker0 (d : R) : R := if Rle_dec d 1 then d * d * (2 * d - 3) + 1 else 0.
Definition ker1 (d : R) : R := if Rle_dec d 1 then d * d * (d - 1) else if Rle_dec d 2 then d * (d * d - 5 * d + 8) - 4 else 0.
(* falco/proper/cubic_conv_c.c:42-51, 76-85: the middle pixel, kept two away from the borders *)
Definition pix (size : Z) (v : R) : Z := let p := roundval v in if (p <? 2)%Z then 2%Z else if (size - 2 <? p)%Z then (size - 2)%Z else p.
(* roundval(v) - v (53, 87) *)
Definition frac (v : R) : R := IZR (roundval v) - v.
(* distance of sample j = 0..4 (58, 92) *)
Definition dist (c : R) (j : nat) : R := Rabs (c + (INR j - 2)).
(* falco/proper/cubic_conv_c.c:108-127: fx, fy are the fractions the kernels come from; mem: the image, at y*size_in_x + x *)
Definition weight (fx fy : R) (i j : nat) : R :=
  let a := - (1 / 2) in
  ker0 (dist fx i) * ker0 (dist fy j) + a * (ker0 (dist fx i) * ker1 (dist fy j) + ker1 (dist fx i) * ker0 (dist fy j)) + a * a * ker1 (dist fx i) * ker1 (dist fy j).
Definition pixel_sum (mem : Z -> R) (sx sy : Z) (fx fy : R) (px py : Z) : R :=
  rsum 5 (fun j => let yoff := (py + Z.of_nat j - 2)%Z in
    if ((yoff <? 0) || (sy <=? yoff))%Z%bool then 0
    else rsum 5 (fun i => let xoff := (px + Z.of_nat i - 2)%Z in
      if ((xoff <? 0) || (sx <=? xoff))%Z%bool then 0 else weight fx fy i j * mem (yoff * sx + xoff)%Z)).
(* falco/proper/cubic_conv_c.c:22-131: pixel ii of the output; the loops over y_out and x_out run over ii = 0 .. size_out_x*size_out_y - 1 *)
Definition conv_px (mem : Z -> R) (sx sy : Z) (x y : nat -> R) (ii : nat) : R := pixel_sum mem sx sy (frac (x ii)) (frac (y ii)) (pix sx (x ii)) (pix sy (y ii)).
(* ---- the threaded routine ---- *)
(* cubic_conv_threaded_c.c:150-178: the kernels in x are made once, from x_in[x_out] of the first row *)
Definition thread_px (mem : Z -> R) (sx sy : Z) (x y : nat -> R) (sox : nat) (yo xo : nat) : R :=
  let ii := (yo * sox + xo)%nat in pixel_sum mem sx sy (frac (x xo)) (frac (y ii)) (pix sx (x ii)) (pix sy (y ii)).
(* cubic_conv_threaded_c.c:194-206: rows of a thread *)
Definition thread_dy (soy nt : nat) : nat := let dy := (soy / nt)%nat in if Nat.eqb (dy * nt) soy then dy else (dy + 1)%nat.
Definition thread_rows (soy nt t : nat) : list nat :=
  let dy := thread_dy soy nt in
  let first := (t * dy)%nat in
  let stop := Nat.min ((t + 1) * dy) soy in
  seq first (stop - first).
(* cubic_conv_threaded_c.c:51-124: the writes of a thread, in order *)
Definition thread_writes (mem : Z -> R) (sx sy : Z) (x y : nat -> R) (sox soy nt t : nat) : list (nat * R) :=
  flat_map (fun yo => map (fun xo => ((yo * sox + xo)%nat, thread_px mem sx sy x y sox yo xo)) (seq 0 sox)) (thread_rows soy nt t).
(* an array of writes in any order; out0: what np.empty or np.zeros gave *)
Definition apply_writes (out0 : nat -> R) (ws : list (nat * R)) : nat -> R := fold_left (fun o w k => if Nat.eqb k (fst w) then snd w else o k) ws out0.
(* a schedule interleaves the writes of all threads *)
Definition schedule (mem : Z -> R) (sx sy : Z) (x y : nat -> R) (sox soy nt : nat) (ws : list (nat * R)) : Prop :=
  Permutation ws (flat_map (thread_writes mem sx sy x y sox soy nt) (seq 0 nt)).
(* ---- the wrapper ---- *)
(* memory order of a NumPy array; Fortran: the transpose of a C-ordered array *)
Inductive order : Type := Corder | Forder.
Definition in_memory (o : order) (s0 s1 : Z) (a : Z -> Z -> R) (k : Z) : R := match o with Corder => a (k / s1)%Z (k mod s1)%Z | Forder => a (k mod s0)%Z (k / s0)%Z end.
(* falco/proper/prop_cubic_conv.py:85-101.  GRID: axes; otherwise a pair of coordinate arrays of shape ydim x xdim *)
Inductive coords : Type := Axes (xdim ydim : nat) (xv yv : nat -> R) | Points (xdim ydim : nat) (xv yv : nat -> nat -> R).
Definition xdim (c : coords) : nat := match c with Axes m _ _ _ => m | Points m _ _ _ => m end.
Definition ydim (c : coords) : nat := match c with Axes _ n _ _ => n | Points _ n _ _ => n end.
(* np.tile, np.repeat, flatten *)
Definition flat_x (c : coords) (k : nat) : R := match c with Axes m _ xv _ => xv (k mod m)%nat | Points m _ xv _ => xv (k / m)%nat (k mod m)%nat end.
Definition flat_y (c : coords) (k : nat) : R := match c with Axes m _ _ yv => yv (k / m)%nat | Points m _ _ yv => yv (k / m)%nat (k mod m)%nat end.
(* falco/proper/prop_cubic_conv.py:122-134 for a real image a of shape s0 x s1: the C routine is given size_in_x = s0, size_in_y = s1,
   size_out_x = ydim and size_out_y = xdim.  The result, of shape ydim x xdim, is read at row r, column c *)
Definition cubic_conv (o : order) (s0 s1 : Z) (a : Z -> Z -> R) (c : coords) (r k : nat) : R := conv_px (in_memory o s0 s1 a) s0 s1 (flat_x c) (flat_y c) (r * xdim c + k).
Definition cubic_conv_threaded (o : order) (s0 s1 : Z) (a : Z -> Z -> R) (c : coords) (nt : nat) (ws : list (nat * R)) (r k : nat) : R := apply_writes (fun _ => 0) ws (r * xdim c + k)%nat.
Definition wrapper_schedule (o : order) (s0 s1 : Z) (a : Z -> Z -> R) (c : coords) (nt : nat) (ws : list (nat * R)) : Prop :=
  schedule (in_memory o s0 s1 a) s0 s1 (flat_x c) (flat_y c) (ydim c) (xdim c) nt ws.
