(* Specification vocabulary for pupils with a central obscuration and struts (C103) *)
From Verif Require Import Base RBase StrBase CBase PropModel EllModel EllSpec RectModel RectSpec SimpModel.
Open Scope R_scope.
(* positions in beam diameters, x along the columns and y along the rows, from the centre of the array; u counted in pixels.  The centre of N pixels is
   N/2 when pixel-centred, (N-1)/2 when interpixel-centred *)
Definition pos (p : simple) (u : R) : R :=
  (u - (if String.eqb (s_centering p) "pixel" then INR (s_npad p) / 2 else (INR (s_npad p) - 1) / 2)) / s_nbeam p.
(* the ellipse of diameters xStretch * d along x and d along y, at (xShear, yShear), turned by the clocking from +x towards +y *)
Definition in_disc (p : simple) (d x y : R) : Prop :=
  let t := PI * s_clock p / 180 in
  let u := cos t * (x - s_xs p) + sin t * (y - s_ys p) in
  let v := - sin t * (x - s_xs p) + cos t * (y - s_ys p) in
  (u / (s_xst p * d / 2)) ^ 2 + (v / (d / 2)) ^ 2 <= 1.
(* the strut at the angle a: from (xShear, yShear) a length of 0.6 in the direction a + clocking, of width wStrut *)
Definition along (p : simple) (a x y : R) : R :=
  let t := PI * (a + s_clock p) / 180 in cos t * (x - s_xs p) + sin t * (y - s_ys p).
Definition across (p : simple) (a x y : R) : R :=
  let t := PI * (a + s_clock p) / 180 in cos t * (y - s_ys p) - sin t * (x - s_xs p).
Definition in_strut (p : simple) (a x y : R) : Prop := 0 <= along p a x y <= 6 / 10 /\ Rabs (across p a x y) <= s_wstrut p / 2.
(* struts on arrays of an odd number of pixels are misplaced: half a pixel towards the first row and column *)
Definition misplaced (p : simple) : R := if Nat.even (s_npad p) then 0 else / 2 / s_nbeam p.
Definition blocked (p : simple) (a x y : R) : Prop := in_strut p a (x + misplaced p) (y + misplaced p).
(* v is the mean, over 101 lines across row i, of the length over pixel [i, j] (in pixels) that the strut at a blocks *)
Definition strut_cover (p : simple) (a : R) (i j : nat) (v : R) : Prop :=
  exists len : nat -> R,
    (forall k, (k < 101)%nat -> has_length (fun u => INR j - 1 / 2 <= u <= INR j + 1 / 2 /\
       blocked p a (pos p u) (pos p (INR i - 1 / 2 + (INR k + 1 / 2) / 101))) (len k)) /\
    v = rsum 101 len / 101.
Fixpoint product (l : list R) : R := match l with [] => 1 | x :: r => x * product r end.
(* all of the pixel's square satisfies P *)
Definition all_square (p : simple) (P : R -> R -> Prop) (i j : nat) : Prop :=
  forall u v, INR j - 1 / 2 <= u <= INR j + 1 / 2 -> INR i - 1 / 2 <= v <= INR i + 1 / 2 -> P (pos p u) (pos p v).
(* usual arguments *)
Record usual (p : simple) : Prop := { u_c : s_centering p = "pixel"%string \/ s_centering p = "interpixel"%string; u_n : (2 <= s_npad p)%nat;
  u_b : 0 < s_nbeam p; u_od : 0 < s_od p; u_id : s_id p <= s_od p; u_x : 0 < s_xst p; u_w : 0 < s_wstrut p \/ s_ang p = [] /\ s_wstrut p = 0 }.
(* fraction of the 101 x 101 samples of pixel [i, j] in the ellipse of diameters xStretch * d and d *)
Definition in_disc_dec (p : simple) (d x y : R) : {in_disc p d x y} + {~ in_disc p d x y}.
Proof. apply Rle_dec. Defined.
Definition sample (k s : nat) : R := INR k + (INR s - 50) / 101.
Definition disc_cover (p : simple) (d : R) (i j : nat) : R :=
  INR (length (filter (fun st => if in_disc_dec p d (pos p (sample j (fst st))) (pos p (sample i (snd st))) then true else false)
                      (list_prod (seq 0 101) (seq 0 101)))) / 10201.
(* the grid is wide enough, measured from the pupil's centre at the centre of the first pixel, for gen_ellipse to antialias all of the edge (C82) *)
Definition framed (p : simple) : Prop :=
  let x0 := Rabs (pos p 0 - s_xs p) in let y0 := Rabs (pos p 0 - s_ys p) in let h := 101 / 2 / s_nbeam p in
  (s_xst p = 1 /\ (h <= x0 \/ h <= y0)) \/ (s_clock p = 0 /\ s_xst p <= 1 /\ h <= x0 /\ y0 <= x0) \/ (s_clock p = 0 /\ 1 <= s_xst p /\ h <= y0 /\ x0 <= y0).
(* ---- hyper-gaussians ---- *)
(* distance from the centre of the array of the point (x, y), x unstretched, over the radius d / 2 *)
Definition ratio (p : simple) (d x y : R) : R := sqrt ((x / s_xst p) ^ 2 + y ^ 2) / (d / 2).
(* coordinates along and across the spider at a, from the centre of the array, x unstretched *)
Definition hg_along (p : simple) (a x y : R) : R := let t := PI * a / 180 in cos t * (x / s_xst p) + sin t * y.
Definition hg_across (p : simple) (a x y : R) : R := let t := PI * a / 180 in cos t * y - sin t * (x / s_xst p).
Definition smooth (m : nat) (q : R) : R := exp (- q ^ m).
(* transmission of the spider at a *)
Definition spider (p : simple) (a x y : R) : R :=
  if Rlt_dec 0 (hg_along p a x y) then 1 - smooth 100 (hg_across p a x y / (s_wstrut p / 2)) else 1.
