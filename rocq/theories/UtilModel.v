(* Model of falco/util.py (array placement, sizes and coordinate axes). *)
From Verif Require Import Base RBase.
Open Scope Z_scope.

(* ------------------------------------------------------------------ *)
(** * pad_crop *)

(* falco/util.py:217, 234-248 (numerical core of pad_crop, after argument checks).
   sh0 = arrayIn.shape, sh1 = (r1, c1).  The element type is abstract; the dtype
   promotion of [extrapval * np.ones] is not modelled. *)
Definition pad_crop {A} (a : arr A) (r1 c1 : Z) (extrap : A) : res (arr A) :=
  let r0 := nr a in
  let c0 := nc a in
  let out := mkarr r1 c1 (fun _ _ => extrap) in
  let xneg := Z.min (c0 / 2) (c1 / 2) in
  let xpos := Z.min (c0 - c0 / 2) (c1 - c1 / 2) in
  let yneg := Z.min (r0 / 2) (r1 / 2) in
  let ypos := Z.min (r0 - r0 / 2) (r1 - r1 / 2) in
  set_slice2 out (r1 / 2 - yneg) (r1 / 2 + ypos) (c1 / 2 - xneg) (c1 / 2 + xpos)
    (slice2 a (r0 / 2 - yneg) (r0 / 2 + ypos) (c0 / 2 - xneg) (c0 / 2 + xpos)).

(* Dynamically typed arguments of pad_crop. *)
Inductive size_elem : Type :=
| EInt (z : Z)          (* Python int (bool counts as 0/1) *)
| ENpInt (z : Z)        (* numpy integer scalar: not an instance of int *)
| EOther.               (* float, str, None, ... *)
Inductive size_arg : Type :=
| SInt (z : Z)
| SNpInt (z : Z)
| SSeq (l : list size_elem)  (* tuple, list, or 1-D ndarray (elements ENpInt) *)
| SNoLen.                    (* anything on which len() raises TypeError *)
Inductive nd_arg (A : Type) : Type :=
| Nd2 (a : arr A)       (* 2-D ndarray *)
| NdBad.                (* anything check.twoD_array rejects *)
Arguments Nd2 {A} _.
Arguments NdBad {A}.
Inductive fill_arg (A : Type) : Type :=
| FillReal (x : A)
| FillBad.              (* not a real scalar *)
Arguments FillReal {A} _.
Arguments FillBad {A}.

Definition is_int (e : size_elem) : bool := match e with EInt _ => true | _ => false end.
Definition elem_z (e : size_elem) : Z :=
  match e with EInt z => z | ENpInt z => z | EOther => 0 end.

(* falco/util.py:215-232: argument checks of pad_crop.  Every TypeError raised in the
   try block is re-raised as TypeError.  A dict used as outsize is not modelled. *)
Definition pad_crop_py {A} (arrayIn : nd_arg A) (outsize : size_arg) (extrapval : fill_arg A)
  : res (arr A) :=
  match arrayIn with
  | NdBad => Raise TypeError
  | Nd2 a =>
    match extrapval with
    | FillBad => Raise TypeError
    | FillReal e =>
      let sh1 := match outsize with
                 | SInt z => SSeq [EInt z; EInt z]
                 | SNpInt z => SSeq [ENpInt z; ENpInt z]
                 | o => o
                 end in
      match sh1 with
      | SSeq l =>
        if negb (Nat.eqb (length l) 2) then Raise TypeError
        else
          let s0 := nth 0 l EOther in
          let s1 := nth 1 l EOther in
          if negb (is_int s0) || negb (is_int s1) then Raise TypeError
          else if (elem_z s0 <=? 0) || (elem_z s1 <=? 0) then Raise TypeError
          else pad_crop a (elem_z s0) (elem_z s1) e
      | _ => Raise TypeError
      end
    end
  end.

(* A chain of pad_crop calls through the given sizes. *)
Fixpoint pad_crop_chain {A} (a : arr A) (sizes : list (Z * Z)) (extrap : A) : res (arr A) :=
  match sizes with
  | [] => Ok a
  | (r, c) :: t => do b <- pad_crop a r c extrap; pad_crop_chain b t extrap
  end.

(* ------------------------------------------------------------------ *)
(** * offcenter_crop *)

(* np.ceil(k / 2.) for an integer k *)
Definition ceil_half (k : Z) : Z := - ((- k) / 2).

(* falco/util.py:505-513 / 516-523: amount of padding on one axis (same code for rows and
   columns). *)
Definition oc_pad (nIn nOut center : Z) : Z :=
  let padPre := if ceil_half (- nOut) + center <? 0
                then Z.abs (ceil_half (- nOut) + center) else 0 in
  let padPost := if ceil_half nOut + center >? nIn - 1
                 then ceil_half nOut + center - nIn else 0 in
  Z.max padPre padPost.

(* falco/util.py:494-543, with centres already rounded to integers; zero is the fill.
   positive_scalar_integer checks on the output size raise TypeError. *)
Definition offcenter_crop_int {A} (zero : A) (a : arr A) (centerRow centerCol nRowOut nColOut : Z)
  : res (arr A) :=
  if (nRowOut <=? 0) || (nColOut <=? 0) then Raise TypeError else
  let y_pad := oc_pad (nr a) nRowOut centerRow in
  let x_pad := oc_pad (nc a) nColOut centerCol in
  match pad_crop_py (Nd2 a) (SSeq [EInt (nr a + 2 * y_pad); EInt (nc a + 2 * x_pad)])
                    (FillReal zero) with
  | Raise e => Raise e
  | Ok padded =>
    let cc := centerCol + x_pad in
    let cr := centerRow + y_pad in
    let rowBuffer := if nRowOut mod 2 =? 1 then 1 else 0 in
    let colBuffer := if nColOut mod 2 =? 1 then 1 else 0 in
    Ok (slice2 padded (cr - nRowOut / 2) (cr + nRowOut / 2 + rowBuffer)
                      (cc - nColOut / 2) (cc + nColOut / 2 + colBuffer))
  end.

(* falco/util.py:456-543 with real centres: np.round rounds half to even. *)
Definition offcenter_crop {A} (zero : A) (a : arr A) (centerRow centerCol : R)
    (nRowOut nColOut : Z) : res (arr A) :=
  offcenter_crop_int zero a (ZnearestE centerRow) (ZnearestE centerCol) nRowOut nColOut.

(* ------------------------------------------------------------------ *)
(** * ceil_even, ceil_odd, pad_to_even_square, nextpow2 *)

(* falco/util.py:117-132 (ideal real arithmetic) *)
Definition ceil_even (x : R) : Z := (2 * Zceil (/ 2 * x))%Z.

(* falco/util.py:135-154 *)
Definition ceil_odd (x : R) : Z :=
  let x_out := Zceil x in
  if x_out mod 2 =? 0 then x_out + 1 else x_out.

(* falco/util.py:157-176 *)
Definition pad_to_even_square {A} (zero : A) (a : arr A) : res (arr A) :=
  let nOut := ceil_even (IZR (Z.max (nr a) (nc a))) in
  pad_crop_py (Nd2 a) (SSeq [EInt nOut; EInt nOut]) (FillReal zero).

(* log base 2 as numpy computes it, in ideal arithmetic *)
Definition log2 (x : R) : R := (ln x / ln 2)%R.

(* falco/util.py:106-114 *)
Definition nextpow2 (N : R) : Z :=
  if Req_EM_T N 0 then 0 else Zceil (log2 (Rabs N)).

(* ------------------------------------------------------------------ *)
(** * create_axis *)

(* falco/util.py:418-453; np.arange(np.ceil(-N/2), np.ceil(N/2)) has
   ceil(N/2) - ceil(-N/2) elements. The centring string is checked by check.centering;
   here it is a boolean (true = 'interpixel').  N >= 1 and step > 0 are checked. *)
Definition create_axis (N : Z) (step : R) (interpixel : bool) : res (list R) :=
  if N <=? 0 then Raise TypeError else
  if Rle_dec step 0 then Raise TypeError else
  let lo := ceil_half (- N) in
  let hi := ceil_half N in
  let axis := map (fun k => (IZR (lo + k) * step)%R) (zrange (hi - lo)) in
  let even := negb (negb (N mod 2 =? 0)) in
  if even && interpixel then Ok (map (fun x => (x + / 2 * step)%R) axis) else Ok axis.

(* ------------------------------------------------------------------ *)
(** * radial grids *)

(* falco/util.py:322-350, 396-415 (radial_grid_squared): pixel (i,j) uses axis[j] for x
   and axis[i] for y *)
Definition radial_grid_squared (axis : list R) (xs ys : R) : arr R :=
  let n := Z.of_nat (length axis) in
  mkarr n n (fun i j =>
    ((nth (Z.to_nat j) axis 0 / xs) * (nth (Z.to_nat j) axis 0 / xs) +
     (nth (Z.to_nat i) axis 0 / ys) * (nth (Z.to_nat i) axis 0 / ys))%R).

(* falco/util.py:374-393 *)
Definition radial_grid (axis : list R) (xs ys : R) : arr R :=
  let n := Z.of_nat (length axis) in
  mkarr n n (fun i j => sqrt (px (radial_grid_squared axis xs ys) i j)).

(* ------------------------------------------------------------------ *)
(** * bin_downsample *)

(* sum of a rectangular block a[r0:r1, c0:c1] (np.sum of a slice) *)
Definition arr_sum (a : arr R) : R :=
  rsum (Z.to_nat (nr a)) (fun i => rsum (Z.to_nat (nc a)) (fun j => px a (Z.of_nat i) (Z.of_nat j))).

(* falco/util.py:546-581.  Line 568-569 builds ValueError without raising it, hence no
   divisibility check here. *)
Definition bin_downsample (Ain : arr R) (dsfac : Z) : res (arr R) :=
  if dsfac <=? 0 then Raise ValueError else
  let nx1 := nc Ain / dsfac in
  let ny1 := nr Ain / dsfac in
  Ok (mkarr ny1 nx1 (fun iy ix =>
    (arr_sum (slice2 Ain (dsfac * iy) (dsfac * (iy + 1)) (dsfac * ix) (dsfac * (ix + 1)))
       / IZR dsfac / IZR dsfac)%R)).

(* ------------------------------------------------------------------ *)
(** * allcomb *)

(* falco/util.py:251-285: list(itertools.product( *args )); itertools.product is documented
   as nested for-loops with the rightmost element advancing fastest. *)
Fixpoint allcomb {A} (args : list (list A)) : list (list A) :=
  match args with
  | [] => [[]]
  | l :: t => flat_map (fun x => map (fun r => x :: r) (allcomb t)) l
  end.

(* ------------------------------------------------------------------ *)
(** * _spec_arg *)

(* falco/util.py:288-320; kwargs as an association list; mat_struct as an optional lookup
   (attribute access on a missing field raises AttributeError). Keys are naturals. *)
Definition spec_arg {V} (k : nat) (kwargs : nat -> option V)
    (mat_struct : option (nat -> option V)) (v : V) : res V :=
  match kwargs k with
  | Some x => Ok x
  | None => match mat_struct with
            | Some m => match m k with Some x => Ok x | None => Raise AttributeError end
            | None => Ok v
            end
  end.
