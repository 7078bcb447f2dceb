(* Model of PROPER's image magnification: prop_magnify, prop_szoom, the C routine prop_szoom_c, and prop_pixellate.
   Real arithmetic; the C routine's 3.141592653589793 is PI *)
From Verif Require Import Base StrBase RBase CtrlModel UtilModel DmSurfModel CubModel DmcModel CBase PropModel OptModel ErrModel.
Open Scope R_scope.
(* falco/proper/prop_szoom.py:15-32: away from zero *)
Definition away (x : R) : Z := if Rlt_dec x 0 then Zfloor x else Zceil x.
(* falco/proper/prop_szoom.py:80-87, prop_szoom_c.c:40-55: the damped sinc *)
Definition damped (x : R) : R :=
  if Rle_dec (Rabs x) 6 then (if Req_EM_T x 0 then 1 else let p := x * PI in sin p / p * sin (p / 6) / (p / 6)) else 0.
(* falco/proper/prop_szoom.py:76-87, 95-100, prop_szoom_c.c:35-41, 61-66 (C: y2 = y_pix + 6 >= size_in): input coordinate from the centre, kernel, first input pixel, window inside *)
Definition x_in (nout : nat) (mag : R) (i : nat) : R := (INR i - INR (nout / 2)) / mag.
Definition kernel (rnd : R -> Z) (nout : nat) (mag : R) (i k : nat) : R := let x := x_in nout mag i in damped ((INR k - 6) - (x - IZR (rnd x))).
Definition first_px (rnd : R -> Z) (nin nout : nat) (mag : R) (i : nat) : Z := (rnd (x_in nout mag i) + Z.of_nat (nin / 2) - 6)%Z.
Definition fits (rnd : R -> Z) (nin nout : nat) (mag : R) (i : nat) : bool := let p := first_px rnd nin nout mag i in ((0 <=? p) && (p + 13 <=? Z.of_nat nin))%Z.
(* falco/proper/prop_szoom.py:90-125, prop_szoom_c.c:58-92.  mem: what the output array holds before *)
Definition zoom (rnd : R -> Z) (mem : nat -> nat -> R) (im : field R) (nout : nat) (mag : R) : field R :=
  let n := frows im in
  mkf nout nout (fun j i =>
    if fits rnd n nout mag j && fits rnd n nout mag i then
      rsum 13 (fun b => rsum 13 (fun a => fpx im (Z.to_nat (first_px rnd n nout mag j + Z.of_nat a)) (Z.to_nat (first_px rnd n nout mag i + Z.of_nat b)) * kernel rnd nout mag j a) * kernel rnd nout mag i b)
    else mem j i).
(* keywords *)
Record mkeys : Type := mkmk { m_quick : bool; m_cons : bool; m_amp : bool }.
(* falco/proper/prop_magnify.py:70-76: int() truncates; nout is a whole number *)
Definition out_size (nin : nat) (mag : R) (nout : nat) : Z := if Nat.eqb nout 0 then Ztrunc (INR nin * mag) else Z.of_nat nout.
(* falco/proper/prop_magnify.py:67-145 for a square real image stored by rows.  lib: the C routine was compiled.  ip: cubic convolution or scipy (QUICK).
   A size of 0 makes prop_szoom use its own default, the size less 13 (prop_szoom.py:67-68); np.zeros refuses negative sizes.  mag = 0 raises in Python; numpy and C go on with infinities, not modelled *)
Definition magnify_size (lib quick : bool) (nin : nat) (mag : R) (nout : nat) : res nat :=
  let s := out_size nin mag nout in
  let s := if (negb quick && negb lib && (s =? 0))%bool%Z then (Ztrunc (INR nin * mag) - 13)%Z else s in
  if (s <? 0)%Z then Raise ValueError else if (if Req_EM_T mag 0 then negb quick && negb lib else false) then Raise ZeroDivisionError else Ok (Z.to_nat s).
Definition conserve (k : mkeys) (complexes : bool) (mag : R) : R :=
  if m_cons k then (if complexes then mag else mag ^ 2) else if m_amp k then mag else 1.
Definition magnify_with (ip : interpolator) (lib : bool) (mem : nat -> nat -> R) (complexes : bool) (im : field R) (mag : R) (nout : nat) (k : mkeys) : res (field R) :=
  do s <- magnify_size lib (m_quick k) (frows im) mag nout;
  let o := if m_quick k then mkf s s (ip (to_arr im) (Axes s s (fun i => x_in s mag i + INR (frows im / 2)) (fun i => x_in s mag i + INR (frows im / 2))))
           else if lib then zoom roundval mem im s mag
           else zoom away (fun _ _ => 0) im s mag in
  Ok (mkf s s (fun j i => fpx o j i / conserve k complexes mag)).
Definition prop_magnify (ip : interpolator) (lib : bool) (im : field R) (mag : R) (nout : nat) (k : mkeys) : res (field R) :=
  magnify_with ip lib (fun _ _ => 0) false im mag nout k.
(* complex images: real and imaginary part one after the other; the C routine writes into one array made with np.empty, which holds mem *)
Definition prop_magnify_c (ip : interpolator) (lib : bool) (mem : nat -> nat -> R) (im : field C) (mag : R) (nout : nat) (k : mkeys) : res (field C) :=
  do a <- magnify_with ip lib mem true (mkf (frows im) (fcols im) (fun i j => fst (fpx im i j))) mag nout k;
  do b <- magnify_with ip lib mem true (mkf (frows im) (fcols im) (fun i j => snd (fpx im i j))) mag nout k;
  Ok (mkf (frows a) (fcols a) (fun j i => (fpx a j i, fpx b j i))).
(* falco/proper/prop_pixellate.py:49-61: transfer function of a pixel, index i; the first is 1 *)
Definition pixel_mtf (n : nat) (sin_ sout : R) (i : nat) : R :=
  let x := (INR (roll_ix n (- half n) i) - INR (n / 2)) / INR (n / 2) in
  let t := x * (1 / 2 * (sout / sin_) * PI) in
  if Nat.eqb i 0 then 1 else sin t / t.
(* falco/proper/prop_pixellate.py:64-69: fft2 / size, times the function, ifft2 * size; real square image *)
Definition pixel_conv (im : field R) (sin_ sout : R) : field R :=
  let n := frows im in
  let r := roll2 (- half n) (- half n) im in
  let F := fft_scaled (-1) (/ (INR n * INR n)) (mkf n n (fun i j => RtoC (fpx r i j))) in
  let G := mkf n n (fun i j => Cmult (RtoC (pixel_mtf n sin_ sout i * pixel_mtf n sin_ sout j)) (fpx F i j)) in
  let c := fft_scaled 1 1 G in
  roll2 (half n) (half n) (mkf n n (fun i j => Cmod (fpx c i j) / (sin_ / sout) ^ 2)).
(* falco/proper/prop_pixellate.py:46-78; np.fix then int: truncation *)
Definition prop_pixellate (ip : interpolator) (lib : bool) (im : field R) (sin_ sout : R) (nout : nat) : res (field R) :=
  let mag := sin_ / sout in
  let n' := if Nat.eqb nout 0 then 0%nat else Z.to_nat (Ztrunc (INR (frows im) * mag)) in
  prop_magnify ip lib (pixel_conv im sin_ sout) mag n' (mkmk false false false).
