(* Model of the Zernike polynomials: prop_noll_zernikes and prop_zernikes (falco/proper), propcustom_zernikes and
   gen_norm_zern_maps (falco/zern.py), over exact numbers *)
From Coq Require Import DecimalString.
From Verif Require Import Base RBase StrBase CBase UtilModel PropModel OptModel EstModel PrpModel.
Open Scope R_scope.
(* ---- falco/proper/prop_noll_zernikes.py ---- *)
(* An equation: a string in the code, its parts here; ztext gives the string.  ZPoly v l a is sqrt(v) times the sum of the terms
   c*r^p for (c, p) in l, times cos(m*t) (Some (true, m)) or sin(m*t) (Some (false, m)) *)
Inductive zexpr : Type := ZOne | ZPoly (v : nat) (l : list (Z * nat)) (a : option (bool * nat)).
Fixpoint zfact (n : nat) : Z := match n with O => 1%Z | S k => (Z.of_nat n * zfact k)%Z end.
(* 114-117: term_val and term_r; scipy's factorial is the exact factorial and int() truncates *)
Definition zterm (n m s : nat) : Z * nat :=
  (Z.quot ((-1) ^ Z.of_nat s * zfact (n - s)) (zfact s * zfact ((n + m) / 2 - s) * zfact ((n - m) / 2 - s)), n - 2 * s)%nat.
(* 96-169 for the index iz; m is even or odd with n *)
Definition zentry (iz n m : nat) : zexpr :=
  if Nat.eqb n 0 then ZOne
  else ZPoly (if Nat.eqb m 0 then n + 1 else 2 * (n + 1)) (map (zterm n m) (seq 0 ((n - m) / 2 + 1)))
             (if Nat.eqb m 0 then None else Some (Nat.even iz, m)).
(* 94-95: the values of m, each with the number of values of p *)
Definition zmodes (n : nat) : list nat :=
  flat_map (fun h => let m := (n mod 2 + 2 * h)%nat in if Nat.eqb m 0 then [m] else [m; m]) (seq 0 (n / 2 + 1)).
(* 94-176: one pass over the two for loops, with the breaks; n = 0 continues without a test (108-110) *)
Fixpoint zrow (iz n maxz : nat) (ms : list nat) : list zexpr :=
  match ms with
  | [] => []
  | m :: r => zentry iz n m :: (if (negb (Nat.eqb n 0) && Nat.ltb maxz (S iz))%bool then [] else zrow (S iz) n maxz r)
  end.
(* 93-178: while loop; every pass adds an entry, so that fuel maxz + 1 is never used up *)
Fixpoint zloop (fuel iz n maxz : nat) : list zexpr :=
  match fuel with
  | O => []
  | S k => if Nat.leb iz maxz then let l := zrow iz n maxz (zmodes n) in (l ++ zloop k (iz + length l) (S n) maxz)%list else []
  end.
(* entries 1 .. maxz of z_list *)
Definition prop_noll_zernikes (maxz : nat) : list zexpr := zloop (S maxz) 1 0 maxz.
(* max_r_power and max_theta_multiplier (119-120, 145-146) *)
Definition zpowers (e : zexpr) : list nat := match e with ZOne => [] | ZPoly _ l _ => map snd l end.
Definition zmults (e : zexpr) : list nat := match e with ZPoly _ _ (Some (_, m)) => [m] | _ => [] end.
Definition max_r_power (l : list zexpr) : nat := fold_right Nat.max 0%nat (flat_map zpowers l).
Definition max_theta (l : list zexpr) : nat := fold_right Nat.max 0%nat (flat_map zmults l).
(* str(n) *)
Definition show (n : N) : string := NilEmpty.string_of_uint (N.to_uint n).
Definition show_nat (n : nat) : string := show (N.of_nat n).
(* 116, 122-143; term_top is never 0 (122) *)
Definition ztext_term (compact first : bool) (cp : Z * nat) : string :=
  let rop := if compact then "_pow_"%string else "**"%string in
  let term := (show (Z.abs_N (fst cp)) ++ ".0")%string in
  let sign := if first then (if (fst cp <? 0)%Z then "-" else "")%string else (if (fst cp <? 0)%Z then " - " else " + ")%string in
  (sign ++ match snd cp with
     | O => term
     | S O => if negb (fst cp =? 1)%Z then term ++ "*r" else "r"
     | p => if negb (fst cp =? 1)%Z then term ++ "*r" ++ rop ++ show_nat p else "r" ++ rop ++ show_nat p
     end)%string.
Fixpoint ztext_terms (compact first : bool) (l : list (Z * nat)) : string :=
  match l with [] => ""%string | cp :: r => (ztext_term compact first cp ++ ztext_terms compact false r)%string end.
(* 102-106, 148-169: before it is stored *)
Definition ztext (compact : bool) (e : zexpr) : string :=
  match e with
  | ZOne => "1"%string
  | ZPoly v l a =>
    ((if Nat.eqb v (Nat.sqrt v ^ 2) then show_nat (Nat.sqrt v) ++ " * (" else "math.sqrt(" ++ show_nat v ++ ") * (") ++ ztext_terms compact true l ++ ")" ++
     match a with
     | None => ""
     | Some (c, m) => " * " ++ (if c then "cos" else "sin") ++ (if compact then show_nat m ++ "t" else "(" ++ (if Nat.eqb m 1 then "t" else show_nat m ++ "*t") ++ ")")
     end)%string
  end.
(* 89: an element of dtype S250 keeps 250 characters *)
Definition zstored (compact : bool) (e : zexpr) : string := substring 0 250 (ztext compact e).
(* value of the complete equation.  math.sqrt(v) and, for a square v, its root (102-106) are sqrt(v) *)
Definition zval (e : zexpr) (r t : R) : R :=
  match e with
  | ZOne => 1
  | ZPoly v l a => sqrt (INR v) * rsuml (map (fun cp => IZR (fst cp) * r ^ snd cp) l) *
      match a with None => 1 | Some (true, m) => cos (INR m * t) | Some (false, m) => sin (INR m * t) end
  end.
(* eval(zlist[k]) in prop_zernikes.py:161, zern.py:560: the names r_pow_i, cosit, sinit are those of prop_zernikes.py:148-157.  What
   eval does with an equation that was cut is not modelled: OtherError *)
Definition zeval (l : list zexpr) (k : nat) (r t : R) : res R :=
  match k with
  | O => Raise OtherError    (* eval of an empty string *)
  | S h => match nth_error l h with
    | None => Raise IndexError
    | Some e =>
      if negb (String.eqb (zstored true e) (ztext true e)) then Raise OtherError
      else if (forallb (fun p => Nat.leb p (max_r_power l)) (zpowers e) && forallb (fun m => Nat.leb 1 m && Nat.leb m (max_theta l)) (zmults e))%bool
      then Ok (zval e r t) else Raise NameError
    end
  end.
(* ---- obscured Zernikes: falco/proper/prop_zernikes.py:176-227, falco/zern.py:577-620 (the same formulas) ---- *)
Definition zobs (k : nat) (eps r t : R) : option R :=
  let e2 := eps ^ 2 in let e4 := eps ^ 4 in let e6 := eps ^ 6 in let e8 := eps ^ 8 in
  let r2 := r ^ 2 in let r3 := r ^ 3 in let r4 := r ^ 4 in let r5 := r ^ 5 in
  let f7 := 2 * sqrt 2 * r * (2 + 2 * e4 - 3 * r2 + e2 * (2 - 3 * r2)) in
  let d7 := (-1 + e2) * sqrt (1 + 5 * e2 + 5 * e4 + e6) in
  let f12 := sqrt 10 * r2 * (3 + 3 * e6 - 4 * r2 + e2 * (3 - 4 * r2) + e4 * (3 - 4 * r2)) in
  let d12 := (-1 + e2) * sqrt ((1 + e2 + e4) * (1 + 4 * e2 + 10 * e4 + 4 * e6 + e8)) in
  let f16 := 2 * sqrt 3 * r * (3 + 3 * e8 - 12 * r2 + 10 * r4 - 12 * e6 * (-1 + r2) + 2 * e4 * (15 - 24 * r2 + 5 * r4) + 4 * e2 * (3 - 12 * r2 + 10 * r4)) in
  let d16 := (-1 + e2) ^ 2 * sqrt ((1 + 4 * e2 + e4) * (1 + 9 * e2 + 9 * e4 + e6)) in
  let f18 := 2 * sqrt 3 * r3 * (4 + 4 * e8 - 5 * r2 + e2 * (4 - 5 * r2) + e4 * (4 - 5 * r2) + e6 * (4 - 5 * r2)) in
  let d18 := (-1 + e2) * sqrt ((1 + e2 + e4 + e6) * (1 + 4 * e2 + 10 * e4 + 20 * e6 + 10 * e8 + 4 * eps ^ 10 + eps ^ 12)) in
  match k with
  | 1%nat => Some 1
  | 2%nat => Some (2 * r * cos t / sqrt (1 + e2))
  | 3%nat => Some (2 * r * sin t / sqrt (1 + e2))
  | 4%nat => Some (sqrt 3 * (1 + e2 - 2 * r2) / (-1 + e2))
  | 5%nat => Some (sqrt 6 * r2 * sin (2 * t) / sqrt (1 + e2 + e4))
  | 6%nat => Some (sqrt 6 * r2 * cos (2 * t) / sqrt (1 + e2 + e4))
  | 7%nat => Some (f7 * sin t / d7)
  | 8%nat => Some (f7 * cos t / d7)
  | 9%nat => Some (2 * sqrt 2 * r3 * sin (3 * t) / sqrt (1 + e2 + e4 + e6))
  | 10%nat => Some (2 * sqrt 2 * r3 * cos (3 * t) / sqrt (1 + e2 + e4 + e6))
  | 11%nat => Some (sqrt 5 * (1 + e4 - 6 * r2 + 6 * r4 + e2 * (4 - 6 * r2)) / (-1 + e2) ^ 2)
  | 12%nat => Some (f12 * cos (2 * t) / d12)
  | 13%nat => Some (f12 * sin (2 * t) / d12)
  | 14%nat => Some (sqrt 10 * r4 * cos (4 * t) / sqrt (1 + e2 + e4 + e6 + e8))
  | 15%nat => Some (sqrt 10 * r4 * sin (4 * t) / sqrt (1 + e2 + e4 + e6 + e8))
  | 16%nat => Some (f16 * cos t / d16)
  | 17%nat => Some (f16 * sin t / d16)
  | 18%nat => Some (f18 * cos (3 * t) / d18)
  | 19%nat => Some (f18 * sin (3 * t) / d18)
  | 20%nat => Some (2 * sqrt 3 * r5 * cos (5 * t) / sqrt (1 + e2 + e4 + e6 + e8 + eps ^ 10))
  | 21%nat => Some (2 * sqrt 3 * r5 * sin (5 * t) / sqrt (1 + e2 + e4 + e6 + e8 + eps ^ 10))
  | 22%nat => Some (sqrt 7 * (1 + e6 - 12 * r2 + 30 * r4 - 20 * r ^ 6 + e4 * (9 - 12 * r2) + e2 * (9 - 36 * r2 + 30 * r4)) / (-1 + e2) ^ 3)
  | _ => None
  end.
(* zernike_num: np.asarray of a number has no length and no elements to index.  Negative numbers are not modelled *)
Inductive znum : Type := Scalar (k : nat) | Array (l : list nat).
Definition zlist (z : znum) : list nat := match z with Scalar k => [k] | Array l => l end.
(* one pixel, eps = 0: prop_zernikes.py:141-164, zern.py:540-563 *)
Fixpoint zsum (l : list zexpr) (nums : list nat) (vals : list R) (r t : R) : res R :=
  match nums with
  | [] => Ok 0
  | k :: ks => match zeval l k r t, vals with
    | Raise x, _ => Raise x
    | Ok _, [] => Raise IndexError
    | Ok z, v :: vs => do s <- zsum l ks vs r t; Ok (v * z + s)
    end
  end.
(* one pixel, eps <> 0, prop_zernikes.py:175-229: ab keeps its value when no formula matches; unbound at first.
   every is whether line 229 is inside the loop over the modes (prop_zernikes) or after it (zern.py:622: propcustom_zernikes) *)
Fixpoint zobs_sum (every : bool) (eps : R) (nums : list nat) (vals : list R) (ab : option R) (r t : R) : res R :=
  match nums with
  | [] => Ok 0
  | k :: ks =>
    let ab' := match zobs k eps r t with Some z => Some z | None => ab end in
    let here := (every || match ks with [] => true | _ => false end)%bool in
    if here then match ab', vals with
      | _, [] => Raise IndexError
      | None, _ => Raise NameError
      | Some z, v :: vs => do s <- zobs_sum every eps ks vs ab' r t; Ok (v * z + s)
      end
    else zobs_sum every eps ks (tl vals) ab' r t
  end.
(* the first error of the pixels, in some order: every pixel has the same *)
Definition zmap (n : nat) (f : nat -> nat -> res R) : res (field R) :=
  if Nat.eqb n 0 then Ok (mkf n n (fun _ _ => 0))
  else match f O O with
    | Raise x => Raise x
    | Ok _ => Ok (mkf n n (fun i j => match f i j with Ok z => z | Raise _ => 0 end))
    end.
(* value at the pixel with coordinates (x, y) in radii: prop_zernikes.py:141-144; maxz = zernike_num.max() *)
Definition zpixel (every : bool) (eps : R) (nums : list nat) (vals : list R) (x y : R) : res R :=
  let r := sqrt (x ^ 2 + y ^ 2) in
  let t := atan2 y x in
  if Req_EM_T eps 0 then zsum (prop_noll_zernikes (list_max nums)) nums vals r t
  else zobs_sum every eps nums vals None r t.
(* errors before the loops: prop_zernikes.py:121-124; a scalar zernike_num cannot be indexed (161) and has no len (175) *)
Definition zcheck (eps : R) (z : znum) (n : nat) : option exn :=
  match z with
  | Array [] => Some ValueError
  | _ => if (if Req_EM_T eps 0 then false else Nat.ltb 22 (list_max (zlist z))) then Some ValueError
         else match z with Scalar _ => if Nat.eqb n 0 then None else if Req_EM_T eps 0 then Some IndexError else Some TypeError | Array _ => None end
  end.
(* 231-236 / 624-629 *)
Definition zapply (w : wavefront) (no_apply amplitude : bool) (dmap : field R) : res wavefront :=
  if no_apply then Ok w
  else
    let s := shift_center dmap in
    do E <- imul (w_arr w) (mkf (frows s) (fcols s) (fun i j => if amplitude then RtoC (fpx s i j) else cis (2 * PI / w_lam w * fpx s i j)));
    Ok (set_arr w E).
(* falco/proper/prop_zernikes.py:111-238.  radius: RADIUS, or the radius of the pilot beam.  proper.n is the size of the grid of the
   last prop_begin: here the one of the wavefront *)
Definition prop_zernikes (w : wavefront) (num : znum) (vals : list R) (eps : R) (radius : option R) (no_apply amplitude : bool) : res (field R * wavefront) :=
  let n := w_n w in
  let rad := match radius with Some q => q | None => get_beamradius w end in
  match zcheck eps num n with
  | Some x => Raise x
  | None =>
    let c := fun k => (INR k - INR (n / 2)) * get_sampling w / rad in
    do d <- zmap n (fun i j => zpixel true eps (zlist num) vals (c j) (c i));
    do w' <- zapply w no_apply amplitude d;
    Ok (d, w')
  end.
(* falco/zern.py:497-631; centering: the keyword CENTERING *)
Definition propcustom_zernikes (w : wavefront) (num : znum) (vals : list R) (eps : R) (radius : option R) (no_apply amplitude : bool) (centering : option string) : res (field R * wavefront) :=
  let n := w_n w in
  let rad := match radius with Some q => q | None => get_beamradius w end in
  let dx := get_sampling w / rad in
  match zcheck eps (Array (zlist num)) n with
  | Some x => Raise x
  | None =>
    do _ <- match centering with
      | Some s => if str_in s ["pixel"%string; "interpixel"%string] then Ok tt else Raise ValueError
      | None => Ok tt
      end;
    match zcheck eps num n with
    | Some x => Raise x
    | None =>
      let off := match centering with Some s => if contains "interpixel" s then dx / 2 else 0 | None => 0 end in
      let c := fun k => (INR k - INR (n / 2)) * dx + off in
      do d <- zmap n (fun i j => zpixel false eps (zlist num) vals (c j) (c i));
      do w' <- zapply w no_apply amplitude d;
      Ok (d, w')
    end
  end.
(* falco/zern.py:363-393; indsZnoll a number or an array of numbers *)
Fixpoint zcube (w : wavefront) (centering : string) (inds : list nat) : res (list (field R)) :=
  match inds with
  | [] => Ok []
  | k :: r => do dw <- propcustom_zernikes w (Array [k]) [1] 0 None true false (Some centering); do c <- zcube w centering r; Ok (fst dw :: c)
  end.
Definition zmap_size (Nbeam : R) (centering : string) : nat :=
  Z.to_nat (if contains "interpixel" centering then ceil_even Nbeam else ceil_even (Nbeam + 1)).
Definition gen_norm_zern_maps (Nbeam : R) (centering : string) (inds : znum) : res (list (field R)) :=
  if negb (str_in centering ["pixel"%string; "interpixel"%string]) then Raise ValueError
  else
    let Narray := zmap_size Nbeam centering in
    if Req_EM_T Nbeam 0 then Raise ZeroDivisionError
    else do w <- prop_begin 1 (/ 1000000) Narray (INR Narray / Nbeam); zcube w centering (zlist inds).
