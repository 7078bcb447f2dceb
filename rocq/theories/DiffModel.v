(* Model of falco/diff_dm.py: the DM class (501-737) without rotation, its lattice, resampling, and the numbers that
   dm_init_falco_wrapper (53-177) computes for it.  Modelled only for rot = (0, 0, 0) (needs_rot False, obliquity 1):
   warp() interpolates with splines.  fft2, ifft2 are the sums that define them. *)
From Verif Require Import Base RBase StrBase UtilModel CBase PropModel OptModel.
Open Scope R_scope.

Definition rfield := field R.
Definition rarr (E : field R) : arr R := mkarr (Z.of_nat (frows E)) (Z.of_nat (fcols E)) (fun i j => fpx E (Z.to_nat i) (Z.to_nat j)).
Definition of_rarr (a : arr R) : field R := mkf (Z.to_nat (nr a)) (Z.to_nat (nc a)) (fun i j => px a (Z.of_nat i) (Z.of_nat j)).
(* falco/util.py:179-248 on real arrays *)
Definition pad_cropr (E : field R) (n m : nat) : res (field R) :=
  do a <- pad_crop_py (Nd2 (rarr E)) (SSeq [EInt (Z.of_nat n); EInt (Z.of_nat m)]) (FillReal 0); Ok (of_rarr a).
Definition cfield (E : field R) : field C := fmap RtoC E.
Definition rpart (E : field C) : field R := mkf (frows E) (fcols E) (fun i j => fst (fpx E i j)).

(* falco/diff_dm.py:358-364 *)
Definition apply_tf (a : field R) (tf : field C) : res (field R) :=
  do P <- imul (fftn (cfield a)) tf;
  let r := rpart (ifftn P) in Ok (roll2 (half (frows r)) (half (fcols r)) r).

(* falco/diff_dm.py:367-416: first and last sample of the lattice along an axis of n samples; Python's // on ints is Z.div *)
Definition lat_off (nact sep : Z) : Z := if (nact mod 2 =? 0)%Z then (sep / 2)%Z else 0%Z.
Definition lat_start (n nact sep : Z) : Z := (n / 2 + (- nact) / 2 * sep + lat_off nact sep)%Z.
Definition lat_stop (n nact sep : Z) : Z := (n / 2 + nact / 2 * sep + lat_off nact sep)%Z.
(* start and length of slice(a, b, sep) on an axis of n samples; sep > 0 *)
Definition norm_ix (n x : Z) : Z := if (x <? 0)%Z then Z.max (x + n) 0 else Z.min x n.
Definition slice_len (n a b sep : Z) : nat := Z.to_nat (((norm_ix n b - norm_ix n a) + (sep - 1)) / sep).
Record lattice : Type := mklat { lt_y0 : Z; lt_ny : nat; lt_x0 : Z; lt_nx : nat; lt_sy : Z; lt_sx : Z }.
Definition prepare_lattice (rows cols : nat) (nactx nacty sepx sepy : nat) : lattice :=
  let R := Z.of_nat rows in let K := Z.of_nat cols in
  let sx := Z.of_nat sepx in let sy := Z.of_nat sepy in
  let ax := lat_start K (Z.of_nat nactx) sx in let bx := lat_stop K (Z.of_nat nactx) sx in
  let ay := lat_start R (Z.of_nat nacty) sy in let by_ := lat_stop R (Z.of_nat nacty) sy in
  mklat (norm_ix R ay) (slice_len R ay by_ sy) (norm_ix K ax) (slice_len K ax bx sx) sy sx.
(* position of sample i in a slice *)
Definition in_slice (s0 : Z) (cnt : nat) (sep : Z) (i : nat) : option nat :=
  let d := (Z.of_nat i - s0)%Z in
  if ((0 <=? d) && (d mod sep =? 0) && (d / sep <? Z.of_nat cnt))%Z then Some (Z.to_nat (d / sep)) else None.
(* X[iyy, ixx] *)
Definition gather (l : lattice) (E : field R) : field R :=
  mkf (lt_ny l) (lt_nx l) (fun r c => fpx E (Z.to_nat (lt_y0 l + Z.of_nat r * lt_sy l)) (Z.to_nat (lt_x0 l + Z.of_nat c * lt_sx l))).
(* T[...] = A with numpy's broadcasting of A to r x c *)
Definition bcast_to (A : field R) (r c : nat) : res (field R) :=
  if (Nat.eqb (frows A) r || Nat.eqb (frows A) 1) && (Nat.eqb (fcols A) c || Nat.eqb (fcols A) 1)
  then Ok (mkf r c (fun i j => fpx A (bix (frows A) i) (bix (fcols A) j))) else Raise ValueError.
(* X[iyy, ixx] = A *)
Definition scatter_lat (l : lattice) (X A : field R) : res (field R) :=
  do B <- bcast_to A (lt_ny l) (lt_nx l);
  Ok (mkf (frows X) (fcols X) (fun i j => match in_slice (lt_y0 l) (lt_ny l) (lt_sy l) i, in_slice (lt_x0 l) (lt_nx l) (lt_sx l) j with Some r, Some c => fpx B r c | _, _ => fpx X i j end)).

(* what __init__ (503-637) stores *)
Record dm_model : Type := mkdm { d_ifn : field R; d_nactx : nat; d_nacty : nat; d_lat : lattice; d_tf : field C; d_up : R; d_act : field R; d_poke : field R }.
(* falco/diff_dm.py:616-636: transfer function of influence function and shift *)
Definition ramp (n : nat) (shift : R) (k : nat) : C := cis (- (2 * PI) * fftfreq n 1 k * shift).
Definition make_tf (ifn : field R) (shx shy : R) : field C :=
  let F := fftn (cfield ifn) in
  if Req_EM_T shx 0 then if Req_EM_T shy 0 then F
    else mkf (frows F) (fcols F) (fun u v => Cmult (Cmult (fpx F u v) (ramp (fcols F) shx v)) (ramp (frows F) shy u))
  else mkf (frows F) (fcols F) (fun u v => Cmult (Cmult (fpx F u v) (ramp (fcols F) shx v)) (ramp (frows F) shy u)).
Definition zeros (r c : nat) : field R := mkf r c (fun _ _ => 0).
Definition dm_init (ifn : field R) (nactx nacty sepx sepy : nat) (shx shy up : R) : res dm_model :=
  if Nat.eqb sepx 0 || Nat.eqb sepy 0 then Raise ValueError    (* slice step cannot be zero: raised by the first use *)
  else Ok (mkdm ifn nactx nacty (prepare_lattice (frows ifn) (fcols ifn) nactx nacty sepx sepy) (make_tf ifn shx shy) up (zeros nactx nacty) (zeros (frows ifn) (fcols ifn))).
(* falco/diff_dm.py:643-652 *)
Definition dm_update (d : dm_model) (a : field R) : res dm_model :=
  do act <- bcast_to a (frows (d_act d)) (fcols (d_act d));
  do poke <- scatter_lat (d_lat d) (d_poke d) act;
  Ok (mkdm (d_ifn d) (d_nactx d) (d_nacty d) (d_lat d) (d_tf d) (d_up d) act poke).

(* falco/util.py:418-456, create_axis(n, step), pixel centred *)
Definition axis (n : nat) (step : R) (k : nat) : R := (INR k - INR (n / 2)) * step.
(* np.round: nearest integer, ties to even *)
Definition nround (x : R) : Z := let f := Int_part x in let r := x - IZR f in
  if Rlt_dec r (1/2) then f else if Rlt_dec (1/2) r then (f + 1)%Z else if Z.even f then f else (f + 1)%Z.
(* falco/diff_dm.py:419-443 with 478-498, for a scalar zoom; a zoom that rounds an axis to length 0 is outside the model *)
Definition resample (f : field R) (zoom : R) : field R :=
  if Req_EM_T zoom 1 then f else
  let m := frows f in let n := fcols f in
  let M := Z.to_nat (nround (INR m * zoom)) in let N := Z.to_nat (nround (INR n * zoom)) in
  let F := fftshift (fft2_ortho (ifftshift (cfield f))) in
  mkf M N (fun y x => zoom * (sqrt (1 / INR M) * sqrt (1 / INR N)) *
    fst (csum m (fun u => csum n (fun v => Cmult (fpx F u v) (Cmult (cis (2 * PI * (axis M 1 y * axis m (1 / INR M) u))) (cis (2 * PI * (axis N 1 x * axis n (1 / INR N) v)))))))).
Definition rscale (c : R) (E : field R) : field R := mkf (frows E) (fcols E) (fun i j => c * fpx E i j).
(* falco/diff_dm.py:654-690: surface, and the size that render stores in Nintermediate *)
Definition render (d : dm_model) (nr nc : nat) (wfe : bool) : res (field R * (nat * nat)) :=
  do s <- apply_tf (d_poke d) (d_tf d);
  let w := if wfe then rscale 2 s else s in
  let u := resample w (d_up d) in
  do o <- pad_cropr u nr nc;
  Ok (o, (frows u, fcols u)).
(* falco/diff_dm.py:692-737; inter is Nintermediate, stored by an earlier render (without one: AttributeError) *)
Definition render_backprop (d : dm_model) (inter : option (nat * nat)) (g : field R) (wfe : bool) : res (field R) :=
  match inter with
  | None => Raise AttributeError
  | Some (r, c) =>
    do p <- pad_cropr g r c;
    let p := if Req_EM_T (d_up d) 1 then p else let up := INR (frows (d_ifn d)) / INR (frows p) in rscale (/ (up * up)) (resample p up) in
    let p := if wfe then rscale 2 p else p in
    do a <- apply_tf p (fmap Cconj (d_tf d));
    Ok (gather (d_lat d) a)
  end.
(* falco/diff_dm.py:99-160: int() truncates towards zero; the arguments dm_xc, dm_yc of the wrapper are not used *)
Definition trunc (x : R) : Z := if Rle_dec 0 x then Int_part x else (- Int_part (- x))%Z.
Definition wrapper_shift (xc : R) (nact : nat) (mag : nat) : Z := (-1 * trunc ((xc - IZR (Z.of_nat nact / 2) + 1/2) * INR mag))%Z.
(* falco/diff_dm.py:143-149: samples of the padded influence function; margin of 9 actuators *)
Definition wrapper_size (nact mag : nat) : nat := (nact * mag + 2 * (9 * mag))%nat.
