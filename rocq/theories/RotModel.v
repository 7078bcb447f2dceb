(* Model of the rotated differentiable DM, falco/diff_dm.py: rotation matrix, projection coordinates and the parts of the DM class that use
   them.  Exact real arithmetic; scipy's spline interpolation is a parameter *)
From Verif Require Import Base RBase CBase PropModel OptModel DiffModel.
Open Scope R_scope.

Definition mat : Type := nat -> nat -> R.
(* A @ B for n x n arrays *)
Definition mmul (n : nat) (A B : mat) : mat := fun i j => rsum n (fun k => A i k * B k j).
Definition mrow (j : nat) (l : list R) : R := nth j l 0.
(* falco/diff_dm.py:214-228 *)
Definition mat_x (a : R) : mat := fun i j => mrow j match i with 0%nat => [1; 0; 0] | 1%nat => [0; cos a; - sin a] | _ => [0; sin a; cos a] end.
Definition mat_y (b : R) : mat := fun i j => mrow j match i with 0%nat => [cos b; 0; sin b] | 1%nat => [0; 1; 0] | _ => [- sin b; 0; cos b] end.
Definition mat_z (g : R) : mat := fun i j => mrow j match i with 0%nat => [cos g; - sin g; 0] | 1%nat => [sin g; cos g; 0] | _ => [0; 0; 1] end.
(* falco/diff_dm.py:179-235: angles about Z, Y, X; missing ones are 0, more than three do not fit into ZYX[:n] *)
Definition rotation_matrix (zyx : list R) (use_zyx radians : bool) : res mat :=
  if Nat.ltb 3 (length zyx) then Raise ValueError else
  let ang k := if radians then nth k zyx 0 else nth k zyx 0 * PI / 180 in
  let g := ang 0%nat in let b := ang 1%nat in let a := ang 2%nat in
  Ok (if use_zyx then mmul 3 (mmul 3 (mat_x a) (mat_y b)) (mat_z g) else mmul 3 (mmul 3 (mat_z g) (mat_y b)) (mat_x a)).
(* falco/diff_dm.py:238-243 *)
Definition promote (M : mat) : mat := fun i j => if Nat.ltb i 3 && Nat.ltb j 3 then M i j else if Nat.eqb i 3 && Nat.eqb j 3 then 1 else 0.
(* falco/diff_dm.py:246-251, tz = 0 *)
Definition translation (tx ty : R) : mat := fun i j =>
  if Nat.eqb j 3 then mrow i [tx; ty; 0; 1] else if Nat.eqb i j then 1 else 0.
(* falco/diff_dm.py:254-273 *)
Definition drop_z (M : mat) : mat := fun i j => let k x := nth x [0; 1; 3]%nat 0%nat in M (k i) (k j).
(* np.linalg.inv of a 3 x 3 array: adjugate over determinant, LinAlgError if that is 0 *)
Definition det3 (M : mat) : R :=
  M 0%nat 0%nat * (M 1%nat 1%nat * M 2%nat 2%nat - M 1%nat 2%nat * M 2%nat 1%nat)
  - M 0%nat 1%nat * (M 1%nat 0%nat * M 2%nat 2%nat - M 1%nat 2%nat * M 2%nat 0%nat)
  + M 0%nat 2%nat * (M 1%nat 0%nat * M 2%nat 1%nat - M 1%nat 1%nat * M 2%nat 0%nat).
Definition cyc (i d : nat) : nat := ((i + d) mod 3)%nat.
Definition inv3 (M : mat) : res mat :=
  if Req_EM_T (det3 M) 0 then Raise LinAlgError else
  Ok (fun i j => (M (cyc j 1) (cyc i 1) * M (cyc j 2) (cyc i 2) - M (cyc j 1) (cyc i 2) * M (cyc j 2) (cyc i 1)) / det3 M).
(* falco/diff_dm.py:276-296, 330-338: one point *)
Definition apply_homography (M : mat) (x y : R) : R * R :=
  let p i := mrow i [x; y; 1] in
  let o i := rsum 3 (fun k => M i k * p k) in (o 0%nat / o 2%nat, o 1%nat / o 2%nat).
(* falco/diff_dm.py:341-358: where the pixel in column x, row y is looked up, forwards and in reverse, as (column, row) *)
Definition projection (rows cols : nat) (rot : list R) (use_zyx : bool) : res ((R -> R -> R * R) * (R -> R -> R * R)) :=
  do Rm <- rotation_matrix rot use_zyx false;
  let oy := INR rows / 2 in let ox := INR cols / 2 in
  let fwd := drop_z (mmul 4 (translation ox oy) (mmul 4 (promote Rm) (translation (- ox) (- oy)))) in
  do bwd <- inv3 fwd;
  Ok (apply_homography bwd, apply_homography fwd).

(* scipy.ndimage.map_coordinates(img, (y, x)) at one point *)
Definition interp : Type := field R -> R -> R -> R.
(* falco/diff_dm.py:299-327 *)
Definition warp (ip : interp) (img : field R) (co : R -> R -> R * R) : field R :=
  mkf (frows img) (fcols img) (fun i j => let q := co (INR j) (INR i) in ip img (snd q) (fst q)).

(* falco/diff_dm.py:579: np.linalg.norm of the angles in degrees *)
Definition obliquity (rot : list R) : R := cos (sqrt (rsuml (map (fun x => x * x) rot)) * PI / 180).
(* falco/diff_dm.py:594: np.allclose(rot, [0, 0, 0]); shapes 0 and 2, 4, ... do not broadcast with 3 *)
Definition all_close0 (rot : list R) : res bool :=
  if Nat.eqb (length rot) 3 || Nat.eqb (length rot) 1 then Ok (forallb (fun x => if Rle_dec (Rabs x) (1 / 100000000) then true else false) rot) else Raise ValueError.
(* falco/diff_dm.py:593-611; order: Some true 'zyx', Some false 'xyz', None any other string *)
Definition rot_init (rows cols : nat) (rot : list R) (order : option bool) : res (option ((R -> R -> R * R) * (R -> R -> R * R))) :=
  do z <- all_close0 rot;
  if z then Ok None else
  match order with
  | None => Raise ValueError
  | Some o => do p <- projection rows cols rot o; Ok (Some p)
  end.
(* a DM object: the model without rotation, and what rot_init stored *)
Record rdm : Type := mkrdm { r_dm : dm_model; r_rot : list R; r_proj : option ((R -> R -> R * R) * (R -> R -> R * R)) }.
Definition rdm_init (ifn : field R) (nactx nacty sepx sepy : nat) (shx shy up : R) (rot : list R) (order : option bool) : res rdm :=
  do d <- dm_init ifn nactx nacty sepx sepy shx shy up;
  do p <- rot_init (frows ifn) (fcols ifn) rot order;
  Ok (mkrdm d rot p).
Definition rdm_update (d : rdm) (a : field R) : res rdm := do m <- dm_update (r_dm d) a; Ok (mkrdm m (r_rot d) (r_proj d)).
(* falco/diff_dm.py:645-683 *)
Definition rrender (ip : interp) (d : rdm) (nr nc : nat) (wfe : bool) : res (field R * (nat * nat)) :=
  do s <- apply_tf (d_poke (r_dm d)) (d_tf (r_dm d));
  let s := match r_proj d with Some (f, _) => warp ip s f | None => s end in
  let w := if wfe then rscale (2 * obliquity (r_rot d)) s else s in
  let u := resample w (d_up (r_dm d)) in
  do o <- pad_cropr u nr nc;
  Ok (o, (frows u, fcols u)).
(* falco/diff_dm.py:685-740 *)
Definition rbackprop (ip : interp) (d : rdm) (inter : option (nat * nat)) (g : field R) (wfe : bool) : res (field R) :=
  match inter with
  | None => Raise AttributeError
  | Some (r, c) =>
    do p <- pad_cropr g r c;
    let p := if Req_EM_T (d_up (r_dm d)) 1 then p else let up := INR (frows (d_ifn (r_dm d))) / INR (frows p) in rscale (/ (up * up)) (resample p up) in
    let p := if wfe then rscale (2 * obliquity (r_rot d)) p else p in
    let p := match r_proj d with Some (_, b) => warp ip p b | None => p end in
    do a <- apply_tf p (fmap Cconj (d_tf (r_dm d)));
    Ok (gather (d_lat (r_dm d)) a)
  end.
(* falco/diff_dm.py:162-171: angles and order that the wrapper passes; dm.py:107-117 passes xtilt, ytilt, zrot of the DM *)
Definition wrapper_rot (xtilt ytilt ztilt : R) : list R := [- 1 * ztilt; ytilt; xtilt].
Definition wrapper_order (XYZ : bool) : option bool := Some (negb XYZ).
