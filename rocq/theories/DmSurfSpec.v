(* Specification vocabulary for DM orientation, surfaces and geometry. *)
From Verif Require Import StrBase Base RBase CtrlModel DmModel UtilModel DmSurfModel.
Open Scope Z_scope.

(* ---- orientation: the eight symmetries of the square, in centred coordinates ---- *)
(* actuator in row r, column c of an N x N grid: x to the right, y upwards, origin at the middle,
   in half-pitch units *)
Definition centred (N r c : Z) : Z * Z := (2 * c - (N - 1), (N - 1) - 2 * r).
Definition mirror_x (p : Z * Z) : Z * Z := (- fst p, snd p).
Definition quarter_turn (p : Z * Z) : Z * Z := (- snd p, fst p).   (* counter-clockwise *)
Definition symmetry (flip : bool) (k : nat) (p : Z * Z) : Z * Z :=
  Nat.iter k quarter_turn (if flip then mirror_x p else p).
Definition orientation_table : list (string * (bool * nat)) :=
  [("rot0", (false, 0%nat)); ("rot90", (false, 1%nat)); ("rot180", (false, 2%nat)); ("rot270", (false, 3%nat));
   ("flipxrot0", (true, 0%nat)); ("flipxrot90", (true, 1%nat)); ("flipxrot180", (true, 2%nat));
   ("flipxrot270", (true, 3%nat))]%string.
(* actuator (r,c) ends at grid position (r',c') *)
Definition moves_to (N : Z) (flip : bool) (k : nat) (r c r' c' : Z) : Prop :=
  centred N r' c' = symmetry flip k (centred N r c).
Definition on_grid (N r c : Z) : Prop := 0 <= r < N /\ 0 <= c < N.

(* two grid positions are neighbours: distinct, at most one row and one column apart *)
Definition adjacent (r c r' c' : Z) : Prop :=
  (r, c) <> (r', c') /\ -1 <= r - r' <= 1 /\ -1 <= c - c' <= 1.

Open Scope R_scope.
(* ---- surface from influence functions ---- *)
Definition box_ok (c : cube) (k : Z) : Prop :=
  (0 <= ll_x c k /\ ll_x c k + Nbox c <= NdmPad c /\ 0 <= ll_y c k /\ ll_y c k + Nbox c <= NdmPad c)%Z.
Definition in_box (c : cube) (k i j : Z) : bool :=
  ((ll_y c k <=? i) && (i <? ll_y c k + Nbox c) && (ll_x c k <=? j) && (j <? ll_x c k + Nbox c))%Z.
(* contribution of actuator k at pixel (i, j) per unit of height *)
Definition influence (c : cube) (k i j : Z) : R :=
  if in_box c k i j then inf_datacube c k (i - ll_y c k)%Z (j - ll_x c k)%Z else 0.
Definition significant (c : cube) (k : Z) : Prop := 1 / 10 ^ 12 < abs_total (Nbox c) (inf_datacube c k).
Definition height (V VtoH : arr R) (k : Z) : R :=
  px V (k / nc V)%Z (k mod nc V)%Z * px VtoH (k / nc VtoH)%Z (k mod nc VtoH)%Z.

(* ---- elementary rotations about the three axes ---- *)
Definition mat := nat -> nat -> R.
Definition entry9 (a b c d e f g h k : R) : mat := fun i j =>
  match i, j with
  | 0%nat, 0%nat => a | 0%nat, 1%nat => b | 0%nat, _ => c
  | 1%nat, 0%nat => d | 1%nat, 1%nat => e | 1%nat, _ => f
  | _, 0%nat => g | _, 1%nat => h | _, _ => k
  end.
Definition Rx t := entry9 1 0 0  0 (cos t) (- sin t)  0 (sin t) (cos t).
Definition Ry t := entry9 (cos t) 0 (sin t)  0 1 0  (- sin t) 0 (cos t).
Definition Rz t := entry9 (cos t) (- sin t) 0  (sin t) (cos t) 0  0 0 1.
Definition mmul (A B : mat) : mat := fun i j => rsum 3 (fun k => A i k * B k j).
Definition mat_eq (A B : mat) : Prop := forall i j, (i < 3)%nat -> (j < 3)%nat -> A i j = B i j.
Definition transpose (A : mat) : mat := fun i j => A j i.
Definition ident : mat := entry9 1 0 0  0 1 0  0 0 1.
Definition det3 (A : mat) : R :=
  A 0%nat 0%nat * (A 1%nat 1%nat * A 2%nat 2%nat - A 1%nat 2%nat * A 2%nat 1%nat)
  - A 0%nat 1%nat * (A 1%nat 0%nat * A 2%nat 2%nat - A 1%nat 2%nat * A 2%nat 0%nat)
  + A 0%nat 2%nat * (A 1%nat 0%nat * A 2%nat 1%nat - A 1%nat 1%nat * A 2%nat 0%nat).

(* the DM surface at actuator resolution produced by poke heights x: sum of shifted copies of the
   influence function, centred on each actuator *)
Definition kernel (inf : arr R) (dr dc : Z) : R :=
  if ((0 <=? dr + nr inf / 2) && (dr + nr inf / 2 <? nr inf) &&
      (0 <=? dc + nc inf / 2) && (dc + nc inf / 2 <? nc inf))%Z
  then px inf (dr + nr inf / 2)%Z (dc + nc inf / 2)%Z else 0.
Definition dm_surface (nrow ncol : Z) (inf x : arr R) (i j : Z) : R :=
  rsum (Z.to_nat nrow) (fun r => rsum (Z.to_nat ncol) (fun c =>
    px x (Z.of_nat r) (Z.of_nat c) * kernel inf (i - Z.of_nat r) (j - Z.of_nat c))).
Definition odd_shape (a : arr R) : Prop :=
  (0 <= nr a /\ 0 <= nc a /\ nr a mod 2 = 1 /\ nc a mod 2 = 1)%Z.
Definition point_symmetric (a : arr R) : Prop := forall i j, (0 <= i < nr a)%Z -> (0 <= j < nc a)%Z ->
  px a i j = px a (nr a - 1 - i)%Z (nc a - 1 - j)%Z.
