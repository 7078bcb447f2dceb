(* Independent specifications for falco/util.py: what a user expects, written without
   reference to slices or loops. *)
From Verif Require Import Base RBase.
Open Scope Z_scope.

(* Pixel of [a] at signed offset (dy,dx) from the array centre (row nr/2, column nc/2 with
   floor division, the FFT convention); None when there is no such pixel. *)
Definition at_offset {A} (a : arr A) (dy dx : Z) : option A :=
  let i := nr a / 2 + dy in
  let j := nc a / 2 + dx in
  if (0 <=? i) && (i <? nr a) && (0 <=? j) && (j <? nc a) then Some (px a i j) else None.

Definition default {A} (d : A) (o : option A) : A := match o with Some x => x | None => d end.

(* out is the r x c array agreeing with a at every offset from the centre, [e] elsewhere *)
Definition is_recentred {A} (a : arr A) (r c : Z) (e : A) (out : arr A) : Prop :=
  nr out = r /\ nc out = c /\
  forall i j, 0 <= i < r -> 0 <= j < c ->
    px out i j = default e (at_offset a (i - r / 2) (j - c / 2)).

(* Pixel (i,j) of a, zero outside. *)
Definition pixel_or {A} (zero : A) (a : arr A) (i j : Z) : A :=
  if (0 <=? i) && (i <? nr a) && (0 <=? j) && (j <? nc a) then px a i j else zero.

Definition pos_size (rc : Z * Z) : Prop := 0 < fst rc /\ 0 < snd rc.

Definition least_such (P : Z -> Prop) (x : R) (n : Z) : Prop :=
  P n /\ (x <= IZR n)%R /\ forall m, P m -> (x <= IZR m)%R -> n <= m.

(* total of all pixels *)
Definition total (a : arr R) : R :=
  rsum (Z.to_nat (nr a)) (fun i => rsum (Z.to_nat (nc a)) (fun j => px a (Z.of_nat i) (Z.of_nat j))).

(* Mean of the k x k block of a with top-left pixel (k*iy, k*ix) *)
Definition block_mean (a : arr R) (k iy ix : Z) : R :=
  (rsum (Z.to_nat k) (fun p => rsum (Z.to_nat k) (fun q =>
     px a (k * iy + Z.of_nat p) (k * ix + Z.of_nat q))) / (IZR k * IZR k))%R.

(* mixed-radix position of an index tuple *)
Fixpoint position {A} (args : list (list A)) (ix : list nat) : nat :=
  match args, ix with
  | _ :: t, i :: r => (i * fold_right (fun l n => length l * n) 1 t + position t r)%nat
  | _, _ => 0%nat
  end.
