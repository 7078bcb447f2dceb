(* Independent specifications for C27 - C30. *)
From Verif Require Import Base RBase StrBase.
Open Scope R_scope.

(* ---- C28: what a centred n x n crop of a square array leaves out ---- *)
(* pixel (i,j) of an N x N array belongs to the n x n window around the centre pixel (N/2, N/2) *)
Definition in_window (N n i j : Z) : bool :=
  ((- (n / 2) <=? i - N / 2) && (i - N / 2 <? n - n / 2) &&
   (- (n / 2) <=? j - N / 2) && (j - N / 2 <? n - n / 2))%Z.
(* total transmission outside that window *)
Definition lost (mask : arr R) (n : Z) : R :=
  rsum (Z.to_nat (nr mask)) (fun i => rsum (Z.to_nat (nc mask)) (fun j =>
    if in_window (nr mask) n (Z.of_nat i) (Z.of_nat j) then 0 else px mask (Z.of_nat i) (Z.of_nat j))).
Definition square_arr {A} (a : arr A) : Prop := (0 <= nr a)%Z /\ nc a = nr a.

(* ---- C27 ---- *)
(* rows are (inner radius, outer radius, intensity weight) *)
Definition covers (row : R * R * R) (rho : R) : Prop := fst (fst row) <= rho < snd (fst row).
(* product of the intensity weights of the annuli that contain radius rho *)
Inductive zone_weight (rho : R) : list (R * R * R) -> R -> Prop :=
| zw_nil : zone_weight rho [] 1
| zw_in row rows w : covers row rho -> zone_weight rho rows w -> zone_weight rho (row :: rows) (snd row * w)
| zw_out row rows w : ~ covers row rho -> zone_weight rho rows w -> zone_weight rho (row :: rows) w.
(* dark-hole pixels in row-major order *)
Definition dark_pixels (n m : Z) (corr : Z -> Z -> bool) : list (Z * Z) :=
  filter (fun p => corr (fst p) (snd p)) (flat_map (fun i => map (fun j => (i, j)) (zrange m)) (zrange n)).

(* ---- C29: the same text up to ASCII case ---- *)
Definition same_letter (a b : ascii) : Prop :=
  a = b \/ exists n, (65 <= n <= 90)%nat /\
    ((a = ascii_of_nat n /\ b = ascii_of_nat (n + 32)) \/ (b = ascii_of_nat n /\ a = ascii_of_nat (n + 32))).
Inductive same_text : string -> string -> Prop :=
| st_nil : same_text "" ""
| st_cons a b s t : same_letter a b -> same_text s t -> same_text (String a s) (String b t).

(* ---- C30 ---- *)
Definition pow2 (r : R) : Prop := exists k, (0 <= k)%Z /\ r = IZR (2 ^ k).
(* least power of two not below any of the given numbers *)
Definition least_pow2 (reqs : list R) (r : R) : Prop :=
  pow2 r /\ (forall x, In x reqs -> x <= r) /\
  forall q, pow2 q -> (forall x, In x reqs -> x <= q) -> r <= q.
