(* Specification vocabulary for convex polygons (C104) *)
From Verif Require Import Base RBase CBase PropModel PrpModel ApModel ApSpec RectModel RectSpec.
Open Scope R_scope.
(* the vertices in metres *)
Definition in_metres (w : wavefront) (norm : bool) (p : poly) : poly := mkpoly (v_n p) (fun k => len w norm (v_x p k)) (fun k => len w norm (v_y p k)).
(* the convex hull of the vertices: their weighted means *)
Definition in_hull (p : poly) (X Y : R) : Prop :=
  exists wt : nat -> R, (forall k, (k < v_n p)%nat -> 0 <= wt k) /\ rsum (v_n p) wt = 1 /\
    X = rsum (v_n p) (fun k => wt k * v_x p k) /\ Y = rsum (v_n p) (fun k => wt k * v_y p k).
(* the k-th vertex forwards and backwards from vertex b *)
Definition forth (p : poly) (b k : nat) : nat := ((b + k) mod v_n p)%nat.
Definition back (p : poly) (b k : nat) : nat := ((b + (v_n p - 1) * k) mod v_n p)%nat.
(* positive when vertex m is on the left of the edge from vertex k to the next, +y up *)
Definition side (p : poly) (k m : nat) : R :=
  let k' := forth p k 1 in (v_x p k' - v_x p k) * (v_y p m - v_y p k) - (v_y p k' - v_y p k) * (v_x p m - v_x p k).
(* convex, clockwise: no vertex is on the left of an edge *)
Definition clockwise (p : poly) : Prop := forall k m, (k < v_n p)%nat -> (m < v_n p)%nat -> side p k m <= 0.
Definition reversed (p : poly) : poly := mkpoly (v_n p) (fun k => v_x p (v_n p - 1 - k)%nat) (fun k => v_y p (v_n p - 1 - k)%nat).
(* the vertices V 0, V 1, ..., V m climb to the top: from V 1 on each at least gap above the one before it; V 2 is above first *)
Definition climbs (y : nat -> R) (top gap first : R) (V : nat -> nat) (m : nat) : Prop :=
  (1 <= m)%nat /\ y (V 0%nat) <= y (V 1%nat) /\ (forall k, (1 <= k < m)%nat -> y (V k) + gap <= y (V (S k))) /\ y (V m) = top /\ ((2 <= m)%nat -> first < y (V 2%nat)).
(* b is the lowest vertex, the one most to the left if several are, the first one if several are there *)
Definition is_lowest (p : poly) (b : nat) : Prop :=
  (b < v_n p)%nat /\ forall k, (k < v_n p)%nat -> v_y p b < v_y p k \/ (v_y p b = v_y p k /\ (v_x p b < v_x p k \/ (v_x p b = v_x p k /\ (b <= k)%nat))).
(* both sides of the clockwise polygon climb from the lowest vertex to the highest ones, at most one vertex for each line *)
Definition paced (gap first : R) (p : poly) : Prop :=
  exists b top l r, is_lowest p b /\ v_y p b < top /\ (forall k, (k < v_n p)%nat -> v_y p k <= top) /\
    climbs (v_y p) top gap first (forth p b) l /\ climbs (v_y p) top gap first (back p b) r.
(* lines, mag for each row; gap between lines, and the first one, in metres *)
Definition gap_of (mag : nat) (dx : R) : R := dx / INR mag.
Definition first_line (n mag : nat) (dx : R) : R := metres n dx (- (1 / 2) + 1 / 2 / INR mag).
(* a convex polygon, in either order; the first three vertices of an anticlockwise one are not in line *)
Definition convex (n mag : nat) (dx : R) (p : poly) : Prop :=
  (3 <= v_n p)%nat /\
  ((clockwise p /\ paced (gap_of mag dx) (first_line n mag dx) p) \/
   (clockwise (reversed p) /\ side p 0 2 <> 0 /\ paced (gap_of mag dx) (first_line n mag dx) (reversed p))).
(* v is the mean over mag equally spaced lines across row i of the length, over pixel [i, j], of the section of the polygon; in pixels *)
Definition poly_section (n : nat) (dx : R) (p : poly) (i j : nat) (s u : R) : Prop :=
  INR j - 1 / 2 <= u <= INR j + 1 / 2 /\ in_hull p (metres n dx u) (metres n dx (INR i - 1 / 2 + s)).
Definition poly_mean (n mag : nat) (dx : R) (p : poly) (i j : nat) (v : R) : Prop :=
  exists len : nat -> R, (forall k, (k < mag)%nat -> has_length (poly_section n dx p i j ((INR k + 1 / 2) / INR mag)) (len k)) /\ v = rsum mag len / INR mag.
(* every line across the rows of the array that meets the polygon meets it between the left and right edges of the array *)
Definition poly_meets (n : nat) (dx : R) (p : poly) : Prop :=
  forall u v, - (1 / 2) < v < INR n - 1 / 2 -> in_hull p (metres n dx u) (metres n dx v) ->
    exists u', - (1 / 2) < u' < INR n - 1 / 2 /\ in_hull p (metres n dx u') (metres n dx v).
(* pixels of column j are covered exactly: any but the last column, or the polygon does not reach beyond the right edge of the array *)
Definition not_cut (n : nat) (dx : R) (p : poly) (j : nat) : Prop :=
  (S j < n)%nat \/ forall u v, in_hull p (metres n dx u) (metres n dx v) -> u < INR n - 1 / 2.
