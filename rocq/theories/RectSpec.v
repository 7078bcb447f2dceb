(* Specification vocabulary for rectangles (C102) *)
From Verif Require Import Base StrBase RBase CBase PropModel PrpModel ApModel ApSpec RectModel.
Open Scope R_scope.
(* the point X, Y (X along the columns, Y along the rows, metres) is in the rectangle of widths xs, ys centred at xc, yc and turned by rot degrees
   from +x towards +y *)
Definition in_rectangle (xs ys xc yc rot X Y : R) : Prop :=
  let t := rot * PI / 180 in
  Rabs (cos t * (X - xc) + sin t * (Y - yc)) <= xs / 2 /\ Rabs (cos t * (Y - yc) - sin t * (X - xc)) <= ys / 2.
(* metres of position u counted in pixels, the centre of the wavefront at pixel n / 2 *)
Definition metres (n : nat) (dx u : R) : R := (u - INR (n / 2)) * dx.
(* the set P is a segment of length len, or empty and len = 0 *)
Definition has_length (P : R -> Prop) (len : R) : Prop :=
  ((forall x, ~ P x) /\ len = 0) \/ exists a b, a <= b /\ len = b - a /\ forall x, P x <-> a <= x <= b.
(* the part over pixel [i, j] of the rectangle's section by the line a fraction s above the bottom of row i; in pixels *)
Definition section (n : nat) (dx xs ys xc yc rot : R) (i j : nat) (s : R) (u : R) : Prop :=
  INR j - 1 / 2 <= u <= INR j + 1 / 2 /\ in_rectangle xs ys xc yc rot (metres n dx u) (metres n dx (INR i - 1 / 2 + s)).
(* v is the mean over mag equally spaced lines across row i of the length of the section over pixel [i, j] *)
Definition line_mean (n mag : nat) (dx xs ys xc yc rot : R) (i j : nat) (v : R) : Prop :=
  exists len : nat -> R, (forall k, (k < mag)%nat -> has_length (section n dx xs ys xc yc rot i j ((INR k + 1 / 2) / INR mag)) (len k)) /\
    v = rsum mag len / INR mag.
(* all of the pixel's square is in the rectangle; none of it *)
Definition all_of (n : nat) (dx xs ys xc yc rot : R) (i j : nat) : Prop :=
  forall u v, INR j - 1 / 2 <= u <= INR j + 1 / 2 -> INR i - 1 / 2 <= v <= INR i + 1 / 2 -> in_rectangle xs ys xc yc rot (metres n dx u) (metres n dx v).
Definition none_of (n : nat) (dx xs ys xc yc rot : R) (i j : nat) : Prop :=
  forall u v, INR j - 1 / 2 <= u <= INR j + 1 / 2 -> INR i - 1 / 2 <= v <= INR i + 1 / 2 -> ~ in_rectangle xs ys xc yc rot (metres n dx u) (metres n dx v).
(* place of a centre coordinate; the default is the centre of the wavefront *)
Definition place (w : wavefront) (norm : bool) (x : option R) : R := match x with None => 0 | Some v => len w norm v end.
(* corners of the rectangle, clockwise from (-, -), or anticlockwise; metres *)
Definition corner (k : nat) : R * R := match k with 0%nat => (-1, -1) | 1%nat => (-1, 1) | 2%nat => (1, 1) | _ => (1, -1) end.
Definition corners (clockwise : bool) (xs ys xc yc rot : R) : poly :=
  let t := rot * PI / 180 in
  let o k := if clockwise then k else (3 - k)%nat in
  mkpoly 4 (fun k => xc + xs / 2 * fst (corner (o k)) * cos t - ys / 2 * snd (corner (o k)) * sin t)
           (fun k => yc + xs / 2 * fst (corner (o k)) * sin t + ys / 2 * snd (corner (o k)) * cos t).
(* every line across the rows of the array that meets the rectangle meets it between the left and right edges of the array *)
Definition lines_meet (n : nat) (dx xs ys xc yc rot : R) : Prop :=
  forall u v, - (1 / 2) < v < INR n - 1 / 2 -> in_rectangle xs ys xc yc rot (metres n dx u) (metres n dx v) ->
    exists u', - (1 / 2) < u' < INR n - 1 / 2 /\ in_rectangle xs ys xc yc rot (metres n dx u') (metres n dx v).
