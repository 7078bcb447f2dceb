(* What the software mask should select, in plain geometry. *)
From Verif Require Import Base StrBase RBase.
Open Scope R_scope.

(* coordinates of a point in axes turned by c *)
Definition along (c x y : R) : R := x * cos c + y * sin c.
Definition across (c x y : R) : R := y * cos c - x * sin c.
Definition dist (x y : R) : R := sqrt (x * x + y * y).

Inductive hole : Set := Annulus | SquareHole | Slab | DShape.
(* regions with inner radius ri, outer radius ro, turned by c *)
Definition in_hole (h : hole) (c ri ro x y : R) : Prop :=
  match h with
  | Annulus => ri <= dist x y <= ro
  | SquareHole => Rabs (along c x y) <= ro /\ Rabs (across c x y) <= ro /\ ri <= dist x y
  | Slab => ri <= Rabs (along c x y) <= ro /\ Rabs (across c x y) <= ro
  | DShape => ri <= Rabs (along c x y) /\ dist x y <= ro
  end.
(* the cone of total opening angle a (radians) around direction c: angle between the point and the
   direction at most a/2 *)
Definition in_cone (a c x y : R) : Prop := dist x y * cos (a / 2) <= along c x y.
(* names of the sides: direction (radians, counter-clockwise from +x) and whether the opposite side is included *)
Local Open Scope string_scope. Local Open Scope R_scope.
Definition lookup {A} (s : string) (l : list (string * A)) : option A :=
  match find (fun e => String.eqb s (fst e)) l with Some e => Some (snd e) | None => None end.
Definition side_names : list (string * (R * bool)) :=
  [("r", (0, false)); ("right", (0, false)); ("l", (PI, false)); ("left", (PI, false));
   ("t", (PI/2, false)); ("top", (PI/2, false)); ("u", (PI/2, false)); ("up", (PI/2, false));
   ("b", (3/2*PI, false)); ("bottom", (3/2*PI, false)); ("d", (3/2*PI, false)); ("down", (3/2*PI, false));
   ("both", (0, true)); ("lr", (0, true)); ("rl", (0, true)); ("leftright", (0, true)); ("rightleft", (0, true));
   ("tb", (PI/2, true)); ("bt", (PI/2, true)); ("ud", (PI/2, true)); ("du", (PI/2, true));
   ("topbottom", (PI/2, true)); ("bottomtop", (PI/2, true)); ("updown", (PI/2, true)); ("downup", (PI/2, true))].
Definition hole_names : list (string * hole) :=
  [("circle", Annulus); ("annulus", Annulus); ("square", SquareHole); ("rect", Slab); ("rectangle", Slab); ("d", DShape)].
Definition inter_names : list (string * bool) := [("pixel", false); ("interpixel", true)].
(* shape and sides together *)
Definition in_region (h : hole) (c a : R) (two : bool) (ri ro x y : R) : Prop :=
  in_hole h c ri ro x y /\ (in_cone a c x y \/ (two = true /\ in_cone a (c + PI) x y)).
(* coordinate of grid point k, counted from the centre of the array *)
Definition grid (inter : bool) (res : R) (k : Z) : R := (IZR k + (if inter then 1/2 else 0)) / res.
