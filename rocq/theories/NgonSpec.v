(* Specification vocabulary for regular polygons (C107) *)
From Verif Require Import Base RBase CBase PropModel PrpModel RectModel NgonModel.
Open Scope R_scope.
(* the vertices, in the units of the arguments: on a circle, clockwise from the direction of ROTATION degrees *)
Definition corners (q : ngon) : poly :=
  let at_ (c : option R) (x : R) := match c with None => x | Some v => v + x end in
  let angle k := g_rot q * PI / 180 - 2 * PI * INR k / INR (g_nv q) in
  mkpoly (g_nv q) (fun k => at_ (g_xc q) (g_rad q * cos (angle k))) (fun k => at_ (g_yc q) (g_rad q * sin (angle k))).
