(* Specification vocabulary: the tapered window in front of the vortex mask. *)
From Verif Require Import Base RBase.
Open Scope R_scope.
(* Tukey window of shape parameter alpha at relative radius r (1 at the edge): flat, then half a cosine *)
Definition ideal_window (alpha r : R) : R := if Rle_dec r (1 - alpha) then 1 else / 2 * (1 + cos (PI * ((r - (1 - alpha)) / alpha))).
