(* Specification for the mask coatings (C74). *)
From Verif Require Import Base RBase CBase StrBase PropModel.
Open Scope R_scope.
(* rows (wavelength, n, k) of a material that absorbs: n > 0 and k > 0.  Both data files of falco have only such rows. *)
Definition absorber (rows : list (R * R * R)) : Prop := rows <> nil /\ forall w n k, In (w, n, k) rows -> 0 < n /\ 0 < k.
(* wavelengths from 0.2 to 2 microns *)
Definition optical (lam : R) : Prop := 2 / 10000000 <= lam <= 2 / 1000000.
(* wave number along the normal in air *)
Definition normal_k (lam aoi : R) : R := 2 * PI / lam * Rabs (cos (aoi * (PI / 180))).
