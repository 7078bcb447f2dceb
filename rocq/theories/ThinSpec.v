(* Specification for the thin films (C73): the boundary-value problem of a plane wave on a stack of homogeneous layers.
   Independent of the model: only indices, thicknesses, angle and wavelength. *)
From Verif Require Import Base RBase CBase.
From Coquelicot Require Import Coquelicot.
Open Scope R_scope.
(* a complex function of the depth has the derivative g *)
Definition has_dC (f : R -> C) (z : R) (l : C) : Prop :=
  is_derive (fun x => fst (f x)) z (fst l) /\ is_derive (fun x => snd (f x)) z (snd l).
Section Stack.
  (* indices n_0 .. n_last (time convention exp(+i w t): an absorbing medium has a negative imaginary part), thicknesses d_0 .. d_last,
     angle of incidence in medium 0, wavelength *)
  Variables (n : nat -> C) (d : nat -> R) (last : nat) (theta lam : R).
  Definition k0 : R := 2 * PI / lam.
  (* square of the wave number across the layers: (2 pi / lam)^2 (n_j^2 - n_0^2 sin^2 theta) *)
  Definition q2 (j : nat) : C :=
    Cmult (RtoC (k0 * k0)) (Cminus (Cmult (n j) (n j)) (Cmult (Cmult (n 0%nat) (n 0%nat)) (RtoC (sin theta * sin theta)))).
  (* weight of the derivative in the interface condition: the field is the electric one for TE and the magnetic one for TM *)
  Definition weight (tm : bool) (j : nat) : C := if tm then Cinv (Cmult (n j) (n j)) else RtoC 1.
  (* u j z : the field in medium j at depth z below the top of that medium; v j z its derivative *)
  Definition maxwell (tm : bool) (u v : nat -> R -> C) : Prop :=
    (forall j z, (j <= last)%nat -> has_dC (u j) z (v j z)) /\
    (forall j z, (j <= last)%nat -> has_dC (v j) z (Copp (Cmult (q2 j) (u j z)))) /\
    (forall j, (j < last)%nat -> u j (d j) = u (S j) 0 /\ Cmult (weight tm j) (v j (d j)) = Cmult (weight tm (S j)) (v (S j) 0)).
  (* the wave number of the wave going down in a medium where waves travel: the root of q2 with positive real part *)
  Definition downward (j : nat) (k : C) : Prop := Cmult k k = q2 j /\ 0 < fst k.
  (* light falls on the top with amplitude 1, r comes back, and only a wave going down, of amplitude t, is left in the last medium *)
  Definition response (tm : bool) (u v : nat -> R -> C) (r t : C) : Prop :=
    maxwell tm u v /\
    (exists k, downward 0 k /\ u 0%nat 0 = Cplus (RtoC 1) r /\ v 0%nat 0 = Cmult (Cmult (Copp Ci) k) (Cminus (RtoC 1) r)) /\
    (exists k, downward last k /\ u last 0 = t /\ v last 0 = Cmult (Cmult (Copp Ci) k) t).
  (* power flowing down through depth z of medium j *)
  Definition flux (tm : bool) (u v : nat -> R -> C) (j : nat) (z : R) : R :=
    - snd (Cmult (Cconj (u j z)) (Cmult (weight tm j) (v j z))).
  (* power of the incident wave alone *)
  Definition incident (tm : bool) (p : R) : Prop := exists k, downward 0 k /\ p = fst (Cmult (weight tm 0) k).
  (* media that do not amplify light, light incident from a transparent medium, no medium exactly at grazing incidence,
     and the last medium not in total reflection *)
  Definition passive : Prop :=
    (forall j, (j <= last)%nat -> 0 < fst (n j) /\ snd (n j) <= 0) /\ snd (n 0%nat) = 0 /\
    (forall j, (j <= last)%nat -> q2 j <> RtoC 0) /\
    (0 < fst (q2 last) \/ snd (q2 last) < 0) /\ (forall j, (j <= last)%nat -> 0 <= d j).
  Definition transparent : Prop := forall j, (j <= last)%nat -> snd (n j) = 0.
End Stack.
