(* What simulated images should be. *)
From Verif Require Import Base RBase EfcSpec.
Open Scope R_scope.
(* weighted sum over wavelengths, polarisation states and stars of the intensity, each evaluated with its own
   polarisation and with the mask that belongs to its wavelength *)
Definition subband_sum (Nw stars : nat) (pols : list Z) (lamw : nat -> R)
    (inten : nat -> nat -> nat -> Z -> Z -> R) (mask : nat -> nat -> Z) (si : nat) : R :=
  rsum Nw (fun wi => lamw wi * rsum stars (fun s =>
     rsuml (map (fun p => inten si wi s p (mask si wi)) pols) / INR (length pols))).
(* all elements equal *)
Definition all_equal {A} (l : list A) : Prop := forall x y, In x l -> In y l -> x = y.
(* the image expected on a dark-hole pixel: estimate plus modelled change of the field *)
Definition expected_pixel (Nsbp : nat) (w : nat -> R) (E new old : nat -> R * R) : R :=
  rsum Nsbp (fun si => w si *
    sqmod (fst (E si) + (fst (new si) - fst (old si)), snd (E si) + (snd (new si) - snd (old si)))).
(* same elements *)
Definition set_eq (a b : list Z) : Prop := forall x, In x a <-> In x b.
