(* What the EFC command should optimise. *)
From Verif Require Import Base RBase.
Open Scope R_scope.

(* |a|^2 *)
Definition sqmod (a : R * R) : R := fst a * fst a + snd a * snd a.
(* predicted field at mode m, pixel p after the command change u *)
Definition predicted (Nele : nat) (G : nat -> nat -> nat -> R * R) (E : nat -> nat -> R * R)
    (u : nat -> R) (m p : nat) : R * R :=
  (fst (E m p) + rsum Nele (fun i => fst (G m p i) * u i),
   snd (E m p) + rsum Nele (fun i => snd (G m p i) * u i)).
(* weighted predicted dark-hole energy plus damping * |u|^2 *)
Definition cost (Nmode Npix Nele : nat) (w : nat -> R) (G : nat -> nat -> nat -> R * R)
    (E : nat -> nat -> R * R) (damping : R) (u : nat -> R) : R :=
  rsum Nmode (fun m => w m * rsum Npix (fun p => sqmod (predicted Nele G E u m p)))
  + damping * rsum Nele (fun i => u i * u i).
