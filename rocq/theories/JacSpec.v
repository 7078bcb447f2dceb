(* Specification vocabulary for Jacobian assembly, ties and culling. *)
From Coq Require Import Sorted.
From Verif Require Import Base RBase EfcSpec JacModel.
Open Scope Z_scope.

(* G[:, c, m] *)
Definition ent {P} (G : jac P) (c m : nat) : option P :=
  match nth_error G c with Some col => nth_error col m | None => None end.
(* n columns of Nmode modes *)
Definition rect {P} (n Nmode : nat) (G : jac P) : Prop :=
  length G = n /\ Forall (fun col => length col = Nmode) G.
(* column j of G is the response of the j-th actuator of [act] in every mode *)
Definition filled {P} (resp : nat -> Z -> P) (act : list Z) (Nmode : nat) (G : jac P) : Prop :=
  rect (length act) Nmode G /\
  forall j a m, nth_error act j = Some a -> (m < Nmode)%nat -> ent G j m = Some (resp m a).

(* value of column j, mode m at pixel p (0 outside) *)
Definition pv (G : jacc) (j m p : nat) : R * R :=
  match ent G j m with Some v => v p | None => (0, 0)%R end.
Definition vzero : pixv := fun _ => (0, 0)%R.
Definition vadd2 (a b : pixv) : pixv := fun p => (fst (a p) + fst (b p), snd (a p) + snd (b p))%R.

(* the field change predicted at mode m, pixel p by the actuator commands u *)
Definition predict (act : list Z) (G : jacc) (u : Z -> R) (m p : nat) : R * R :=
  (rsum (length act) (fun j => u (nth j act 0%Z) * fst (pv G j m p))%R,
   rsum (length act) (fun j => u (nth j act 0%Z) * snd (pv G j m p))%R).

(* total squared response of one column *)
Definition energy (Npix : nat) (col : list pixv) : R :=
  rsum Npix (fun p => rsuml (map (fun v => sqmod (v p)) col)).

(* the part of a DM's data that a controller needs to be consistent: sorted distinct actuators of
   the mirror, one Jacobian column each *)
Definition consistent (d : jdm) (G : jacc) : Prop :=
  StronglySorted Z.lt (jact d) /\ Forall (fun a => 0 <= a < jNact d) (jact d) /\
  jNele d = Z.of_nat (length (jact d)) /\ length G = length (jact d).

(* value of actuator x's column (x anywhere in the active list) *)
Fixpoint index_of (x : Z) (l : list Z) : option nat :=
  match l with [] => None | y :: t => if y =? x then Some 0%nat else option_map S (index_of x t) end.
Definition av (act : list Z) (G : jacc) (x : Z) (m p : nat) : R * R :=
  match index_of x act with Some j => pv G j m p | None => (0, 0)%R end.
Fixpoint csum (l : list (R * R)) : R * R :=
  match l with [] => (0, 0)%R | z :: t => (fst z + fst (csum t), snd z + snd (csum t))%R end.
Definition cadd (a b : R * R) : R * R := (fst a + fst b, snd a + snd b)%R.
(* the actuators tied to x as first member *)
Definition followers (ties : list (Z * Z)) (x : Z) : list Z :=
  map snd (filter (fun '(a, _) => a =? x) ties).

(* the mirrors falco supports *)
Definition relevant (k : Z) : Prop := k = 1 \/ k = 2 \/ k = 8 \/ k = 9.
(* what a usable DM looks like before the cull *)
Definition fresh (Npix M : nat) (k : Z) (x : jdm * jacc) : Prop :=
  rect (Z.to_nat (jNact (fst x))) M (snd x) /\ 0 <= jNact (fst x) /\
  (exists col, In col (snd x) /\ (0 < energy Npix col)%R) /\
  ((k = 1 \/ k = 2) -> Forall (fun '(a, b) => 0 <= a < jNact (fst x) /\ 0 <= b < jNact (fst x)) (jtied (fst x))).

(* what must be kept *)
Definition kept (Npix : nat) (logGmin : R) (k : Z) (x : jdm * jacc) (a : Z) : Prop :=
  (exists col, nth_error (snd x) (Z.to_nat a) = Some col /\
     forall other, In other (snd x) -> (Rpower 10 logGmin * energy Npix other <= energy Npix col)%R)
  \/ ((k = 1 \/ k = 2) /\ (In a (map fst (jtied (fst x))) \/ In a (map snd (jtied (fst x))))).
