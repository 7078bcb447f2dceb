(* Model of the EFC normal equations: falco/ctrl.py:44-93 (wrapper) and 841-846 (_efc).
   Real numbers are ideal; complex numbers are pairs. *)
From Verif Require Import Base RBase.
Open Scope R_scope.

Section Efc.
  (* Nmode modes, Npix dark-hole pixels, NeleAll control variables *)
  Variables Nmode Npix Nele : nat.
  Variable w : nat -> R.                      (* mp.jac.weights *)
  Variable G : nat -> nat -> nat -> R * R.    (* G mode pixel column: the stacked (weighted) Jacobian *)
  Variable E : nat -> nat -> R * R.           (* Eweighted: mode, pixel *)

  (* Re(conj(a) b) *)
  Definition re_conj_mul (a b : R * R) : R := fst a * fst b + snd a * snd b.

  (* cvar.GstarG_wsum[i, j]: falco/ctrl.py:70 *)
  Definition GstarG (i j : nat) : R :=
    rsum Nmode (fun m => w m * rsum Npix (fun p => re_conj_mul (G m p i) (G m p j))).
  (* cvar.RealGstarEab_wsum[i]: falco/ctrl.py:87-90 *)
  Definition RealGstarEab (i : nat) : R :=
    rsum Nmode (fun m => w m * rsum Npix (fun p => re_conj_mul (G m p i) (E m p))).

  (* np.max(np.diag(GstarG_wsum)); np.max of an empty array raises ValueError *)
  Fixpoint max_upto (n : nat) (f : nat -> R) : R :=
    match n with O => f O | S k => Rmax (max_upto k f) (f (S k)) end.
  Definition EyeNorm : res R :=
    match Nele with O => Raise ValueError | S k => Ok (max_upto k (fun i => GstarG i i)) end.

  (* x is what np.linalg.solve(10**log10reg*diag(EyeGstarGdiag) + GstarG_wsum, RealGstarEab_wsum)
     may return (an oracle: any exact solution of the system) *)
  Definition solves (log10reg : R) (d : R) (x : nat -> R) : Prop :=
    forall i, (i < Nele)%nat ->
      rsum Nele (fun j => ((if Nat.eqb i j then Rpower 10 log10reg * d else 0) + GstarG i j) * x j)
      = RealGstarEab i.

  (* duVec = -dmfac * x : falco/ctrl.py:841-846 *)
  Definition duVec (dmfac : R) (x : nat -> R) (i : nat) : R := - dmfac * x i.
End Efc.
