(* Specification vocabulary for the PROPER wavefront: what a user can read from it with the prop_get_ functions *)
From Verif Require Import Base RBase CBase PropModel PropSpec PrpModel.
Open Scope R_scope.
(* metres from the centre of the grid, pixel n/2 *)
Definition pix (w : wavefront) (k : nat) : R := (INR k - INR (w_n w) / 2) * get_sampling w.
(* the electric field in the plane of the wavefront: the array is relative to a plane, or to a sphere of the radius prop_get_refradius gives *)
Definition physical (w : wavefront) (i j : nat) : C :=
  Cmult (fpx (get_wavefront w) i j)
        (if w_planar w then RtoC 1 else cis (PI * (pix w i ^ 2 + pix w j ^ 2) / (w_lam w * get_refradius w))).
(* complex parameter of the pilot Gaussian beam: distance from the waist plus i times the Rayleigh distance *)
Definition beam_q (w : wavefront) : C := (w_z w - w_zw0 w, PI * w_w0 w ^ 2 / w_lam w).
(* states built by the functions of the library (C79_states): *)
Record coherent (w : wavefront) : Prop := {
  co_n : (1 <= w_n w)%nat; co_r : frows (w_arr w) = w_n w; co_c : fcols (w_arr w) = w_n w;
  co_lam : 0 < w_lam w; co_dx : 0 < w_dx w; co_w0 : 0 < w_w0 w; co_zr : w_zray w = PI * w_w0 w ^ 2 / w_lam w;
  co_in : w_inside w = true <-> Rabs (w_zw0 w - w_z w) < w_zray w;
  co_pl : w_inside w = true -> w_planar w = true }.
(* equal wavefronts: every attribute and every entry of the array *)
Record same (a b : wavefront) : Prop := {
  sm_arr : feq (w_arr a) (w_arr b); sm_lam : w_lam a = w_lam b; sm_dx : w_dx a = w_dx b; sm_in : w_inside a = w_inside b;
  sm_pl : w_planar a = w_planar b; sm_z : w_z a = w_z b; sm_zw0 : w_zw0 a = w_zw0 b; sm_w0 : w_w0 a = w_w0 b;
  sm_zr : w_zray a = w_zray b; sm_f : w_fratio a = w_fratio b; sm_n : w_n a = w_n b }.
(* prop_ptp ignores distances under 1e-12 m *)
Definition not_tiny (d : R) : Prop := d = 0 \/ / 1000000000000 <= Rabs d.
(* none of the distances that a propagation by d from w can be split into is ignored *)
Definition clear (w : wavefront) (d : R) : Prop := not_tiny d /\ not_tiny (w_zw0 w - w_z w) /\ not_tiny (w_z w + d - w_zw0 w).
(* the field per metre, so that its squared modulus integrates to the total intensity *)
Definition amplitude (w : wavefront) (i j : nat) : C := Cdiv (physical w i j) (RtoC (get_sampling w)).
(* Fresnel's diffraction integral at (y, x) after a distance d, as a Riemann sum over the samples of w; without the constant -i *)
Definition fresnel (w : wavefront) (d y x : R) : C :=
  csum (w_n w) (fun i => csum (w_n w) (fun j =>
    Cmult (Cmult (amplitude w i j) (cis (PI * ((y - pix w i) ^ 2 + (x - pix w j) ^ 2) / (w_lam w * d))))
          (RtoC (get_sampling w ^ 2 / (w_lam w * Rabs d))))).
(* phase of a propagation by d when PHASE_OFFSET is set *)
Definition offset (po : bool) (lam d : R) : C := if po then cis (2 * PI * d / lam) else RtoC 1.
(* frequencies of the grid, in cycles per metre *)
Definition freq (w : wavefront) (u : nat) : R := (INR u - INR (w_n w) / 2) / (INR (w_n w) * get_sampling w).
(* sum of plane waves with coefficients a *)
Definition plane_waves (w : wavefront) (a : nat -> nat -> C) (i j : nat) : C :=
  csum (w_n w) (fun u => csum (w_n w) (fun v => Cmult (a u v) (cis (2 * PI * (freq w u * pix w i + freq w v * pix w j))))).
(* a prescription: calls on one wavefront *)
Inductive call : Type := Lens (f : R) | Move (d : R) (to_plane : bool) | Phase (p : field R) | Times (v : field C).
Definition do_call (po : bool) (w : wavefront) (c : call) : res wavefront :=
  match c with Lens f => prop_lens w f | Move d tp => prop_propagate po w d tp | Phase p => prop_add_phase w p | Times v => prop_multiply w v end.
Fixpoint run (po : bool) (w : wavefront) (l : list call) : res wavefront :=
  match l with [] => Ok w | c :: r => do w' <- do_call po w c; run po w' r end.
(* the wavefronts a program can get: no propagation is so short that prop_ptp ignores it *)
Inductive built (po : bool) : wavefront -> Prop :=
| b_begin diam lam n frac w : 0 < diam -> 0 < lam -> (1 <= n)%nat -> 0 < frac -> prop_begin diam lam n frac = Ok w -> built po w
| b_move w d tp w' : built po w -> clear w d -> prop_propagate po w d tp = Ok w' -> built po w'
| b_lens w f w' : built po w -> prop_lens w f = Ok w' -> built po w'
| b_phase w p w' : built po w -> prop_add_phase w p = Ok w' -> built po w'
| b_times w v w' : built po w -> prop_multiply w v = Ok w' -> built po w'.
(* calls that absorb nothing *)
Definition lossless (c : call) : Prop := match c with Times v => forall i j, (i < frows v)%nat -> (j < fcols v)%nat -> abs2 (fpx v i j) = 1 | _ => True end.
(* calls that amplify nothing *)
Definition passive (c : call) : Prop := match c with Times v => forall i j, (i < frows v)%nat -> (j < fcols v)%nat -> abs2 (fpx v i j) <= 1 | _ => True end.
Definition total (I : field R) : R := rsum (frows I) (fun i => rsum (fcols I) (fun j => fpx I i j)).
