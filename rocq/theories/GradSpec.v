(* Specification vocabulary for the reverse-mode gradient. *)
From Verif Require Import Base RBase StrBase CBase PropModel OptModel OptSpec GradModel.
Open Scope R_scope.
(* the surface s moved by t along d *)
Definition along (s d : field R) (t : R) : field R := mkf (frows s) (fcols s) (fun i j => fpx s i j + t * fpx d i j).
(* sum of the products of the entries of two n x n arrays *)
Definition dot2 (n : nat) (g d : field R) : R := rsum n (fun i => rsum n (fun j => fpx g i j * fpx d i j)).
Definition square {A} (n : nat) (f : field A) : Prop := frows f = n /\ fcols f = n.
(* the instrument with its surfaces moved by t along (d1, d2) *)
Definition moved (o : optics) (d1 d2 : field R) (t : R) : optics := with_surfs o (along (o_surf1 o) d1 t) (along (o_surf2 o) d2 t).
(* the cost returned by the code; 0 on failure *)
Definition cost_of (r : res (R * option (field R * field R))) : R := match r with Ok (c, _) => c | Raise _ => 0 end.
Local Open Scope string_scope.
(* a 180-degree rotation commutes with the padding of the Lyot-stop array *)
Definition rotation_fits (o : optics) : Prop :=
  Z.even (nrel o (o_n34 o)) = true \/
  o_cen o = Interpixel /\ Nat.even (o_pad o) = Nat.even (o_narr4 o) \/
  o_cen o = Pixel /\ Nat.even (o_pad o) = true /\ Nat.even (o_narr4 o) = true /\ (o_narr4 o <= o_pad o)%nat /\
    forall k, (k < o_narr4 o)%nat -> fpx (o_lyot o) 0%nat k = RtoC 0 /\ fpx (o_lyot o) k 0%nat = RtoC 0.
(* configurations for which the gradient is claimed to be exact *)
Record gradient_ready (o : optics) : Prop := mkready {
  gr_wf : well_formed o;
  gr_use : o_use1 o = true /\ o_use2 o = true;
  gr_stop : o_stop2 o = None;
  gr_apod : match o_apod o with None => True | Some (_, na) => na = o_pad o end;
  gr_fend : g_deta (o_fend o) = g_dxi (o_fend o);
  gr_coro : In (upper (o_coro o)) ["VORTEX"; "VC"; "AVC"] /\ (exists q, o_charge o = ChInt q) \/
            In (upper (o_coro o)) ["FLC"; "SPLC"; "LC"; "APLC"] /\ o_dx4 o = o_dx2 o /\ g_deta (o_f3 o) = g_dxi (o_f3 o) /\
              (In (upper (o_coro o)) ["LC"; "APLC"] -> rotation_fits o) }.
Local Close Scope string_scope.
Definition mode_ready (M : field bool) (m : mode) : Prop := 0 < md_wvl m /\ 0 < md_I00 m /\ length (md_est m) = mask_count M.
(* field in the final focal plane as the compact model computes it for one mode; 0 on failure *)
Definition image (o : optics) (m : mode) (i j : nat) : C :=
  match compact_field o (md_wvl m) (md_I00 m) false false true (md_Ein m) with Ok F => fpx F i j | Raise _ => RtoC 0 end.
(* estimated field at a pixel of the mask *)
Definition estimate (M : field bool) (m : mode) (i j : nat) : C := nth (mask_rank M i j) (md_est m) (RtoC 0).
Definition msum (M : field bool) (f : nat -> nat -> R) : R := rsum (frows M) (fun i => rsum (fcols M) (fun j => if fpx M i j then f i j else 0)).
(* weighted energy left in the mask when the predicted change of each mode's image is [ch] *)
Definition energy_after (M : field bool) (ms : list mode) (ch : mode -> nat -> nat -> C) : R :=
  rsuml (map (fun m => md_w m * msum M (fun i j => abs2 (Cplus (estimate M m i j) (ch m i j)))) ms).
(* change of the image between two instruments *)
Definition change (o oB : optics) (m : mode) (i j : nat) : C := Cminus (image oB m i j) (image o m i j).
