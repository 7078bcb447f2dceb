(* Specification vocabulary for the optical models. *)
From Verif Require Import Base RBase StrBase CBase PropModel PropSpec OptModel.
Open Scope R_scope.
(* the same instrument with other DM surfaces *)
Definition with_surfs (o : optics) (s1 s2 : field R) : optics :=
  mko (o_pad o) (o_rot o) (o_n12 o) (o_n23 o) (o_n34 o) (o_nend o) (o_cen o) (o_d1 o) (o_d12 o) (o_fl o) (o_lambda0 o) (o_dx2 o) (o_use1 o) (o_use2 o) s1 s2 (o_pupil o) (o_stop1 o) (o_stop2 o) (o_wfe o) (o_apod o) (o_coro o) (o_f3 o) (o_fpm o) (o_trans o) (o_charge o) (o_nbeam1 o) (o_nbeam4 o) (o_dx4 o) (o_narr4 o) (o_lyot o) (o_downsample o) (o_fend o) (o_eval o).
(* ... with another vortex charge *)
Definition with_charge (o : optics) (q : charge_arg) : optics :=
  mko (o_pad o) (o_rot o) (o_n12 o) (o_n23 o) (o_n34 o) (o_nend o) (o_cen o) (o_d1 o) (o_d12 o) (o_fl o) (o_lambda0 o) (o_dx2 o) (o_use1 o) (o_use2 o) (o_surf1 o) (o_surf2 o) (o_pupil o) (o_stop1 o) (o_stop2 o) (o_wfe o) (o_apod o) (o_coro o) (o_f3 o) (o_fpm o) (o_trans o) q (o_nbeam1 o) (o_nbeam4 o) (o_dx4 o) (o_narr4 o) (o_lyot o) (o_downsample o) (o_fend o) (o_eval o).
(* ... with the DM surface-error flag set *)
Definition with_wfe (o : optics) (b : bool) : optics :=
  mko (o_pad o) (o_rot o) (o_n12 o) (o_n23 o) (o_n34 o) (o_nend o) (o_cen o) (o_d1 o) (o_d12 o) (o_fl o) (o_lambda0 o) (o_dx2 o) (o_use1 o) (o_use2 o) (o_surf1 o) (o_surf2 o) (o_pupil o) (o_stop1 o) (o_stop2 o) b (o_apod o) (o_coro o) (o_f3 o) (o_fpm o) (o_trans o) (o_charge o) (o_nbeam1 o) (o_nbeam4 o) (o_dx4 o) (o_narr4 o) (o_lyot o) (o_downsample o) (o_fend o) (o_eval o).
(* ... with another coronagraph name *)
Definition with_coro (o : optics) (s : string) : optics :=
  mko (o_pad o) (o_rot o) (o_n12 o) (o_n23 o) (o_n34 o) (o_nend o) (o_cen o) (o_d1 o) (o_d12 o) (o_fl o) (o_lambda0 o) (o_dx2 o) (o_use1 o) (o_use2 o) (o_surf1 o) (o_surf2 o) (o_pupil o) (o_stop1 o) (o_stop2 o) (o_wfe o) (o_apod o) s (o_f3 o) (o_fpm o) (o_trans o) (o_charge o) (o_nbeam1 o) (o_nbeam4 o) (o_dx4 o) (o_narr4 o) (o_lyot o) (o_downsample o) (o_fend o) (o_eval o).
(* a constant added everywhere to a surface *)
Definition piston (p : R) (s : field R) : field R := mkf (frows s) (fcols s) (fun i j => fpx s i j + p).
(* every entry multiplied by one complex number *)
Definition scaled (c : C) (E F : field C) : Prop := frows F = frows E /\ fcols F = fcols E /\ forall i j, (i < frows E)%nat -> (j < fcols E)%nat -> fpx F i j = Cmult c (fpx E i j).
(* the arrays of the DM planes have the size of the padded array *)
Definition surfs_fit (o : optics) : Prop :=
  (o_use1 o = true -> frows (o_surf1 o) = o_pad o /\ fcols (o_surf1 o) = o_pad o) /\ (o_use2 o = true -> frows (o_surf2 o) = o_pad o /\ fcols (o_surf2 o) = o_pad o).
Definition grid_ok (g : grid2) : Prop := 0 < g_dxi g /\ (1 <= g_Nxi g)%nat /\ 0 < g_deta g /\ (1 <= g_Neta g)%nat.
(* a configuration whose arrays fit together and whose lengths are positive *)
Record well_formed (o : optics) : Prop := mkwf {
  wf_pad : (1 <= o_pad o)%nat; wf_cen : o_cen o <> OtherCentering; wf_dx2 : 0 < o_dx2 o; wf_fl : o_fl o <> 0;
  wf_lam : 0 < o_lambda0 o; wf_surf : surfs_fit o; wf_wfe : o_wfe o = false;
  wf_apod : match o_apod o with None => True | Some (m, na) => (1 <= na)%nat /\ frows m = na /\ fcols m = na end;
  wf_f3 : grid_ok (o_f3 o); wf_fpm : frows (o_fpm o) = g_Neta (o_f3 o) /\ fcols (o_fpm o) = g_Nxi (o_f3 o);
  wf_dx4 : 0 < o_dx4 o; wf_narr4 : (1 <= o_narr4 o)%nat; wf_lyot : frows (o_lyot o) = o_narr4 o /\ fcols (o_lyot o) = o_narr4 o;
  wf_nbeam : 0 < o_nbeam1 o /\ o_nbeam4 o = o_nbeam1 o; wf_fend : grid_ok (o_fend o); wf_eval : grid_ok (o_eval o) }.
Local Open Scope string_scope.
Definition lyot_like (o : optics) : Prop := In (upper (o_coro o)) ["LC"; "APLC"; "HLC"; "FLC"; "SPLC"].
Local Close Scope string_scope.
Local Open Scope string_scope.
(* the coronagraph names each model accepts; a vortex needs an integer charge *)
Definition known_full (o : optics) : Prop := lyot_like o \/ In (upper (o_coro o)) ["VORTEX"; "VC"] /\ exists q, o_charge o = ChInt q.
Definition known_compact (o : optics) : Prop := lyot_like o \/ In (upper (o_coro o)) ["VORTEX"; "VC"; "AVC"] /\ exists q, o_charge o = ChInt q.
Local Close Scope string_scope.
(* size of the pupil array in front of the coronagraph mask *)
Definition p3_size (o : optics) : nat := match o_apod o with None => o_pad o | Some (_, na) => na end.
(* inner product of two n x m arrays *)
Definition inner (n m : nat) (a b : nat -> nat -> C) : C := csum n (fun i => csum m (fun j => Cmult (Cconj (a i j)) (b i j))).
