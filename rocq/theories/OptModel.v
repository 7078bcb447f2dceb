(* Model of the optical models of falco/model/models.py: full_Fourier (191-422) and compact_general (770-1035),
   and of falco/prop.py mft_p2v2p (260-390).  Exact complex arithmetic; DM surfaces are given (they are computed
   from the commands by gen_surf_from_act, modelled in DmSurfModel). *)
From Verif Require Import Base RBase StrBase UtilModel CBase PropModel.
From Verif Require EstModel.
Open Scope R_scope.

(* numpy broadcasting of two lengths *)
Definition bdim (a b : nat) : option nat :=
  if Nat.eqb a b then Some a else if Nat.eqb a 1 then Some b else if Nat.eqb b 1 then Some a else None.
Definition bix (n i : nat) : nat := if Nat.eqb n 1 then 0%nat else i.
(* elementwise operator on two arrays *)
Definition bop (f : C -> C -> C) (A B : field C) : res (field C) :=
  match bdim (frows A) (frows B), bdim (fcols A) (fcols B) with
  | Some r, Some c => Ok (mkf r c (fun i j => f (fpx A (bix (frows A) i) (bix (fcols A) j)) (fpx B (bix (frows B) i) (bix (fcols B) j))))
  | _, _ => Raise ValueError
  end.
(* A *= B : the result must have the shape of A *)
Definition imul (A B : field C) : res (field C) :=
  do P <- bop Cmult A B;
  if Nat.eqb (frows P) (frows A) && Nat.eqb (fcols P) (fcols A) then Ok P else Raise ValueError.
Definition fmap {A} (f : A -> C) (E : field A) : field C := mkf (frows E) (fcols E) (fun i j => f (fpx E i j)).
Definition ones (n : nat) : field C := mkf n n (fun _ _ => RtoC 1).

(* falco/util.py:179-248 on fields; sizes are Python ints *)
Definition to_arr (E : field C) : arr C := mkarr (Z.of_nat (frows E)) (Z.of_nat (fcols E)) (fun i j => fpx E (Z.to_nat i) (Z.to_nat j)).
Definition of_arr (a : arr C) : field C := mkf (Z.to_nat (nr a)) (Z.to_nat (nc a)) (fun i j => px a (Z.of_nat i) (Z.of_nat j)).
Definition pad_cropf (E : field C) (n m : nat) : res (field C) :=
  do a <- pad_crop_py (Nd2 (to_arr E)) (SSeq [EInt (Z.of_nat n); EInt (Z.of_nat m)]) (FillReal (RtoC 0)); Ok (of_arr a).

(* np.interp with increasing abscissae *)
Fixpoint np_interp (x : R) (xp fp : list R) : R :=
  match xp, fp with
  | x0 :: ((x1 :: _) as xt), f0 :: ((f1 :: _) as ft) =>
      if Rlt_dec x x0 then f0 else if Rlt_dec x x1 then f0 + (f1 - f0) / (x1 - x0) * (x - x0) else np_interp x xt ft
  | _, f0 :: _ => f0
  | _, [] => 0
  end.
(* scipy.signal.windows.tukey(M, alpha)[n], symmetric, for n < M; for alpha >= 1 it is scipy's hann(M) *)
Definition tukey (M : nat) (alpha : R) (n : nat) : R :=
  if Nat.eqb M 1 then 1 else if Rle_dec alpha 0 then 1 else if Rle_dec 1 alpha then / 2 - / 2 * cos (2 * PI * INR n / (INR M - 1)) else
  let w := Z.to_nat (Int_part (alpha * (INR M - 1) / 2)) in
  if Nat.leb n w then / 2 * (1 + cos (PI * (-1 + 2 * INR n / alpha / (INR M - 1))))
  else if Nat.ltb n (M - w - 1) then 1
  else / 2 * (1 + cos (PI * (- 2 / alpha + 1 + 2 * INR n / alpha / (INR M - 1)))).
(* falco/prop.py:393-422 for int(10*Nwindow) >= 2, as in the only caller (fewer samples: not modelled) *)
Definition tukey_window (Nwindow alpha rho : R) : R :=
  let n := Z.to_nat (Int_part (10 * Nwindow)) in
  np_interp rho (map (fun k => - Nwindow / 2 + INR k * (Nwindow / (INR n - 1))) (seq 0 n)) (map (tukey n alpha) (seq 0 n)).

(* np.arange(-N/2, N/2)[k] *)
Definition vaxis (N k : nat) : R := - INR N / 2 + INR k.
(* exp(-1j*rg*2*pi*outer(u, x)) @ A @ exp(-1j*rg*2*pi*outer(x, u)), A with n rows and columns *)
Definition dft_uxxu (rg : R) (u x : nat -> R) (n : nat) (A : nat -> nat -> C) (k l : nat) : C :=
  csum n (fun j => Cmult (csum n (fun i => Cmult (cis (- rg * (2 * PI) * (u k * x i))) (A i j))) (cis (- rg * (2 * PI) * (x j * u l)))).
(* falco/prop.py:260-390 with the two calls' inVal = 0.3, outVal = 5; the plots never run *)
Definition vortex_fpm (charge : Z) (rev : bool) (NB i j : nat) : C :=
  cis ((if rev then -1 else 1) * IZR charge * EstModel.atan2 (vaxis NB i) (vaxis NB j)).
Definition mft_p2v2p (E : field C) (charge : Z) (beamRadius inVal outVal : R) (rev : bool) : res (field C) :=
  if Rle_dec beamRadius 0 then Raise TypeError
  else if Rle_dec inVal 0 then Raise TypeError
  else if Rle_dec outVal 0 then Raise TypeError
  else
    let D := 2 * beamRadius in
    let NB := Z.to_nat (ceil_even (4 * D)) in
    let NA := fcols E in
    if negb (Nat.eqb (frows E) NA) then Raise ValueError                     (* matrix product *)
    else
    let rg := if rev then -1 else 1 in
    let FPM := vortex_fpm charge rev NB in
    let RHO i j := sqrt (vaxis NB j * vaxis NB j + vaxis NB i * vaxis NB i) in
    let knee := 1 - inVal / outVal in
    let w1 i j := tukey_window (2 * outVal * 4) knee (RHO i j) in
    let w2 i j := tukey_window (INR NB) knee (RHO i j) in
    let x k := vaxis NA k / D in
    let u1 k := vaxis NB k / 4 in
    let u2 k := vaxis NB k * 2 * outVal / INR NB in
    let c1 := RtoC (1 / (1 * D * 4)) in
    let c2 := RtoC (2 * outVal / (1 * D * INR NB)) in
    let FP1 k l := Cmult c1 (dft_uxxu rg u1 x NA (fpx E) k l) in
    let LP1 k l := Cmult c1 (dft_uxxu rg x u1 NB (fun i j => Cmult (Cmult (FP1 i j) (FPM i j)) (RtoC (1 - w1 i j))) k l) in
    let FP2 k l := Cmult c2 (dft_uxxu rg u2 x NA (fpx E) k l) in
    let LP2 k l := Cmult c2 (dft_uxxu rg x u2 NB (fun i j => Cmult (Cmult (FP2 i j) (FPM i j)) (RtoC (w2 i j))) k l) in
    Ok (mkf NA NA (fun k l => Cplus (LP1 k l) (LP2 k l))).

(* mp.F3.VortexCharge: numpy array of a given size, int, float, anything else (numpy integers included) *)
Inductive charge_arg : Type := ChArr (size : nat) | ChInt (z : Z) | ChFloat | ChOther.
(* falco/model/models.py:372-388 and 939-955: an array of size 1 and a float are refused by mft_p2v2p's
   check.scalar_integer; a larger array is refused by np.interp (string where a number is expected) *)
Definition get_charge (c : charge_arg) : res Z := match c with ChInt z => Ok z | _ => Raise TypeError end.

(* a focal-plane grid: dxi, Nxi, deta, Neta *)
Record grid2 : Type := mkg { g_dxi : R; g_Nxi : nat; g_deta : R; g_Neta : nat }.
(* mp.<...> as read by one of the two models; the .full or the .compact variant of each attribute *)
Record optics : Type := mko {
  o_pad : nat; o_rot : bool; o_n12 : Z; o_n23 : Z; o_n34 : Z; o_nend : Z; o_cen : centering;
  o_d1 : R; o_d12 : R; o_fl : R; o_lambda0 : R; o_dx2 : R;
  o_use1 : bool; o_use2 : bool; o_surf1 : field R; o_surf2 : field R;
  o_pupil : field C; o_stop1 : option (field C); o_stop2 : option (field C); o_wfe : bool;
  o_apod : option (field C * nat); o_coro : string;
  o_f3 : grid2; o_fpm : field C; o_trans : option C;      (* o_trans: outer FPM transmission when there is no fpmCube *)
  o_charge : charge_arg; o_nbeam1 : R; o_nbeam4 : R;
  o_dx4 : R; o_narr4 : nat; o_lyot : field C; o_downsample : field C -> res (field C);
  o_fend : grid2; o_eval : grid2 }.

Local Open Scope string_scope.
Definition is_vortex (o : optics) : bool := str_in (upper (o_coro o)) ["VORTEX"; "VC"; "AVC"].
Local Close Scope string_scope.
(* NrelayFactor * n *)
Definition nrel (o : optics) (n : Z) : Z := if o_rot o then n else 0%Z.
Definition surf_or_zero (use : bool) (n : nat) (s : field R) : field R := if use then s else mkf n n (fun _ _ => 0).
(* np.exp(mirrorFac*2*np.pi*1j*surf/wvl), mirrorFac = 2 *)
Definition phasor (wvl : R) (s : field R) : field C := fmap (fun h => cis (2 * 2 * PI * h / wvl)) s.
Definition stop_or_ones (n : nat) (s : option (field C)) : res (field C) :=
  match s with Some m => pad_cropf m n n | None => Ok (ones n) end.
(* mask[0, 0] *)
Definition corner (m : field C) : res C := if Nat.eqb (frows m) 0 || Nat.eqb (fcols m) 0 then Raise IndexError else Ok (fpx m 0%nat 0%nat).
Definition scal (c : C) (E : field C) : field C := fmap (Cmult c) E.
Definition fpm_scale (o : optics) (wvl : R) (scale : bool) : res R :=
  if scale then (if Req_EM_T (o_lambda0 o) 0 then Raise ZeroDivisionError else Ok (wvl / o_lambda0 o)) else Ok 1.

(* ---- full model ---- *)
(* falco/model/models.py:244-289: everything before the coronagraph mask *)
Definition full_to_P3 (o : optics) (wvl : R) (Ein : field C) : res (field C) :=
  let n := o_pad o in
  do pupil <- pad_cropf (o_pupil o) n n;
  do Ein' <- pad_cropf Ein n n;
  do st1 <- stop_or_ones n (o_stop1 o);
  do st2 <- stop_or_ones n (o_stop2 o);
  if o_wfe o then Raise NameError                       (* Edm1WFE is never assigned *)
  else
  do EP1 <- bop Cmult pupil Ein';
  do EP2 <- relay EP1 (nrel o (o_n12 o)) (o_cen o);
  do Edm1 <- (if Req_EM_T (o_d1 o) 0 then Ok EP2 else ptp EP2 (o_dx2 o * INR n) wvl (o_d1 o));
  do a1 <- bop Cmult Edm1 (ones n);
  do a2 <- bop Cmult a1 st1;
  do Edm1b <- bop Cmult a2 (phasor wvl (surf_or_zero (o_use1 o) n (o_surf1 o)));
  do Edm2 <- ptp Edm1b (o_dx2 o * INR n) wvl (o_d12 o);
  do b1 <- bop Cmult (ones n) st2;
  do b2 <- bop Cmult b1 (phasor wvl (surf_or_zero (o_use2 o) n (o_surf2 o)));
  do Edm2' <- imul Edm2 b2;
  do EP2eff <- (if Req_EM_T (o_d1 o + o_d12 o) 0 then Ok Edm2' else ptp Edm2' (o_dx2 o * INR n) wvl (-1 * (o_d12 o + o_d1 o)));
  do EP3 <- relay EP2eff (nrel o (o_n23 o)) (o_cen o);
  match o_apod o with
  | None => Ok EP3
  | Some (m, na) => do p <- pad_cropf EP3 na na; bop Cmult m p
  end.
Definition p2f_f3 (o : optics) (wvl s : R) (E : field C) : res (field C) :=
  mft_p2f E (o_fl o) wvl (o_dx2 o) (s * g_dxi (o_f3 o)) (g_Nxi (o_f3 o)) (s * g_deta (o_f3 o)) (g_Neta (o_f3 o)) (o_cen o).
Definition f2p_f3 (o : optics) (wvl s : R) (E : field C) : res (field C) :=
  mft_f2p E (o_fl o) wvl (s * g_dxi (o_f3 o)) (s * g_deta (o_f3 o)) (o_dx4 o) (o_narr4 o) (o_cen o).
(* falco/model/models.py:310-316, 379-389: propagation through a vortex, common part *)
Definition vortex_prop (o : optics) (E : field C) : res (field C) :=
  do q <- get_charge (o_charge o); mft_p2v2p E q (o_nbeam1 o / 2) 0.3 5 false.
Local Open Scope string_scope.
(* falco/model/models.py:291-394 *)
Definition full_P3_to_P4 (o : optics) (wvl s : R) (EP3 : field C) : res (field C) :=
  let co := upper (o_coro o) in
  if str_in co ["LC"; "APLC"] then
    do inc <- p2f_f3 o wvl s EP3;
    do EF3 <- bop Cmult (fmap (fun m => Cminus (RtoC 1) m) (o_fpm o)) inc;
    (* deta and P4.dx: unlike the other branches, deta is not scaled and P4.dx is *)
    do sub <- mft_f2p EF3 (o_fl o) wvl (s * g_dxi (o_f3 o)) (g_deta (o_f3 o)) (s * o_dx4 o) (o_narr4 o) (o_cen o);
    do no <- relay EP3 (nrel o (o_n34 o)) (o_cen o);
    do sub' <- relay sub (nrel o (o_n34 o) - 1) (o_cen o);
    do no' <- pad_cropf no (o_narr4 o) (o_narr4 o);
    bop Cminus no' sub'
  else if str_in co ["HLC"] then
    do t <- match o_trans o with Some t => Ok t | None => corner (o_fpm o) end;
    do inc <- p2f_f3 o wvl s EP3;
    do EF3 <- bop Cmult (fmap (fun m => Cminus t m) (o_fpm o)) inc;
    do no <- relay EP3 (nrel o (o_n34 o)) (o_cen o);
    do no' <- pad_cropf no (o_narr4 o) (o_narr4 o);
    do sub <- f2p_f3 o wvl s EF3;
    do sub' <- relay sub (nrel o (o_n34 o) - 1) (o_cen o);
    bop Cminus (scal t no') sub'
  else if str_in co ["SPLC"; "FLC"] then
    do inc <- p2f_f3 o wvl s EP3;
    do EF3 <- bop Cmult (o_fpm o) inc;
    do EP4 <- f2p_f3 o wvl s EF3;
    relay EP4 (nrel o (o_n34 o) - 1) (o_cen o)
  else if str_in co ["VORTEX"; "VC"] then
    do v <- vortex_prop o EP3;
    do v' <- pad_cropf v (o_narr4 o) (o_narr4 o);
    relay v' (nrel o (o_n34 o) - 1) (o_cen o)
  else Raise ValueError.
Local Close Scope string_scope.
(* falco/model/models.py:404-422, 1010-1028: Lyot plane to final focal plane *)
Definition to_Fend (o : optics) (wvl : R) (g : grid2) (EP4 : field C) : res (field C) :=
  do r <- relay EP4 (nrel o (o_nend o)) (o_cen o);
  mft_p2f r (o_fl o) wvl (o_dx4 o) (g_dxi g) (g_Nxi g) (g_deta g) (g_Neta g) (o_cen o).
Definition normalise (normFac : R) (E : field C) : field C :=
  if Req_EM_T normFac 0 then E else fmap (fun z => Cdiv z (RtoC (sqrt normFac))) E.
(* falco/model/models.py:191-422; gen_surf_from_act is a given array, check.is_bool always holds *)
Definition full_Fourier (o : optics) (wvl normFac : R) (scale : bool) (Ein : field C) : res (field C) :=
  do s <- fpm_scale o wvl scale;
  do EP3 <- full_to_P3 o wvl Ein;
  do EP4 <- full_P3_to_P4 o wvl s EP3;
  do EP4' <- (if Req_EM_T normFac 0 then
                if is_vortex o then do r <- relay EP3 (nrel o (o_n34 o)) (o_cen o); pad_cropf r (o_narr4 o) (o_narr4 o)
                else Ok EP4
              else Ok EP4);
  do EP4'' <- imul EP4' (o_lyot o);
  do F <- to_Fend o wvl (o_fend o) EP4'';
  Ok (normalise normFac F).

(* ---- compact model ---- *)
(* outputs used by the gradient code: fields after DM1 and before DM2 *)
Record compact_mid : Type := mkmid { m_EP3 : field C; m_Edm1post : field C; m_Edm2pre : field C }.
(* falco/model/models.py:852-925.  flagDMwfe: pad_crop is called with a fourth positional argument (TypeError) when a DM is in use *)
Definition compact_to_P3 (o : optics) (wvl : R) (Ein : field C) : res compact_mid :=
  let n := o_pad o in
  do pupil <- pad_cropf (o_pupil o) n n;
  do Ein' <- pad_cropf Ein n n;
  do st1 <- stop_or_ones n (o_stop1 o);
  do st2 <- stop_or_ones n (o_stop2 o);
  if o_wfe o && (o_use1 o || o_use2 o) then Raise TypeError
  else
  do EP1 <- bop Cmult pupil Ein';
  do EP2 <- relay EP1 (nrel o (o_n12 o)) (o_cen o);
  do pre <- (if Req_EM_T (o_d1 o) 0 then Ok EP2 else ptp EP2 (o_dx2 o * INR n) wvl (o_d1 o));
  do pre' <- imul pre st1;
  do a1 <- bop Cmult pre' (ones n);
  do Edm1post <- bop Cmult a1 (phasor wvl (surf_or_zero (o_use1 o) n (o_surf1 o)));
  do p12 <- ptp Edm1post (o_dx2 o * INR n) wvl (o_d12 o);
  do Edm2pre <- bop Cmult st2 p12;
  do b1 <- bop Cmult (ones n) Edm2pre;
  do Edm2 <- bop Cmult b1 (phasor wvl (surf_or_zero (o_use2 o) n (o_surf2 o)));
  do EP2eff <- (if Req_EM_T (o_d1 o + o_d12 o) 0 then Ok Edm2 else ptp Edm2 (o_dx2 o * INR n) wvl (- (o_d1 o + o_d12 o)));
  do EP3 <- relay EP2eff (nrel o (o_n23 o)) (o_cen o);
  do EP3' <- match o_apod o with None => Ok EP3 | Some (m, na) => do p <- pad_cropf EP3 na na; bop Cmult m p end;
  Ok (mkmid EP3' Edm1post Edm2pre).
Local Open Scope string_scope.
(* falco/model/models.py:823-826 *)
Definition compact_trans (o : optics) : res C := if str_in (upper (o_coro o)) ["HLC"] then corner (o_fpm o) else Ok (RtoC 1).
(* falco/model/models.py:932-1004; an unknown name leaves EP4 unassigned (NameError) *)
Definition compact_P3_to_P4 (o : optics) (wvl s : R) (t : C) (useFPM : bool) (EP3 : field C) : res (field C) :=
  let co := upper (o_coro o) in
  if useFPM then
    if is_vortex o then
      do v <- vortex_prop o EP3;
      do r <- relay v (nrel o (o_n34 o) - 1) (o_cen o);
      pad_cropf r (o_narr4 o) (o_narr4 o)
    else if str_in co ["FLC"; "SPLC"] then
      do inc <- p2f_f3 o wvl s EP3;
      do EF3 <- bop Cmult (o_fpm o) inc;
      do EP4 <- f2p_f3 o wvl s EF3;
      relay EP4 (nrel o (o_n34 o) - 1) (o_cen o)
    else if str_in co ["LC"; "APLC"; "HLC"] then
      do inc <- p2f_f3 o wvl s EP3;
      do EF3 <- bop Cmult (fmap (fun m => Cminus t m) (o_fpm o)) inc;
      do no <- relay EP3 (nrel o (o_n34 o)) (o_cen o);
      do no' <- pad_cropf no (o_narr4 o) (o_narr4 o);
      do sub <- f2p_f3 o wvl s EF3;
      do sub' <- relay sub (nrel o (o_n34 o) - 1) (o_cen o);
      bop Cminus (scal t no') sub'
    else Raise NameError
  else
    do EP4 <- relay EP3 (nrel o (o_n34 o)) (o_cen o);
    let EP4 := scal t EP4 in
    do EP4 <- (if Req_EM_T (o_nbeam4 o) (o_nbeam1 o) then Ok EP4 else o_downsample o EP4);
    pad_cropf EP4 (o_narr4 o) (o_narr4 o).
Local Close Scope string_scope.
(* falco/model/models.py:770-1035 *)
Definition compact_general (o : optics) (wvl normFac : R) (evalMode scale useFPM : bool) (Ein : field C) : res (field C * compact_mid) :=
  do t <- compact_trans o;
  do s <- fpm_scale o wvl scale;
  do mid <- compact_to_P3 o wvl Ein;
  let useFPM' := if Req_EM_T normFac 0 then (if is_vortex o then false else useFPM) else useFPM in
  do EP4 <- compact_P3_to_P4 o wvl s t useFPM' (m_EP3 mid);
  do EP4' <- bop Cmult (o_lyot o) EP4;
  do F <- to_Fend o wvl (if evalMode then o_eval o else o_fend o) EP4';
  Ok (normalise normFac F, mid).
Definition compact_field o wvl nf ev sc fpm E : res (field C) := do r <- compact_general o wvl nf ev sc fpm E; Ok (fst r).
