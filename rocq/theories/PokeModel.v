(* Model of falco/model/jacobians.py: precomp (13-206) and lyot (209-643) for one mode and one actuator: a column of the
   control Jacobian of a Lyot-type coronagraph.  Exact arithmetic; the DM surfaces stored by falco/model/models.py:1063-1074
   are the surfaces of the instrument. *)
From Verif Require Import Base RBase StrBase CBase UtilModel PropModel OptModel DiffModel SrcModel.
Open Scope R_scope.

(* one actuator of mp.dm1 or mp.dm2: compact.NdmPad, compact.Nbox, compact.NboxAS, compact.xy_box_lowerLeft[:, iact] (whole
   numbers), compact.x_pupPad, compact.y_pupPad, VtoH, compact.inf_datacube[:, :, iact], weight, iact in dead *)
Record poked : Type := mkpk { pk_nd : nat; pk_nbox : nat; pk_nas : nat; pk_llx : Z; pk_lly : Z; pk_x : list R; pk_y : list R;
  pk_vtoh : R; pk_inf : field R; pk_weight : R; pk_dead : bool }.

(* jacobians.py:130-141: surfaces of the DMs in use, zeros otherwise *)
Definition jac_surf (use : bool) (n : nat) (s : field R) : res (field R) := if use then pad_cropr s n n else Ok (mkf n n (fun _ _ => 0)).
(* jacobians.py:98-204 without the input field (built as in the compact model, SrcModel) and without the peak fields:
   fields after DM1 and after DM2; nd2 = mp.dm2.compact.NdmPad *)
Definition precomp (o : optics) (wvl : R) (Ein : field C) (nd2 : nat) : res (field C * field C) :=
  let n := o_pad o in
  do pupil <- pad_cropf (o_pupil o) n n;
  do Ein' <- pad_cropf Ein n n;
  do s1 <- jac_surf (o_use1 o) n (o_surf1 o);
  do s2 <- jac_surf (o_use2 o) n (o_surf2 o);
  do st1 <- stop_or_ones n (o_stop1 o);
  do st2 <- stop_or_ones n (o_stop2 o);
  if o_wfe o && (o_use1 o || o_use2 o) then Raise TypeError
  else
  do EP1 <- bop Cmult pupil Ein';
  do EP2 <- relay EP1 (nrel o (o_n12 o)) (o_cen o);
  do E <- (if Req_EM_T (o_d1 o) 0 then Ok EP2 else ptp EP2 (o_dx2 o * INR n) wvl (o_d1 o));
  do k1 <- bop Cmult (ones n) st1;
  do k2 <- bop Cmult k1 (phasor wvl s1);
  do Edm1 <- imul E k2;
  do st2p <- pad_cropf st2 nd2 nd2;
  do wfp <- pad_cropf (ones n) nd2 nd2;
  do p12 <- ptp Edm1 (INR n * o_dx2 o) wvl (o_d12 o);
  do inc0 <- pad_cropf p12 nd2 nd2;
  do inc <- pad_cropf inc0 nd2 nd2;
  do s2p <- pad_cropr s2 nd2 nd2;
  do a <- bop Cmult st2p wfp;
  do b <- bop Cmult a inc;
  do Edm2 <- bop Cmult b (phasor wvl s2p);
  Ok (Edm1, Edm2).

(* jacobians.py:374-375, 396-397: first index of the padded box; np.arange with dtype=int truncates its start *)
Definition box_start (ll : Z) (nas nbox : nat) : Z := Z.quot (2 * ll - (Z.of_nat nas - Z.of_nat nbox)) 2.
(* position read or written by index a + k on an axis of n samples; negative indices count from the end *)
Definition ixv (n : nat) (a : Z) (k : nat) : nat := match np_ix (Z.of_nat n) (a + Z.of_nat k) with Some z => Z.to_nat z | None => 0%nat end.
Definition box_ok (n : nat) (a : Z) (m : nat) : bool := forallb (fun k => match np_ix (Z.of_nat n) (a + Z.of_nat k) with Some _ => true | None => false end) (seq 0 m).
(* E[np.ix_(ay + arange(m), ax + arange(m))] *)
Definition take_box {A} (E : field A) (ay ax : Z) (m : nat) : res (field A) :=
  if box_ok (frows E) ay m && box_ok (fcols E) ax m then Ok (mkf m m (fun i j => fpx E (ixv (frows E) ay i) (ixv (fcols E) ax j))) else Raise IndexError.
Definition take_ax (l : list R) (a : Z) (m : nat) : res (nat -> R) :=
  if box_ok (length l) a m then Ok (fun k => nth (ixv (length l) a k) l 0) else Raise IndexError.
(* zeros((n, n)); [np.ix_(...)] = B; where two indices meet, the last one wins *)
Definition last_ix (n : nat) (a : Z) (m r : nat) : option nat := find (fun k => Nat.eqb (ixv n a k) r) (rev (seq 0 m)).
Definition put_box (n : nat) (ay ax : Z) (m : nat) (B : field C) : res (field C) :=
  if box_ok n ay m && box_ok n ax m then
    Ok (mkf n n (fun r c => match last_ix n ay m r, last_ix n ax m c with Some i, Some j => fpx B i j | _, _ => RtoC 0 end))
  else Raise IndexError.

(* falco/setup.py:921-946: coordinates of the focal-plane mask, without scaling *)
Definition fpm_axis (N : nat) (step : R) (c : centering) (k : nat) : R :=
  if interp c || Nat.odd N then (INR k - (INR N - 1) / 2) * step else (INR k - INR N / 2) * step.
(* jacobians.py:428-431: rect_mat_pre @ dEP3box @ rect_mat_post *)
Definition box_to_F3 (o : optics) (wvl s : R) (m : nat) (y x : nat -> R) (B : field C) : field C :=
  let g := o_f3 o in
  let pre k i := Cmult (cis (-2 * PI * ((s * fpm_axis (g_Neta g) (g_deta g) (o_cen o) k) * y i) / (wvl * o_fl o)))
                       (RtoC (sqrt (o_dx2 o * o_dx2 o) * sqrt (s * g_dxi g * (s * g_deta g)) / (wvl * o_fl o))) in
  let post j l := cis (-2 * PI * (x j * (s * fpm_axis (g_Nxi g) (g_dxi g) (o_cen o) l)) / (wvl * o_fl o)) in
  mkf (g_Neta g) (g_Nxi g) (fun k l => csum m (fun j => Cmult (csum m (fun i => Cmult (pre k i) (fpx B i j))) (post j l))).
Definition oddrel (o : optics) (k : Z) : bool := (nrel o k mod 2 =? 1)%Z.
(* x_box, or -1*x_box[::-1] *)
Definition flip_ax (odd : bool) (m : nat) (x : nat -> R) : nat -> R := if odd then (fun k => -1 * x (m - 1 - k)%nat) else x.

Local Open Scope string_scope.
(* jacobians.py:302-307, 386 / 521: the apodizer in the orientation of pupil P2 *)
Definition jac_apod (o : optics) (nd : nat) : res (field C) :=
  do a <- match o_apod o with Some (m, _) => do p <- pad_cropf m (o_pad o) (o_pad o); relay p (nrel o (o_n23 o)) (o_cen o) | None => Ok (ones (o_pad o)) end;
  pad_cropf a nd nd.
(* jacobians.py:419-461 and 540-584: from the box in pupil P2 to the final focal plane; t = transOuterFPM.
   A coronagraph that is not in the lists leaves EP4 unassigned *)
Definition jac_tail (o : optics) (wvl s : R) (t : C) (nd : nat) (ay ax : Z) (m : nat) (y x : nat -> R) (apod B : field C) : res (field C) :=
  let co := upper (o_coro o) in
  do ap <- take_box apod ay ax m;
  do B' <- bop Cmult ap B;
  let odd := oddrel o (o_n23 o) in
  let B3 := if odd then flip2 B' else B' in
  let inc := box_to_F3 o wvl s m (flip_ax odd m y) (flip_ax odd m x) B3 in
  do EP4 <- (if str_in co ["LC"; "APLC"; "HLC"] then
               do EF3 <- bop Cmult (fmap (fun c => Cminus t c) (o_fpm o)) inc;
               do sub <- f2p_f3 o wvl s EF3;
               do sub' <- relay sub (nrel o (o_n34 o) - 1) (o_cen o);
               do z <- put_box nd ay ax m B';
               do no <- relay z (nrel o (o_n23 o + o_n34 o)) (o_cen o);
               do no' <- pad_cropf no (o_narr4 o) (o_narr4 o);
               bop Cminus (scal t no') sub'
             else if str_in co ["FLC"; "SPLC"] then
               do EF3 <- bop Cmult (o_fpm o) inc;
               do EP4 <- f2p_f3 o wvl s EF3;
               relay EP4 (nrel o (o_n34 o) - 1) (o_cen o)
             else Raise NameError);
  do E <- imul EP4 (o_lyot o);
  to_Fend o wvl (o_fend o) E.
Local Close Scope string_scope.
(* surfIntoPhase*2*pi*1j/wvl *)
Definition ik (wvl : R) : C := (0, 2 * 2 * PI / wvl).
Definition rscal_f (a : R) (f : field R) : field R := mkf (frows f) (fcols f) (fun i j => a * fpx f i j).
(* jacobians.py:404-406 (DM1): to DM2 and back to pupil P2, inside the box *)
Definition box_dm1 (o : optics) (wvl : R) (Edm1 : field C) (pk : poked) (ay ax : Z) : res (field C) :=
  let n := o_pad o in let nd := pk_nd pk in let m := pk_nas pk in let w := o_dx2 o * INR m in
  do s2n <- jac_surf (o_use2 o) n (o_surf2 o);
  do st2n <- stop_or_ones n (o_stop2 o);
  do s2 <- jac_surf (o_use2 o) nd s2n;
  do st2 <- stop_or_ones nd (match o_stop2 o with Some _ => Some st2n | None => None end);
  do e1p <- pad_cropf Edm1 nd nd;
  do wfp <- pad_cropf (ones n) nd nd;
  do p <- pad_cropr (rscal_f (pk_vtoh pk) (pk_inf pk)) m m;
  do e1 <- take_box e1p ay ax m;
  do a <- bop Cmult (fmap (fun r : R => Cmult (ik wvl) (RtoC r)) p) e1;
  do b <- ptp a w wvl (o_d12 o);
  do wf <- take_box wfp ay ax m;
  do sb <- take_box st2 ay ax m;
  do ub <- take_box s2 ay ax m;
  do c1 <- bop Cmult b wf;
  do c2 <- bop Cmult c1 sb;
  do c3 <- bop Cmult c2 (phasor wvl ub);
  ptp c3 w wvl (-1 * (o_d12 o + o_d1 o)).
(* jacobians.py:536-537 (DM2): back to pupil P2, inside the box *)
Definition box_dm2 (o : optics) (wvl : R) (Edm2 : field C) (pk : poked) (ay ax : Z) : res (field C) :=
  let m := pk_nas pk in
  do p <- pad_cropr (pk_inf pk) m m;
  do e2 <- take_box Edm2 ay ax m;
  do a <- bop Cmult (fmap (fun r : R => Cmult (Cmult (RtoC (pk_vtoh pk)) (ik wvl)) (RtoC r)) p) e2;
  ptp a (o_dx2 o * INR m) wvl (-1 * (o_d12 o + o_d1 o)).
(* EFend[maskBool] *)
Definition gather (M : field bool) (F : field C) : res (list C) :=
  if Nat.eqb (frows F) (frows M) && Nat.eqb (fcols F) (fcols M) then
    Ok (flat_map (fun i => flat_map (fun j => if fpx M i j then [fpx F i j] else []) (seq 0 (fcols M))) (seq 0 (frows M)))
  else Raise IndexError.
(* field of the poke in the final focal plane *)
Definition lyot_image (o : optics) (wvl : R) (scale : bool) (fields : field C * field C) (dm2 : bool) (pk : poked) : res (field C) :=
  do s <- fpm_scale o wvl scale;
  do t <- compact_trans o;
  do ap <- jac_apod o (pk_nd pk);
  let ay := box_start (pk_lly pk) (pk_nas pk) (pk_nbox pk) in
  let ax := box_start (pk_llx pk) (pk_nas pk) (pk_nbox pk) in
  do x <- take_ax (pk_x pk) ax (pk_nas pk);
  do y <- take_ax (pk_y pk) ay (pk_nas pk);
  do B <- (if dm2 then box_dm2 o wvl (snd fields) pk ay ax else box_dm1 o wvl (fst fields) pk ay ax);
  jac_tail o wvl s t (pk_nd pk) ay ax (pk_nas pk) y x ap B.
(* jacobians.py:209-643 with minimizeNI False; I00 = mp.Fend.compact.I00[sbpIndex]; dm2: idm is 2 (otherwise 1) *)
Definition lyot_column (o : optics) (wvl I00 : R) (scale : bool) (M : field bool) (fields : field C * field C) (dm2 : bool) (pk : poked) : res (list C) :=
  if pk_dead pk then gather M (mkf (frows M) (fcols M) (fun _ _ => RtoC 0))
  else
    do F <- lyot_image o wvl scale fields dm2 pk;
    do g <- gather M F;
    Ok (map (fun z => Cmult (Cdiv z (RtoC (sqrt I00))) (RtoC (pk_weight pk))) g).
