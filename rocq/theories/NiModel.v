(* Model of the control Jacobian of the normalised intensity: falco/model/jacobians.py no_fpm (986-1247) and the minimizeNI
   branches of precomp (167-175) and lyot (457-463, 551-557), and of falco/ctrl.py:72-82.  Exact arithmetic. *)
From Verif Require Import Base RBase StrBase CBase UtilModel PropModel OptModel DiffModel SrcModel PokeModel.
Open Scope R_scope.

(* mp.P4.compact.mask and mp.P4.compact.maskAtP1res (None: no such attribute), arrays of reals in the code *)
Record stops : Type := mkstops { sp_mask : field C; sp_P1res : option (field C) }.
(* jacobians.py:1026-1031: the tilt of the star's wavefront, relayed with the default centring ('pixel') and inverted *)
Definition ett_undo (b : bench) (o : optics) (st : star) (wvl : R) : res (field C) :=
  do r <- relay (tilt b (st_xi st) (st_eta st) wvl) (nrel o (o_n12 o)) Pixel;
  Ok (fmap (fun z => Cdiv (RtoC 1) z) r).
(* jacobians.py:1045-1061: Lyot stop in the orientation of pupil P2; the relay uses the default centring *)
Definition lyot_reimaged (o : optics) (sp : stops) : res (field C) :=
  do m <- (if Req_EM_T (o_nbeam4 o) (o_nbeam1 o) then Ok (sp_mask sp) else match sp_P1res sp with Some m => Ok m | None => Raise ValueError end);
  do p <- pad_cropf m (o_pad o) (o_pad o);
  relay p (nrel o (o_n23 o + o_n34 o)) Pixel.
(* np.sum of a two-dimensional array *)
Definition csum2 (F : field C) : C := csum (frows F) (fun i => csum (fcols F) (fun j => fpx F i j)).
(* jacobians.py:986-1247 for one actuator; dm2: idm is 2 (otherwise 1); transOuterFPM = 1 *)
Definition peak_jac (b : bench) (o : optics) (st : star) (sp : stops) (wvl I00 : R) (fields : field C * field C) (dm2 : bool) (pk : poked) : res C :=
  let nd := pk_nd pk in let m := pk_nas pk in
  do u0 <- ett_undo b o st wvl;
  do l0 <- lyot_reimaged o sp;
  if o_wfe o && o_use2 o then Raise TypeError
  else
  let ay := box_start (pk_lly pk) m (pk_nbox pk) in
  let ax := box_start (pk_llx pk) m (pk_nbox pk) in
  do apn <- jac_apod o nd;
  do ln <- pad_cropf l0 nd nd;
  do un <- pad_cropf u0 nd nd;
  do B <- (if dm2 then box_dm2 o wvl (snd fields) pk ay ax else box_dm1 o wvl (fst fields) pk ay ax);
  do a <- take_box apn ay ax m;
  do B1 <- bop Cmult a B;
  do u <- take_box un ay ax m;
  do B2 <- bop Cmult u B1;
  do l <- take_box ln ay ax m;
  do B3 <- bop Cmult l B2;
  Ok (Cdiv (Cmult (csum2 B3) (RtoC (1 * sqrt (o_dx2 o * o_dx2 o) * sqrt (g_dxi (o_fend o) * g_deta (o_fend o)) / (wvl * o_fl o)))) (RtoC (sqrt I00))).
(* jacobians.py:172-173, ctrl.py:79-81: E[np.unravel_index(np.argmax(np.abs(E)), E.shape)], the first of the largest in row-major order *)
Definition first_max (l : list C) : res C :=
  match l with [] => Raise ValueError | z :: t => Ok (fold_left (fun best v => if Rlt_dec (Cmod best) (Cmod v) then v else best) t z) end.
Definition pixels (F : field C) : list C := flat_map (fun i => map (fun j => fpx F i j) (seq 0 (fcols F))) (seq 0 (frows F)).
Definition peak_of (F : field C) : res C := first_max (pixels F).
(* jacobians.py:167-175: Eocculted and Epeak of one mode *)
Definition ni_fields (o : optics) (wvl I00 : R) (scale : bool) (Ein : field C) : res (field C * C) :=
  do Eo <- compact_field o wvl I00 false scale true Ein;
  do Eu <- compact_field o wvl I00 false scale false Ein;
  do p <- peak_of Eu;
  Ok (Eo, p).
(* Gchunk/Epeak - Eocculted/(Epeak*Epeak) * JacOfPeak, entry by entry, times the weight *)
Definition ni_entry (Epeak J : C) (weight : R) (g e : C) : C :=
  Cmult (Cminus (Cdiv g Epeak) (Cmult (Cdiv e (Cmult Epeak Epeak)) J)) (RtoC weight).
(* jacobians.py:209-643 with minimizeNI True *)
Definition lyot_column_ni (b : bench) (o : optics) (st : star) (sp : stops) (wvl I00 : R) (scale : bool) (M : field bool) (fields : field C * field C) (ni : field C * C) (dm2 : bool) (pk : poked) : res (list C) :=
  if pk_dead pk then gather M (mkf (frows M) (fcols M) (fun _ _ => RtoC 0))
  else
    do F <- lyot_image o wvl scale fields dm2 pk;
    do g <- gather M F;
    do J <- peak_jac b o st sp wvl I00 fields dm2 pk;
    do e <- gather M (fst ni);
    Ok (map (fun p => ni_entry (snd ni) J (pk_weight pk) (Cdiv (fst p) (RtoC (sqrt I00))) (snd p)) (combine g e)).
(* ctrl.py:72-82: Eest[:, iMode] = cvar.Eest[:, iMode] / Epeak *)
Definition ni_estimate (o : optics) (wvl I00 : R) (scale : bool) (Ein : field C) (Eest : list C) : res (list C) :=
  do Eu <- compact_field o wvl I00 false scale false Ein;
  do p <- peak_of Eu;
  Ok (map (fun z => Cdiv z p) Eest).
