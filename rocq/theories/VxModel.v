(* Model of falco/model/jacobians.py: vortex (646-985) with the part of precomp it needs (67-86), for one mode and one
   actuator: a column of the control Jacobian of a vortex coronagraph.  q = mp.F3.VortexCharge, an int or a float.
   scipy's fft2 and fftshift are the transforms of PropModel. *)
From Verif Require Import Base RBase StrBase CBase UtilModel PropModel OptModel DiffModel SrcModel PokeModel.
From Verif Require EstModel.
Open Scope R_scope.
(* falco/mask.py:1626-1645 with falco/util.py:352-371 *)
Definition vx_mask (q : R) (n : nat) : field C := mkf n n (fun i j => cis (q * EstModel.atan2 (vaxis n i) (vaxis n j))).
(* jacobians.py:72-73, 80-81: int(2**nextpow2(max(NdmPad, 8*Nbox))) *)
Definition nfft (pk : poked) : nat := Z.to_nat (2 ^ nextpow2 (INR (Nat.max (pk_nd pk) (8 * pk_nbox pk))))%Z.
(* jacobians.py:873-876, 957-960: through the vortex by two FFTs; V has the fftshift of jacobians.py:77, 85 applied *)
Definition vx_ffts (n : nat) (V E : field C) : res (field C) :=
  do VF <- bop Cmult V (fftn (fftshift E));
  let EF3 := scal (RtoC (/ INR n)) VF in
  Ok (scal (RtoC (/ INR n)) (fftshift (fftn EF3))).
(* jacobians.py:856-886 (DM1) and 941-970 (DM2): from the box in pupil P2 to the final focal plane; dx is the sampling
   given to the last MFT *)
Definition vx_tail (o : optics) (wvl dx q : R) (n nd : nat) (ay ax : Z) (m : nat) (apod B : field C) : res (field C) :=
  do ap <- take_box apod ay ax m;
  do B' <- bop Cmult ap B;
  do z <- put_box nd ay ax m B';
  do E3 <- relay z (nrel o (o_n23 o)) (o_cen o);
  do E3p <- pad_cropf E3 n n;
  do EP4 <- vx_ffts n (fftshift (vx_mask q n)) E3p;
  do r <- relay EP4 (nrel o (o_n34 o) - 1) (o_cen o);
  do L <- (if Nat.ltb (o_narr4 o) n then do p <- pad_cropf r (o_narr4 o) (o_narr4 o); bop Cmult (o_lyot o) p
           else do l <- pad_cropf (o_lyot o) n n; bop Cmult l r);
  do r2 <- relay L (nrel o (o_nend o)) (o_cen o);
  mft_p2f r2 (o_fl o) wvl dx (g_dxi (o_fend o)) (g_Nxi (o_fend o)) (g_deta (o_fend o)) (g_Neta (o_fend o)) (o_cen o).
(* jacobians.py:809-886, 905-970: the last MFT has the sampling of P2 for DM1 and of P4 for DM2 *)
Definition vx_image (o : optics) (wvl q : R) (fields : field C * field C) (dm2 : bool) (pk : poked) : res (field C) :=
  do ap <- jac_apod o (pk_nd pk);
  let ay := box_start (pk_lly pk) (pk_nas pk) (pk_nbox pk) in
  let ax := box_start (pk_llx pk) (pk_nas pk) (pk_nbox pk) in
  do B <- (if dm2 then box_dm2 o wvl (snd fields) pk ay ax else box_dm1 o wvl (fst fields) pk ay ax);
  vx_tail o wvl (if dm2 then o_dx4 o else o_dx2 o) q (nfft pk) (pk_nd pk) ay ax (pk_nas pk) ap B.
(* jacobians.py:646-985 with minimizeNI False; I00 = mp.Fend.compact.I00[sbpIndex] *)
Definition vx_column (o : optics) (wvl I00 q : R) (M : field bool) (fields : field C * field C) (dm2 : bool) (pk : poked) : res (list C) :=
  if pk_dead pk then gather M (mkf (frows M) (fcols M) (fun _ _ => RtoC 0))
  else
    do F <- vx_image o wvl q fields dm2 pk;
    do g <- gather M F;
    Ok (map (fun z => Cmult (Cdiv z (RtoC (sqrt I00))) (RtoC (pk_weight pk))) g).
