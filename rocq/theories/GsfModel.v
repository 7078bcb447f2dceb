(* Model of gen_surf_from_act (falco/dm.py:23-144) with the object it keeps between calls, of dm_init_falco_wrapper
   (falco/diff_dm.py:54-177), and of the last step of the AD-EFC gradient (falco/model/models.py:620-634).  Real arithmetic *)
From Verif Require Import Base StrBase RBase CtrlModel UtilModel DmModel DmSurfModel CubModel DmcModel CBase PropModel OptModel DiffModel RotModel.
Open Scope R_scope.
(* attributes of the DM object that a call reads and does not change: VtoH, HminStep and HminStepMethod (both may be absent), orientation (may be
   absent), centering == 'interpixel', xc, yc, dm_spacing, xtilt, ytilt, zrot, not flagZYX, inf_sign, the file inf_fn, useDifferentiableModel *)
Record gcfg : Type := mkg { g_vtoh : arr R; g_step : option R; g_method : option string; g_orient : option string; g_inter : bool; g_xc : R; g_yc : R;
  g_spacing : R; g_xt : R; g_yt : R; g_zr : R; g_xyz : bool; g_sign : string; g_file : inffile; g_diff : bool }.
(* what calls change: command and constraints; differentiableModel, and the Nintermediate that its render stores (absent: None) *)
Record gst : Type := mkgs { q_c : dmc R; q_dm : option rdm; q_int : option (nat * nat) }.
Definition rltb (x y : R) : bool := if Rlt_dec x y then true else false.
(* dm.V, a square array kept row by row *)
Definition v_arr (d : dmc R) : arr R := mkarr (cNact d) (cNact d) (fun i j => nth (Z.to_nat (i * cNact d + j)) (cV d) 0).
Definition amul (a b : arr R) : res (arr R) := if ((nr a =? nr b) && (nc a =? nc b))%Z then Ok (mkarr (nr a) (nc a) (fun i j => px a i j * px b i j)) else Raise ValueError.
(* falco/dm.py:67-100: the heights, from the constrained command *)
Definition height_map (c : gcfg) (d : dmc R) : res (arr R) :=
  do h <- (match g_step c with
           | None => amul (g_vtoh c) (v_arr d)
           | Some hs =>
             if ((nr (g_vtoh c) =? cNact d) && (nc (g_vtoh c) =? cNact d))%Z then
               do q <- discretize_surf (match g_method c with Some m => Some m | None => Some "round"%string end) hs (g_vtoh c) (v_arr d);
               amul (g_vtoh c) q
             else Raise ValueError
           end);
  orient_surf (g_orient c) h.
(* falco/diff_dm.py:54-177 as called in dm.py:107-117; fits.getheader is taken to read the header of the same file.
   The arguments dm_xc, dm_yc, which contain the centring, are not used *)
Definition wrapper (c : gcfg) (nact : nat) (dx : R) (h : field R) : res rdm :=
  do sg <- sign_factor (Some (g_sign c));
  let ratio := i_pitch (g_file c) / i_pix (g_file c) in
  let mag := ZnearestE ratio in
  if Rlt_dec (1 / 10 ^ 8) (Rabs (IZR mag - ratio)) then Raise ValueError
  else if Req_EM_T (g_spacing c) 0 then Raise ValueError
  else
    let m := Z.to_nat mag in
    let n := wrapper_size (fcols h) m in
    do p <- pad_cropr (rscale sg (of_rarr (i_map (g_file c)))) n n;
    do d <- rdm_init p nact nact m m (IZR (wrapper_shift (g_xc c) nact m)) (IZR (wrapper_shift (g_yc c) nact m))
              (i_pix (g_file c) * g_spacing c / i_pitch (g_file c) / dx) (wrapper_rot (g_xt c) (g_yt c) (g_zr c)) (wrapper_order (g_xyz c));
    rdm_update d h.
(* falco/dm.py:23-144.  ip: scipy's interpolation; surface and the DM object afterwards *)
Definition gen_surf (ip : interp) (c : gcfg) (s : gst) (dx : R) (nout : nat) : res (field R * gst) :=
  if Rlt_dec 0 dx then
    if Nat.eqb nout 0 then Raise TypeError
    else
      do d <- enforce_constraints R 0 Rplus rltb (q_c s);
      do h <- height_map c d;
      if g_diff c then
        do m <- (match q_dm s with
                 | None => wrapper c (Z.to_nat (cNact d)) dx (of_rarr h)
                 | Some m => rdm_update m (of_rarr h)
                 end);
        do r <- rrender ip m nout nout false;
        Ok (fst r, mkgs d (Some m) (Some (snd r)))
      else
        let cs := cshift (g_inter c) (INR nout) dx (g_spacing c) in
        do sf <- propcustom_dm plain_cubic false (mkwf (Z.of_nat nout) dx (INR nout * dx / 2)) h (g_xc c - cs) (g_yc c - cs) (g_spacing c) (g_file c)
                  (mkkw (g_xyz c) (negb (g_xyz c)) (Some (g_xt c)) (Some (g_yt c)) (Some (g_zr c)) (Some (g_sign c)) None false);
        Ok (of_rarr sf, mkgs d (q_dm s) (q_int s))
  else Raise TypeError.
(* dm.V = v, then a surface *)
Definition command (s : gst) (v : list R) : gst := mkgs (set_cV (q_c s) v) (q_dm s) (q_int s).
Fixpoint renders (ip : interp) (c : gcfg) (s : gst) (l : list (list R * R * nat)) : res gst :=
  match l with [] => Ok s | (v, dx, n) :: t => do r <- gen_surf ip c (command s v) dx n; renders ip c (snd r) t end.
(* falco/model/models.py:620-631: derivative with respect to the surface g, to the voltages; no dead actuators *)
Definition back_volts (ip : interp) (c : gcfg) (s : gst) (g : field R) : res (field R) :=
  match q_dm s with
  | None => Raise AttributeError
  | Some m =>
    do b <- rbackprop ip m (q_int s) g false;
    let v := of_rarr (g_vtoh c) in
    if (Nat.eqb (frows b) (frows v) && Nat.eqb (fcols b) (fcols v))%bool then Ok (mkf (frows b) (fcols b) (fun i j => fpx b i j * fpx v i j)) else Raise ValueError
  end.
