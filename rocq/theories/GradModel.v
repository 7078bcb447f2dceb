(* Model of falco/model/models.py:425-612, the part of compact_reverse_gradient that turns the fields of each mode into
   the cost and into gradients with respect to the two DM surfaces.  The step from surface gradients to actuator
   commands is in CmdModel. *)
From Verif Require Import Base RBase StrBase UtilModel CBase PropModel OptModel.
Open Scope R_scope.

(* one control mode: wavelength, normalisation, weight, input field of the compact model, estimated field in the
   dark hole (a column of EestAll) *)
Record mode : Type := mkmode { md_wvl : R; md_I00 : R; md_w : R; md_Ein : field C; md_est : list C }.

(* number of selected pixels before (i, j) in row-major order, and in total *)
Fixpoint ncount (n : nat) (p : nat -> bool) : nat := match n with O => O | S k => ncount k p + (if p k then 1 else 0) end%nat.
Fixpoint nsum (n : nat) (f : nat -> nat) : nat := match n with O => O | S k => nsum k f + f k end%nat.
Definition mask_rank (M : field bool) (i j : nat) : nat := (nsum i (fun a => ncount (fcols M) (fpx M a)) + ncount j (fpx M i))%nat.
Definition mask_count (M : field bool) : nat := nsum (frows M) (fun a => ncount (fcols M) (fpx M a)).
(* models.py:506-507: E = zeros_like(mask, dtype=complex); E[mask] = vec *)
Definition scatter (M : field bool) (v : list C) : res (field C) :=
  if Nat.eqb (length v) (mask_count M) then Ok (mkf (frows M) (fcols M) (fun i j => if fpx M i j then nth (mask_rank M i j) v (RtoC 0) else RtoC 0))
  else if Nat.eqb (length v) 1 then Ok (mkf (frows M) (fcols M) (fun i j => if fpx M i j then nth 0%nat v (RtoC 0) else RtoC 0))
  else Raise ValueError.
Definition b2c (b : bool) : C := if b then RtoC 1 else RtoC 0.
(* models.py:536-538: sum over E[mask] of |.|^2; boolean indices must have the shape of the array *)
Definition masked_energy (M : field bool) (E : field C) : res R :=
  if Nat.eqb (frows E) (frows M) && Nat.eqb (fcols E) (fcols M)
  then Ok (rsum (frows M) (fun i => rsum (fcols M) (fun j => if fpx M i j then abs2 (fpx E i j) else 0)))
  else Raise IndexError.

(* models.py:543: weight * 2 / sqrt(I00) * E * mask *)
Definition rev_start (I00 w : R) (M : field bool) (E : field C) : res (field C) :=
  bop Cmult (fmap (Cmult (RtoC (w * 2 / sqrt I00))) E) (fmap b2c M).
(* models.py:545-547 *)
Definition rev_to_P4 (o : optics) (wvl : R) (F : field C) : res (field C) :=
  do g <- mft_f2p F (- o_fl o) wvl (g_dxi (o_fend o)) (g_deta (o_fend o)) (o_dx4 o) (o_narr4 o) (o_cen o);
  do r <- relay g (nrel o (o_nend o)) (o_cen o);
  do l <- pad_cropf (o_lyot o) (o_narr4 o) (o_narr4 o);
  bop Cmult r (fmap Cconj l).
Definition rev_p2f3 (o : optics) (wvl : R) (E : field C) : res (field C) :=
  mft_p2f E (- o_fl o) wvl (o_dx2 o) (g_dxi (o_f3 o)) (g_Nxi (o_f3 o)) (g_deta (o_f3 o)) (g_Neta (o_f3 o)) (o_cen o).
Definition rev_f2p3 (o : optics) (wvl : R) (E : field C) : res (field C) :=
  mft_f2p E (- o_fl o) wvl (g_dxi (o_f3 o)) (g_deta (o_f3 o)) (o_dx4 o) (o_pad o) (o_cen o).
Local Open Scope string_scope.
(* models.py:549-591; t = transOuterFPM *)
Definition rev_P4_to_P3 (o : optics) (wvl : R) (t : C) (G : field C) : res (field C) :=
  let co := upper (o_coro o) in
  let n34 := nrel o (o_n34 o) in
  if str_in co ["VORTEX"; "VC"; "AVC"] then
    do p <- pad_cropf G (o_pad o) (o_pad o);
    do r <- relay p (n34 - 1) (o_cen o);
    do q <- get_charge (o_charge o);
    mft_p2v2p r q (o_nbeam1 o / 2) 0.3 5 true
  else if str_in co ["FLC"; "SPLC"] then
    do r <- relay G (n34 - 1) (o_cen o);
    do f <- rev_p2f3 o wvl r;
    do f' <- bop Cmult (fmap Cconj (o_fpm o)) f;
    rev_f2p3 o wvl f'
  else if str_in co ["LC"; "APLC"; "HLC"] then
    do r0 <- relay G n34 (o_cen o);
    do no <- pad_cropf r0 (o_pad o) (o_pad o);
    do r <- relay (fmap Copp G) (n34 - 1) (o_cen o);
    do f <- rev_p2f3 o wvl r;
    do f' <- bop Cmult (fmap (fun m => Cconj (Cminus t m)) (o_fpm o)) f;
    do sub <- rev_f2p3 o wvl f';
    bop Cplus no sub
  else Raise ValueError.
Local Close Scope string_scope.
(* models.py:593-603: to the plane of DM2 *)
Definition rev_P3_to_DM2 (o : optics) (wvl : R) (E : field C) : res (field C) :=
  do a <- match o_apod o with None => Ok E | Some (m, _) => do p <- pad_cropf m (frows E) (fcols E); bop Cmult (fmap Cconj p) E end;
  do r <- relay a (nrel o (o_n23 o)) (o_cen o);
  if Req_EM_T (o_d1 o + o_d12 o) 0 then Ok r else ptp r (o_dx2 o * INR (frows r)) wvl (o_d1 o + o_d12 o).
(* -kk * imag(E * conj(F)), kk = 2*2*pi/wvl (models.py:498) *)
Definition surf_bar (wvl : R) (E F : field C) : res (field R) :=
  do p <- bop Cmult E (fmap Cconj F); Ok (mkf (frows p) (fcols p) (fun i j => - (2 * 2 * PI / wvl) * snd (fpx p i j))).
(* models.py:604-609: gradients with respect to the surfaces of DM1 and DM2; s2 is DM2surf *)
Definition rev_surfaces (o : optics) (wvl : R) (s2 : field R) (post pre : field C) (E : field C) : res (field R * field R) :=
  do E2 <- bop Cmult (fmap Cconj (phasor wvl s2)) E;
  do b2 <- surf_bar wvl E2 pre;
  do E1 <- ptp E2 (o_dx2 o * INR (frows E2)) wvl (- o_d12 o);
  do b1 <- surf_bar wvl E1 post;
  Ok (b1, b2).
(* one pass of the loop, models.py:490-609.  o: the instrument at the stored command, for which EFend_list, Edm1post_list,
   Edm2pre_list and DM2surf_list were computed (falco/ctrl.py:955-977); oB: the same instrument at the candidate command *)
Definition rev_mode (o oB : optics) (M : field bool) (t : C) (m : mode) : res (R * (field R * field R)) :=
  let wvl := md_wvl m in
  do est <- scatter M (md_est m);
  do A <- compact_general o wvl (md_I00 m) false false true (md_Ein m);
  do FB <- compact_field oB wvl (md_I00 m) false false true (md_Ein m);
  do dE <- bop Cminus FB (fst A);
  do Edh <- bop Cplus est dE;
  do en <- masked_energy M Edh;
  do F <- rev_start (md_I00 m) (md_w m) M Edh;
  do P4 <- rev_to_P4 o wvl F;
  do P3 <- rev_P4_to_P3 o wvl t P4;
  do D2 <- rev_P3_to_DM2 o wvl P3;
  do bars <- rev_surfaces o wvl (surf_or_zero (o_use2 o) (o_pad o) (o_surf2 o)) (m_Edm1post (snd A)) (m_Edm2pre (snd A)) D2;
  Ok (md_w m * en, bars).
(* += on real arrays of one shape *)
Definition radd (A B : field R) : res (field R) :=
  if Nat.eqb (frows A) (frows B) && Nat.eqb (fcols A) (fcols B) then Ok (mkf (frows A) (fcols A) (fun i j => fpx A i j + fpx B i j)) else Raise ValueError.
(* the totals start as the number 0 *)
Definition acc_bars (tot : option (field R * field R)) (b : field R * field R) : res (option (field R * field R)) :=
  match tot with
  | None => Ok (Some (mkf (frows (fst b)) (fcols (fst b)) (fun i j => 0 + fpx (fst b) i j), mkf (frows (snd b)) (fcols (snd b)) (fun i j => 0 + fpx (snd b) i j)))
  | Some (t1, t2) => do x2 <- radd t2 (snd b); do x1 <- radd t1 (fst b); Ok (Some (x1, x2))
  end.
Fixpoint rev_loop (o oB : optics) (M : field bool) (t : C) (ms : list mode) (cost : R) (tot : option (field R * field R)) : res (R * option (field R * field R)) :=
  match ms with
  | [] => Ok (cost, tot)
  | m :: r => do x <- rev_mode o oB M t m; do tot' <- acc_bars tot (snd x); rev_loop o oB M t r (cost + fst x) tot'
  end.
(* models.py:455-612 without the command bookkeeping; transOuterFPM is read once, from the mask of the stored configuration *)
Definition rev_surf (o oB : optics) (M : field bool) (ms : list mode) : res (R * option (field R * field R)) :=
  do t <- compact_trans o; rev_loop o oB M t ms 0 None.
