(* Model of set_utu_scale_fac (falco/ctrl.py:1187-1247): the scale of the voltage penalty of AD-EFC.  The code after line 1248 defines a
   function that is never called *)
From Verif Require Import Base RBase CtrlModel DmModel EfcSpec JacModel JacSpec.
Open Scope R_scope.
(* mp.dm1, mp.dm2 and mp.ctrl.ad.utu_scale_fac (absent at first) *)
Record ust : Type := mku { u_d1 : jdm; u_d2 : jdm; u_fac : option R }.
(* the rest of mp: DMs in use, modes, dark-hole pixels, mode weights, the two boolean masks, and how the Jacobian is computed *)
Record ucfg : Type := mkuc { c_dm_ind : list Z; c_nmode : nat; c_npix : nat; c_w : nat -> R; c_mask1 : list bool; c_mask2 : list bool; c_par : bool; c_order : list nat; c_resp : Z -> nat -> Z -> pixv }.
(* falco/ctrl.py:1194-1195, 1200-1201: np.arange(NactTotal)[mask]; a mask of another length raises IndexError *)
Definition choose (d : jdm) (mask : list bool) : res jdm :=
  if (Z.of_nat (length mask) =? jNact d)%Z then let a := nonzero (fun b => b) mask in Ok (mkjdm (jNact d) a false (Z.of_nat (length a)) (jtied d)) else Raise IndexError.
Definition put_back (d old : jdm) : jdm := mkjdm (jNact d) (jact old) (jlist old) (jNele old) (jtied d).
(* jacStruct.G[:, :, iMode] as columns *)
Definition mode_cols (G : jacc) (m : nat) : list pixv := map (fun col => nth m col vzero) G.
(* falco/ctrl.py:1221-1226: Gstack of a mode, DMs 1 and 2 only *)
Definition utu_stack (c : ucfg) (G : jacc * jacc) (m : nat) : res (list pixv) :=
  do s1 <- (if usedb (c_dm_ind c) 1 then hstack_block (c_npix c) [] (mode_cols (fst G) m) else Ok []);
  if usedb (c_dm_ind c) 2 then hstack_block (c_npix c) s1 (mode_cols (snd G) m) else Ok s1.
(* falco/ctrl.py:1219-1229: the diagonal of GstarG_wsum, n entries; off-diagonal entries are not used *)
Fixpoint utu_diag (c : ucfg) (G : jacc * jacc) (ms : list nat) (acc : list R) : res (list R) :=
  match ms with
  | [] => Ok acc
  | m :: t =>
    do st <- utu_stack c G m;
    if Nat.eqb (length st) (length acc) then utu_diag c G t (map (fun '(a, v) => a + c_w c m * rsum (c_npix c) (fun p => sqmod (v p))) (combine acc st)) else Raise ValueError
  end.
(* falco/ctrl.py:1187-1247; norm: what calc_psf_norm_factor does.  uVec (1210-1212) only gives the number of actuators *)
Definition set_utu (c : ucfg) (norm : res unit) (s : ust) : res unit * ust :=
  match norm with
  | Raise e => (Raise e, s)
  | Ok _ =>
    match (if usedb (c_dm_ind c) 1 then choose (u_d1 s) (c_mask1 c) else Ok (u_d1 s)) with
    | Raise e => (Raise e, s)
    | Ok d1 =>
      let s1 := mku d1 (u_d2 s) (u_fac s) in
      match (if usedb (c_dm_ind c) 2 then choose (u_d2 s) (c_mask2 c) else Ok (u_d2 s)) with
      | Raise e => (Raise e, s1)
      | Ok d2 =>
        let s2 := mku d1 d2 (u_fac s) in
        let n := ((if usedb (c_dm_ind c) 1 then length (jact d1) else 0) + (if usedb (c_dm_ind c) 2 then length (jact d2) else 0))%nat in
        match (do G <- jacobian pixv vzero vadd2 (c_resp c) (c_par c) (c_order c) (c_dm_ind c) d1 d2 (c_nmode c);
               do dg <- utu_diag c G (seq 0 (c_nmode c)) (repeat 0 n);
               lmax dg) with
        | Raise e => (Raise e, s2)
        | Ok M => (Ok tt, mku (if usedb (c_dm_ind c) 1 then put_back d1 (u_d1 s) else d1) (if usedb (c_dm_ind c) 2 then put_back d2 (u_d2 s) else d2) (Some M))
        end
      end
    end
  end.
