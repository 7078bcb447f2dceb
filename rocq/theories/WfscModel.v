(* Model of falco/wfsc.py: the DM-command bookkeeping of the control loop, the life of the stored
   Jacobian, and store_intensities. *)
From Verif Require Import Base RBase CtrlModel DmModel DmSpec EfcSpec JacModel.
Open Scope Z_scope.

(* ---- DM commands over the loop ---- *)
(* mp.dm1, mp.dm2 (with constraints) and the commands of mp.dm8, mp.dm9 *)
Record wst : Type := mkwst { w1 : dmr; w2 : dmr; w8 : list R; w9 : list R }.
(* one column of out.dmk.Vall, k = 1, 2, 8, 9: falco/wfsc.py:258-266 (dm5 is not modelled) *)
Definition column : Type := (list R * list R * list R * list R)%type.
Definition snapshot (s : wst) : column := (cV (w1 s), cV (w2 s), w8 s, w9 s).

(* mp.dmk = falco.dm.enforce_constraints(mp.dmk) if in use: falco/wfsc.py:135-138 and
   falco/model/models.py:1217-1219, 1228-1229 *)
Definition enforce_used (dm_ind : list Z) (s : wst) : res wst :=
  do d1 <- (if usedb dm_ind 1 then enforce (w1 s) else Ok (w1 s));
  do d2 <- (if usedb dm_ind 2 then enforce (w2 s) else Ok (w2 s));
  Ok (mkwst d1 d2 (w8 s) (w9 s)).

(* mp.dmk.V += dDM.dDMkV: falco/ctrl.py:106-113 *)
Definition add_used (dm_ind : list Z) (delta : Z -> list R) (s : wst) : res wst :=
  do v1 <- (if usedb dm_ind 1 then zip_with Rplus (cV (w1 s)) (delta 1) else Ok (cV (w1 s)));
  do v2 <- (if usedb dm_ind 2 then zip_with Rplus (cV (w2 s)) (delta 2) else Ok (cV (w2 s)));
  do v8 <- (if usedb dm_ind 8 then zip_with Rplus (w8 s) (delta 8) else Ok (w8 s));
  do v9 <- (if usedb dm_ind 9 then zip_with Rplus (w9 s) (delta 9) else Ok (w9 s));
  Ok (mkwst (set_cV (w1 s) v1) (set_cV (w2 s) v2) v8 v9).

Section Loop.
  (* mp.controller in ['plannedefc'] / == 'ad-efc' (lower case) *)
  Variables planned adefc : bool.
  Variable sched : list (list Z).      (* mp.dm_ind_sched *)
  Variable relinItrVec : list Z.
  (* the delta command the controller produces at each iteration, for each DM: an arbitrary
     sequence, so it may come from any estimator, controller and optical model *)
  Variable delta : nat -> Z -> list R.

  (* falco/wfsc.py:54-55 *)
  Definition select_dms (Itr : nat) (dm_ind : list Z) : res (list Z) :=
    if planned then match nth_error sched Itr with Some l => Ok l | None => Raise IndexError end else Ok dm_ind.
  (* falco/wfsc.py:79-80 *)
  Definition flagRelin (Itr : nat) : bool :=
    existsb (Z.eqb (Z.of_nat Itr)) relinItrVec || Nat.eqb Itr 0.

  (* One pass of falco/wfsc.py:39-172.  Returned: DMs in use, new state, history column, and the
     commands in effect when the field is estimated (line 93).  Estimation, images, plots and
     statistics are assumed not to change commands (see C31, C35, C47). *)
  Definition iteration (Itr : nat) (dm_ind : list Z) (s : wst) : res (list Z * wst * column * column) :=
    do ind <- select_dms Itr dm_ind;
    let col := snapshot s in
    do s1 <- (if negb adefc && flagRelin Itr then enforce_used ind s else Ok s);
    do s2 <- add_used ind (delta Itr) s1;
    do s3 <- enforce_used ind s2;
    Ok (ind, s3, col, snapshot s1).

  Fixpoint iterations (Itrs : list nat) (dm_ind : list Z) (s : wst) : res (wst * list column * list column) :=
    match Itrs with
    | [] => Ok (s, [], [])
    | i :: t =>
      do (ind, s', c, e) <- iteration i dm_ind s;
      do (sf, cs, es) <- iterations t ind s';
      Ok (sf, c :: cs, e :: es)
    end.
  (* falco/wfsc.py:39-185: with no iteration, line 178 reads the unbound Itr *)
  Definition loop (Nitr : nat) (dm_ind : list Z) (s : wst) : res (wst * list column * list column) :=
    do (sf, cs, es) <- iterations (seq 0 Nitr) dm_ind s;
    match Nitr with O => Raise NameError | _ => Ok (sf, cs ++ [snapshot sf], es) end.
End Loop.

(* ---- the stored Jacobian over the loop ---- *)
(* G[pixel, column, mode] for one DM *)
Definition grid3 : Type := nat -> nat -> nat -> R * R.
Definition cscale (w : R) (z : R * R) : R * R := (w * fst z, w * snd z)%R.
(* jacStruct.G1[:, :, mp.jac.star_inds == iStar] *= WspatialVec[:, iStar]: falco/ctrl.py:1057-1062 *)
Definition weight_star (W : nat -> nat -> R) (star_of : nat -> nat) (iStar : nat) (G : grid3) : grid3 :=
  fun p c m => if Nat.eqb (star_of m) iStar then cscale (W p iStar) (G p c m) else G p c m.
(* falco/ctrl.py:1055-1069, one DM: the loop over the stars.  Shapes agree when the Jacobian has
   Nele columns (C18). *)
Fixpoint weight_all (W : nat -> nat -> R) (star_of : nat -> nat) (stars : list nat) (G : grid3) : grid3 :=
  match stars with [] => G | s :: t => weight_all W star_of t (weight_star W star_of s G) end.

(* Arrays live in a heap; jacStruct holds a reference.  falco/wfsc.py:125 passes copy(jacStruct), a
   shallow copy: a new object holding the same reference.  Item assignment writes to the heap. *)
Definition heap : Type := nat -> grid3.
Definition hset (h : heap) (r : nat) (g : grid3) : heap := fun q => if Nat.eqb q r then g else h q.
Record jobj : Type := mkjobj { gref : nat }.
Definition copy_shallow (o : jobj) : jobj := mkjobj (gref o).

Section Weights.
  Variable W : nat -> nat -> R.
  Variable star_of : nat -> nat.
  Variable nstars : nat.
  (* falco/ctrl.py:1039-1069 for one DM *)
  Definition apply_weights (used : bool) (h : heap) (o : jobj) : heap :=
    if used then hset h (gref o) (weight_all W star_of (seq 0 nstars) (h (gref o))) else h.
  (* One loop iteration, this DM's part: relinearise ([relin] = Some: the new Jacobian, after culling, in
     newly allocated storage [fresh]), then the controller weights and uses it.  Returns the heap,
     jacStruct, and the Jacobian the controller uses (falco/wfsc.py:79-84, 125; falco/ctrl.py:46-70). *)
  Definition jac_iter (fresh : nat) (relin : option grid3) (used : bool) (h : heap) (o : jobj) : heap * jobj * grid3 :=
    let '(h1, o1) := match relin with Some g => (hset h fresh g, mkjobj fresh) | None => (h, o) end in
    let oc := copy_shallow o1 in
    let h2 := apply_weights used h1 oc in
    (h2, o1, h2 (gref oc)).
  Fixpoint jac_iters (fresh : nat) (steps : list (option grid3 * bool)) (h : heap) (o : jobj) : heap * jobj * list grid3 :=
    match steps with
    | [] => (h, o, [])
    | (g, u) :: t =>
      let '(h1, o1, used_g) := jac_iter fresh g u h o in
      let '(h2, o2, gs) := jac_iters (S fresh) t h1 o1 in
      (h2, o2, used_g :: gs)
    end.
End Weights.

(* ---- intensity history ---- *)
Section Intensity.
  Variable Nmode : nat.
  Variable npix : nat.                     (* pixels of the correction region *)
  Variable w : nat -> R.                   (* mp.sbp_weights[mp.jac.sbp_inds[iMode]] *)
  Variable corr score : list bool.         (* the 2-D masks, flattened *)
  Variable nhist : nat.                    (* columns of out.normInt*: Nsbp * number of stars *)

  (* np.mean of a list (an empty list gives nan in numpy and 0/0 here) *)
  Definition mean (l : list R) : R := (rsuml l / INR (length l))%R.
  (* a2D = zeros; a2D[corr] = vec *)
  Fixpoint place (mask : list bool) (vec : list R) : list R :=
    match mask, vec with
    | true :: m, x :: v => x :: place m v
    | true :: m, [] => 0%R :: place m []
    | false :: m, v => 0%R :: place m v
    | [], _ => []
    end.
  Definition vecl (f : nat -> R) : list R := map f (seq 0 npix).

  Record ihist : Type := mkih {
    hIestScore : R; hIestCorr : R; hIincoScore : R; hIincoCorr : R; hIrawScore : R; hIrawCorr : R;
    hModCorr : list R; hModScore : list R; hUnmodCorr : list R; hUnmodScore : list R }.

  (* falco/wfsc.py:337-390 (the per-subband measured images, 372-376, are not modelled).  Eest, Iinco:
     mode -> pixel; Im: the image, flattened.  Also returned: ev.IincoEst after the call -- Iinco is
     the same array object, scaled in place by line 349. *)
  Definition store_intensities (Eest : nat -> nat -> R * R) (Iinco0 : nat -> nat -> R) (Im : list R)
      : res (ihist * (nat -> nat -> R)) :=
    let Iest := fun m p => (w m * sqmod (Eest m p))%R in
    let Iinco := fun m p => (w m * Iinco0 m p)%R in
    let all (f : nat -> nat -> R) := vecl (fun p => rsum Nmode (fun m => f m p)) in
    let Iest2D := place corr (all Iest) in
    let Iinco2D := place corr (all Iinco) in
    let inCorr := select corr score in       (* mp.Fend.scoreInCorr, falco/setup.py:1139 *)
    let modv m := vecl (fun p => sqmod (Eest m p)) in
    let unmodv m := vecl (fun p => Iinco m p) in   (* ev.IincoEst: already scaled *)
    let modes := seq 0 Nmode in
    if Nat.ltb nhist Nmode then Raise IndexError else
    Ok (mkih (mean (select score Iest2D)) (mean (select corr Iest2D))
             (mean (select score Iinco2D)) (mean (select corr Iinco2D))
             (mean (select score Im)) (mean (select corr Im))
             (map (fun m => mean (modv m)) modes) (map (fun m => mean (select inCorr (modv m))) modes)
             (map (fun m => mean (unmodv m)) modes) (map (fun m => mean (select inCorr (unmodv m))) modes),
        Iinco).
End Intensity.
