(* Model of the control Jacobian's assembly, tied-actuator handling and actuator culling:
   falco/model/models.py:1043-1241 and falco/ctrl.py:130-288.  The optical response of one actuator
   in one mode (jacobians.lyot / jacobians.vortex) is a parameter. *)
From Verif Require Import Base RBase CtrlModel DmModel EfcSpec.
Open Scope Z_scope.

(* np.sort of an integer list *)
Fixpoint insert (x : Z) (l : list Z) : list Z :=
  match l with [] => [x] | y :: t => if x <=? y then x :: l else y :: insert x t end.
Fixpoint isort (l : list Z) : list Z :=
  match l with [] => [] | x :: t => insert x (isort t) end.

Section Jac.
  Variable P : Type.                 (* values of one mode on the dark-hole pixels *)
  Variable pzero : P.
  Variable padd : P -> P -> P.

  (* G[:, column, mode] is kept as a list of columns, each a list of modes *)
  Definition jac : Type := list (list P).

  (* the attributes of a DM used here; [jlist]: act_ele is a Python list rather than an ndarray *)
  Record jdm : Type := mkjdm {
    jNact : Z; jact : list Z; jlist : bool; jNele : Z; jtied : list (Z * Z) }.

  (* np.zeros((Npix, Nele, Nmode)) *)
  Definition zeros (Nele : Z) (Nmode : nat) : res jac :=
    if Nele <? 0 then Raise ValueError else Ok (repeat (repeat pzero Nmode) (Z.to_nat Nele)).

  (* G[:, c, m] = v, m a loop index below Nmode *)
  Definition set_cm (G : jac) (c : Z) (m : nat) (v : P) : res jac :=
    do p <- np_index (Z.of_nat (length G)) c;
    match nth_error G p with
    | Some col => Ok (upd_nth p (upd_nth m v col) G)
    | None => Raise IndexError
    end.

  (* for index, iact in enumerate(act_ele): G[:, index, imode] = resp imode iact *)
  Fixpoint fill_serial (resp : Z -> P) (m : nat) (index : Z) (act : list Z) (G : jac) : res jac :=
    match act with
    | [] => Ok G
    | iact :: t => do G' <- set_cm G index m (resp iact); fill_serial resp m (index + 1) t G'
    end.

  (* resp idm imode iact : _jac_middle_layer(mp, imode, idm, iact) *)
  Variable resp : Z -> nat -> Z -> P.

  Definition usedb (dm_ind : list Z) (k : Z) : bool := existsb (Z.eqb k) dm_ind.

  (* falco/model/models.py:1149-1160 (DMs 8 and 9, lines 1161-1168, write to attributes that are
     never created and are not modelled) *)
  Fixpoint serial_modes (dm_ind : list Z) (act1 act2 : list Z) (ms : list nat) (G : jac * jac)
      : res (jac * jac) :=
    match ms with
    | [] => Ok G
    | m :: t =>
      do G1 <- (if usedb dm_ind 1 then fill_serial (resp 1 m) m 0 act1 (fst G) else Ok (fst G));
      do G2 <- (if usedb dm_ind 2 then fill_serial (resp 2 m) m 0 act2 (snd G) else Ok (snd G));
      serial_modes dm_ind act1 act2 t (G1, G2)
    end.
  Definition jac_serial (dm_ind : list Z) (d1 d2 : jdm) (Nmode : nat) : res (jac * jac) :=
    do G1 <- zeros (jNele d1) Nmode;
    do G2 <- zeros (jNele d2) Nmode;
    serial_modes dm_ind (jact d1) (jact d2) (seq 0 Nmode) (G1, G2).

  (* ThreadPoolExecutor.map: tasks complete in the order [order]; each result goes to its own
     slot, and the results are read back in task order *)
  Fixpoint complete {T X} (f : T -> X) (tasks : list T) (order : list nat) (slots : list (option X))
      : list (option X) :=
    match order with
    | [] => slots
    | i :: t => complete f tasks t
                  (match nth_error tasks i with Some x => upd_nth i (Some (f x)) slots | None => slots end)
    end.
  Definition pool_map {T X} (f : T -> X) (tasks : list T) (order : list nat) : list (option X) :=
    complete f tasks order (repeat None (length tasks)).

  (* falco/model/models.py:1124-1126 *)
  Definition tasks_of (idm : Z) (act : list Z) (Nmode : nat) : list (nat * Z * Z) :=
    flat_map (fun iact => map (fun m => (m, idm, iact)) (seq 0 Nmode)) act.
  (* falco/model/models.py:1136-1144 *)
  Fixpoint reorder (tasks : list (nat * Z * Z)) (results : list (option P)) (G : jac * jac)
      : res (jac * jac) :=
    match tasks, results with
    | (m, idm, iact) :: t, Some v :: r =>
      do G' <- (if idm =? 1 then do g <- set_cm (fst G) iact m v; Ok (g, snd G)
                else do g <- set_cm (snd G) iact m v; Ok (fst G, g));
      reorder t r G'
    | _, _ => Ok G
    end.
  (* falco/model/models.py:1086-1091, 1095, 1124-1148: note that mp.dm_ind is not consulted *)
  Definition jac_parallel (order : list nat) (d1 d2 : jdm) (Nmode : nat) : res (jac * jac) :=
    do G1 <- zeros (jNele d1) Nmode;
    do G2 <- zeros (jNele d2) Nmode;
    let tasks := tasks_of 1 (jact d1) Nmode ++ tasks_of 2 (jact d2) Nmode in
    reorder tasks (pool_map (fun '(m, idm, iact) => resp idm m iact) tasks order) (G1, G2).

  (* ---- tied actuators ---- *)
  (* np.nonzero(act_ele == i)[0]; for a Python list the comparison is the scalar False, and
     numpy 2.1 (requirements.txt) raises ValueError for nonzero of a 0-d array *)
  Definition positions (d : jdm) (i : Z) : res (list Z) :=
    if jlist d then Raise ValueError else Ok (nonzero (Z.eqb i) (jact d)).
  Definition col_add (a b : list P) : list P := map (fun '(x, y) => padd x y) (combine a b).
  (* G[:, i1, :] += G[:, i2, :] *)
  Definition add_cols (G : jac) (i1 i2 : list Z) : res jac :=
    do a <- gather G i1;
    do b <- gather G i2;
    if Nat.eqb (length i1) (length i2)
    then scatter_pairs G i1 (map (fun '(x, y) => col_add x y) (combine a b))
    else match b with
         | [y] => scatter_pairs G i1 (map (fun x => col_add x y) a)
         | _ => Raise ValueError
         end.
  (* G[:, i2, :] = 0*G[:, i2, :] *)
  Definition zero_cols (G : jac) (i2 : list Z) : res jac :=
    do b <- gather G i2;
    scatter_pairs G i2 (map (map (fun _ => pzero)) b).
  (* falco/model/models.py:1214-1241, the loop of one DM.  enforce_constraints (DmModel) runs first
     but changes neither tied nor act_ele. *)
  Fixpoint ties_loop (d : jdm) (ties : list (Z * Z)) (G : jac) : res jac :=
    match ties with
    | [] => Ok G
    | (a, b) :: t =>
      do i1 <- positions d a;
      do i2 <- positions d b;
      do G1 <- add_cols G i1 i2;
      do G2 <- zero_cols G1 i2;
      ties_loop d t G2
    end.
  Definition apply_ties (dm_ind : list Z) (d1 d2 : jdm) (G : jac * jac) : res (jac * jac) :=
    do G1 <- (if usedb dm_ind 1 then ties_loop d1 (jtied d1) (fst G) else Ok (fst G));
    do G2 <- (if usedb dm_ind 2 then ties_loop d2 (jtied d2) (snd G) else Ok (snd G));
    Ok (G1, G2).

  (* falco/model/models.py:1043-1211; [order]: the order in which the workers finish *)
  Definition jacobian (flagParallel : bool) (order : list nat) (dm_ind : list Z) (d1 d2 : jdm) (Nmode : nat)
      : res (jac * jac) :=
    do G <- (if flagParallel then jac_parallel order d1 d2 Nmode else jac_serial dm_ind d1 d2 Nmode);
    apply_ties dm_ind d1 d2 G.
End Jac.
Arguments mkjdm _ _ _ _ _ : assert.

(* falco/ctrl.py:52-61: Gstack of one mode.  np.squeeze drops a length-1 axis, after which hstack
   with the (Npix, 1) start column raises ValueError; blocks with 0 pixels are not modelled. *)
Definition hstack_block (Npix : nat) (stack block : list (nat -> R * R)) : res (list (nat -> R * R)) :=
  if Nat.eqb Npix 1 || Nat.eqb (length block) 1 then Raise ValueError else Ok (stack ++ block).

Definition gstack (Npix : nat) (dm_ind : list Z) (B : Z -> list (nat -> R * R)) : res (list (nat -> R * R)) :=
  let blk k stack := if usedb dm_ind k then hstack_block Npix stack (B k) else Ok stack in
  do s1 <- blk 1 [];
  do s2 <- blk 2 s1;
  do s8 <- blk 8 s2;
  blk 9 s8.

(* ---- culling ---- *)
Section Cull.
  Variable Npix : nat.
  Definition pixv : Type := nat -> R * R.
  Definition jacc : Type := list (list pixv).

  (* np.sum(np.mean(np.abs(G)**2, axis=2), axis=0), one column (at least one mode) *)
  Definition strength (col : list pixv) : R :=
    rsum Npix (fun p => (rsuml (map (fun v => sqmod (v p)) col) / INR (length col))%R).
  (* np.max *)
  Fixpoint lmax (l : list R) : res R :=
    match l with
    | [] => Raise ValueError
    | x :: t => match lmax t with Ok m => Ok (Rmax x m) | Raise _ => Ok x end
    end.
  (* x/M >= thr; for M = 0 the quotient is nan and the comparison False *)
  Definition strong (thr M x : R) : bool :=
    if Rlt_dec 0 M then (if Rle_dec thr (x / M) then true else false) else false.

  (* mp.dmk and jacStruct.Gk, for k = 1, 2, 8, 9 *)
  Definition cst : Type := Z -> jdm * jacc.
  Definition upd (s : cst) (k : Z) (x : jdm * jacc) : cst := fun j => if j =? k then x else s j.
  (* the repeated "if any(mp.dm_ind == k): ..." blocks *)
  Fixpoint stage (dm_ind : list Z) (f : Z -> jdm * jacc -> res (jdm * jacc)) (keys : list Z) (s : cst) : res cst :=
    match keys with
    | [] => Ok s
    | k :: t => do x <- (if usedb dm_ind k then f k (s k) else Ok (s k)); stage dm_ind f t (upd s k x)
    end.

  (* falco/ctrl.py:170-178 for a DM in use, 181-196 *)
  Definition include_all (d : jdm) : jdm :=
    mkjdm (jNact d) (zrange (jNact d)) true (Z.of_nat (length (zrange (jNact d)))) (jtied d).
  Definition no_ele (d : jdm) : jdm := mkjdm (jNact d) (jact d) (jlist d) 0 (jtied d).
  Definition reinclude (dm_ind : list Z) (s : cst) : cst :=
    fun k => let '(d, G) := s k in
      if existsb (Z.eqb k) [1; 2; 8; 9] then ((if usedb dm_ind k then include_all d else no_ele d), G)
      else (d, G).

  (* falco/ctrl.py:203-222, one DM *)
  Definition keep_strong (logGmin : R) (k : Z) (x : jdm * jacc) : res (jdm * jacc) :=
    let '(d, G) := x in
    let s := map strength G in
    do M <- lmax s;
    Ok (mkjdm (jNact d) (nonzero (strong (Rpower 10 logGmin) M) s) false (jNele d) (jtied d), G).
  (* falco/ctrl.py:227-243: only DMs 1 and 2 *)
  Definition add_if_missing (act : list Z) (i : Z) : list Z :=
    if existsb (Z.eqb i) act then act else act ++ [i].
  Definition add_tied (k : Z) (x : jdm * jacc) : res (jdm * jacc) :=
    let '(d, G) := x in
    if (k =? 1) || (k =? 2)
    then Ok (mkjdm (jNact d)
               (isort (fold_left (fun act '(a, b) => add_if_missing (add_if_missing act a) b) (jtied d) (jact d)))
               false (jNele d) (jtied d), G)
    else Ok x.
  (* falco/ctrl.py:259-267 *)
  Definition count (k : Z) (x : jdm * jacc) : res (jdm * jacc) :=
    let '(d, G) := x in
    Ok (mkjdm (jNact d) (jact d) (jlist d) (Z.of_nat (length (jact d))) (jtied d), G).
  (* falco/ctrl.py:283-290 *)
  Definition crop (k : Z) (x : jdm * jacc) : res (jdm * jacc) :=
    let '(d, G) := x in do G' <- gather G (jact d); Ok (d, G').

  (* falco/ctrl.py:149-157; sched: mp.dm_ind_sched if present *)
  Definition flag_cull (Itr : Z) (sched : option (list (list Z))) : res bool :=
    if Itr =? 0 then Ok true else
    match sched with
    | None => Ok false
    | Some s =>
      do i <- np_index (Z.of_nat (length s)) (Itr - 1);
      do j <- np_index (Z.of_nat (length s)) Itr;
      Ok (if list_eq_dec Z.eq_dec (isort (nth i s [])) (isort (nth j s [])) then false else true)
    end.
  (* falco/ctrl.py:159-161; hist: mp.flagCullActHist if present *)
  Definition set_hist (hist : option (list bool)) (Nitr Itr : Z) (b : bool) : res (list bool) :=
    let h := match hist with Some h => h | None => repeat false (Z.to_nat Nitr) end in
    do p <- np_index (Z.of_nat (length h)) Itr;
    Ok (upd_nth p b h).

  (* falco/ctrl.py:130-288 *)
  Definition cull (Itr Nitr : Z) (flagRelin : bool) (sched : option (list (list Z)))
      (logGmin : R) (dm_ind : list Z) (hist : option (list bool)) (s : cst) : res (cst * list bool) :=
    do flagCull <- flag_cull Itr sched;
    do h <- set_hist hist Nitr Itr flagCull;
    if flagCull then
      let s1 := reinclude dm_ind s in
      if flagRelin then
        do s2 <- stage dm_ind (keep_strong logGmin) [1; 2; 8; 9] s1;
        do s3 <- stage dm_ind add_tied [1; 2; 8; 9] s2;
        do s4 <- stage dm_ind count [1; 2; 8; 9] s3;
        do s5 <- stage dm_ind crop [1; 2; 8; 9] s4;
        Ok (s5, h)
      else Ok (s1, h)
    else Ok (s, h).
End Cull.
