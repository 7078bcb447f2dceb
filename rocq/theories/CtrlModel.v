(* Model of falco/ctrl.py: packing / unpacking of DM commands and one EFC evaluation. *)
From Verif Require Import Base.
Open Scope Z_scope.

(* numpy integer index into an axis of length n: negative values count from the end *)
Definition np_index (n k : Z) : res nat :=
  if (0 <=? k) && (k <? n) then Ok (Z.to_nat k)
  else if (- n <=? k) && (k <? 0) then Ok (Z.to_nat (k + n))
  else Raise IndexError.

Fixpoint upd_nth {X} (k : nat) (x : X) (l : list X) : list X :=
  match l, k with
  | [], _ => []
  | _ :: t, O => x :: t
  | y :: t, S k' => y :: upd_nth k' x t
  end.

(* v[idx], idx a list of integers (fancy indexing) *)
Fixpoint gather {X} (v : list X) (idx : list Z) : res (list X) :=
  match idx with
  | [] => Ok []
  | k :: t =>
    do p <- np_index (Z.of_nat (length v)) k;
    do r <- gather v t;
    match nth_error v p with Some x => Ok (x :: r) | None => Raise IndexError end
  end.

(* v[idx] = vals with len(vals) = len(idx): left to right, a repeated index keeps the last value *)
Fixpoint scatter_pairs {X} (v : list X) (idx : list Z) (vals : list X) : res (list X) :=
  match idx, vals with
  | k :: ti, x :: tv =>
    do p <- np_index (Z.of_nat (length v)) k;
    scatter_pairs (upd_nth p x v) ti tv
  | _, _ => Ok v
  end.
(* with numpy's shape rule: same length, or a single value broadcast *)
Definition scatter {X} (v : list X) (idx : list Z) (vals : list X) : res (list X) :=
  if Nat.eqb (length vals) (length idx) then scatter_pairs v idx vals
  else match vals with
       | [x] => scatter_pairs v idx (repeat x (length idx))
       | _ => Raise ValueError
       end.

(* v[mask] with a boolean mask *)
Fixpoint select {X} (mask : list bool) (v : list X) : list X :=
  match mask, v with
  | b :: m, x :: t => if b then x :: select m t else select m t
  | _, _ => []
  end.

Section Ctrl.
  Variable A : Type.
  Variable zero : A.
  Variables add mul : A -> A -> A.

  (* The attributes of a DM the controller uses.  The 2-D command array is kept flattened
     (row major), as .reshape(NactTotal) produces; for dm1, dm2 the code also needs
     Nact*Nact = NactTotal, which is assumed. *)
  Record dm : Type := mkdm {
    V : list A; NactTotal : Z; act_ele : list Z; Nele : Z; weight : A }.
  Definition set_V (d : dm) (v : list A) : dm :=
    mkdm v (NactTotal d) (act_ele d) (Nele d) (weight d).

  Record mp_t : Type := mkmp { dm_ind : list Z; dm1 : dm; dm2 : dm; dm8 : dm; dm9 : dm }.

  (* any(mp.dm_ind == k) *)
  Definition used (mp : mp_t) (k : Z) : bool := existsb (Z.eqb k) (dm_ind mp).

  (* V.reshape(NactTotal) *)
  Definition reshape1 (v : list A) (n : Z) : res (list A) :=
    if Z.of_nat (length v) =? n then Ok v else Raise ValueError.

  (* c*np.ones(n, dtype=int) *)
  Definition label (c n : Z) : res (list Z) :=
    if n <? 0 then Raise ValueError else Ok (repeat c (Z.to_nat n)).

  Record cvar_t : Type := mkcvar { uVec : list A; uLegend : list Z }.

  (* falco/ctrl.py:1081-1123.  The DMxVnom fields alias mp.dmx.V; since nothing mutates those
     arrays in place before wrapup reads them, wrapup below reads mp's V directly. *)
  Definition init (mp : mp_t) : res cvar_t :=
    let take (b : bool) (v : list A) (n : Z) (act : list Z) : res (list A) :=
      if b then (do w <- reshape1 v n; gather w act) else Ok [] in
    do u1 <- take (used mp 1) (V (dm1 mp)) (NactTotal (dm1 mp)) (act_ele (dm1 mp));
    do u2 <- take (used mp 2) (V (dm2 mp)) (NactTotal (dm2 mp)) (act_ele (dm2 mp));
    (* line 1109: mp.dm9.V, not mp.dm8.V *)
    do u8 <- take (used mp 8) (V (dm9 mp)) (NactTotal (dm8 mp)) (act_ele (dm8 mp));
    do u9 <- take (used mp 9) (V (dm9 mp)) (NactTotal (dm9 mp)) (act_ele (dm9 mp));
    do l1 <- (if used mp 1 then label 1 (Nele (dm1 mp)) else Ok []);
    do l2 <- (if used mp 2 then label 2 (Nele (dm2 mp)) else Ok []);
    do l8 <- (if used mp 8 then label 8 (Nele (dm8 mp)) else Ok []);
    do l9 <- (if used mp 9 then label 9 (Nele (dm9 mp)) else Ok []);
    Ok (mkcvar (u1 ++ u2 ++ u8 ++ u9) (l1 ++ l2 ++ l8 ++ l9)).

  (* delta command of one DM in use: falco/ctrl.py:1148-1163, one block *)
  Definition unpack (d : dm) (k : Z) (legend : list Z) (duVec : list A) : res (list A) :=
    if NactTotal d <? 0 then Raise ValueError else
    if negb (Nat.eqb (length duVec) (length legend)) then Raise IndexError else
    scatter (repeat zero (Z.to_nat (NactTotal d))) (act_ele d)
            (map (mul (weight d)) (select (map (fun l => l =? k) legend) duVec)).

  (* Vnom + dV: same shape, or ValueError (broadcasting of length-1 arrays is not modelled) *)
  Definition vadd (a b : list A) : res (list A) :=
    if Nat.eqb (length a) (length b) then Ok (map (fun '(x, y) => add x y) (combine a b))
    else Raise ValueError.

  (* None for a DM that is not in use *)
  Record dDM_t : Type := mkdDM { dD1 : option (list A); dD2 : option (list A);
                                 dD8 : option (list A); dD9 : option (list A) }.

  (* one "if any(mp.dm_ind == k):" block of falco/ctrl.py:1148-1163 *)
  Definition un (mp : mp_t) (cv : cvar_t) (duVec : list A) (k : Z) (d : dm) : res (option (list A)) :=
    if used mp k then (do x <- unpack d k (uLegend cv) duVec; Ok (Some x)) else Ok None.
  (* one block of falco/ctrl.py:1175-1182 *)
  Definition comb (d : dm) (o : option (list A)) : res dm :=
    match o with Some x => do v <- vadd (V d) x; Ok (set_V d v) | None => Ok d end.

  (* falco/ctrl.py:1126-1184 *)
  Definition wrapup (mp : mp_t) (cv : cvar_t) (duVec : list A) : res (mp_t * dDM_t) :=
    let un := un mp cv duVec in
    do x1 <- un 1 (dm1 mp);
    do x2 <- un 2 (dm2 mp);
    do x8 <- un 8 (dm8 mp);
    do x9 <- un 9 (dm9 mp);
    do d1 <- comb (dm1 mp) x1;
    do d2 <- comb (dm2 mp) x2;
    do d8 <- comb (dm8 mp) x8;
    do d9 <- comb (dm9 mp) x9;
    Ok (mkmp (dm_ind mp) d1 d2 d8 d9, mkdDM x1 x2 x8 x9).

  (* falco/ctrl.py:803-873 (and, with another solver, 876-1036).  [solve cv v] stands for
     lines 841-846 (the vector duVec); [image mp d] for lines 852-858: it may read the commands of
     mp but leaves them unchanged (see C35 for the expected-image case). *)
  Definition efc_eval {I} (solve : cvar_t -> list A) (image : mp_t -> dDM_t -> I)
      (mp : mp_t) : res (mp_t * (I * dDM_t)) :=
    let V1 := V (dm1 mp) in let V2 := V (dm2 mp) in
    let V8 := V (dm8 mp) in let V9 := V (dm9 mp) in
    do cv <- init mp;
    let duVec := solve cv in
    do (mp1, d) <- wrapup mp cv duVec;
    let im := image mp1 d in
    let back (k : Z) (x : dm) (v : list A) := if used mp1 k then set_V x v else x in
    Ok (mkmp (dm_ind mp1) (back 1 (dm1 mp1) V1) (back 2 (dm2 mp1) V2)
             (back 8 (dm8 mp1) V8) (back 9 (dm9 mp1) V9), (im, d)).

  (* falco/ctrl.py:106-113: mp.dmk.V += dDM.dDMkV for the DMs in use (the deltas have the same
     shape as the commands) *)
  Definition apply_delta (mp : mp_t) (d : dDM_t) : res mp_t :=
    let comb (k : Z) (x : dm) (o : option (list A)) : res dm :=
      if used mp k then
        match o with Some y => do v <- vadd (V x) y; Ok (set_V x v) | None => Raise AttributeError end
      else Ok x in
    do d1 <- comb 1 (dm1 mp) (dD1 d);
    do d2 <- comb 2 (dm2 mp) (dD2 d);
    do d8 <- comb 8 (dm8 mp) (dD8 d);
    do d9 <- comb 9 (dm9 mp) (dD9 d);
    Ok (mkmp (dm_ind mp) d1 d2 d8 d9).
End Ctrl.
Arguments mkdm {A} _ _ _ _ _.
Arguments V {A} _.
Arguments NactTotal {A} _.
Arguments act_ele {A} _.
Arguments Nele {A} _.
Arguments weight {A} _.
Arguments set_V {A} _ _.
Arguments mkmp {A} _ _ _ _ _.
Arguments dm_ind {A} _.
Arguments dm1 {A} _.
Arguments dm2 {A} _.
Arguments dm8 {A} _.
Arguments dm9 {A} _.
Arguments used {A} _ _.
Arguments mkcvar {A} _ _.
Arguments uVec {A} _.
Arguments uLegend {A} _.
Arguments mkdDM {A} _ _ _ _.
Arguments dD1 {A} _.
Arguments dD2 {A} _.
Arguments dD8 {A} _.
Arguments dD9 {A} _.
Arguments init {A} _.
