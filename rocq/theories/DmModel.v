(* Model of falco/dm.py: voltage constraints, orientation, quantisation, neighbour rule,
   superposition of influence functions. *)
From Verif Require Import Base StrBase CtrlModel.
Open Scope Z_scope.

(* linear (row-major) positions at which a predicate holds: np.nonzero(l.flatten() .. )[0] *)
Fixpoint nonzero_from {X} (f : X -> bool) (k : Z) (l : list X) : list Z :=
  match l with
  | [] => []
  | x :: t => if f x then k :: nonzero_from f (k + 1) t else nonzero_from f (k + 1) t
  end.
Definition nonzero {X} (f : X -> bool) (l : list X) : list Z := nonzero_from f 0 l.

(* for ii in idx: a.ravel()[ii] = x *)
Fixpoint set_each {X} (a : list X) (idx : list Z) (x : X) : res (list X) :=
  match idx with
  | [] => Ok a
  | k :: t => do p <- np_index (Z.of_nat (length a)) k; set_each (upd_nth p x a) t x
  end.

Section Constraints.
  Variable A : Type.
  Variable zero : A.
  Variable add : A -> A -> A.
  Variable ltb : A -> A -> bool.

  (* the attributes of a DM object that enforce_constraints uses; 2-D maps are kept flattened row
     major, as .flatten() / .ravel() produce *)
  Record dmc : Type := mkdmc {
    cNact : Z; cV : list A; dead : list Z; dead_map : option (list bool);
    biasMap : list A; cVmin : A; cVmax : A;
    pinned : list Z; Vpinned : list A; tied : list (Z * Z) }.

  (* falco/dm.py:906-909; the map is built on the first call only *)
  Definition get_dead_map (d : dmc) : res (list bool) :=
    match dead_map d with
    | Some m => Ok m
    | None => set_each (repeat false (Z.to_nat (cNact d * cNact d))) (dead d) true
    end.

  (* V * ~dead_map and V + biasMap: element by element, same shape required *)
  Definition zip_with {X Y W} (f : X -> Y -> W) (a : list X) (b : list Y) : res (list W) :=
    if Nat.eqb (length a) (length b) then Ok (map (fun '(x, y) => f x y) (combine a b))
    else Raise ValueError.
  Definition mask_dead (v : A) (b : bool) : A := if b then zero else v.

  (* falco/dm.py:884-949 *)
  Definition enforce_constraints (d : dmc) : res dmc :=
    do dmap <- get_dead_map d;                                               (* 905-909 *)
    do V0 <- zip_with mask_dead (cV d) dmap;                                  (* 912 *)
    do Vtotal <- zip_with add V0 (biasMap d);                                (* 915 *)
    let lo := nonzero (fun x => ltb x (cVmin d)) Vtotal in                   (* 916-919 *)
    let hi := nonzero (fun x => ltb (cVmax d) x) Vtotal in                   (* 922-925 *)
    let pinned' := pinned d ++ lo ++ hi in
    let Vpinned' := Vpinned d ++ repeat (cVmin d) (length lo) ++ repeat (cVmax d) (length hi) in
    do V1 <- (match pinned' with [] => Ok V0 | _ => scatter V0 pinned' Vpinned' end); (* 928-931 *)
    do V2 <- (match tied d with                                              (* 943-947 *)
              | [] => Ok V1
              | _ => do src <- gather V1 (map fst (tied d)); scatter V1 (map snd (tied d)) src
              end);
    Ok (mkdmc (cNact d) V2 (dead d) (Some dmap) (biasMap d) (cVmin d) (cVmax d)
              pinned' Vpinned' (tied d)).

  (* dm.V += delta (falco/ctrl.py:106-113) followed by enforce_constraints (falco/wfsc.py:135-138) *)
  Definition set_cV (d : dmc) (v : list A) : dmc :=
    mkdmc (cNact d) v (dead d) (dead_map d) (biasMap d) (cVmin d) (cVmax d) (pinned d) (Vpinned d) (tied d).
  Definition step (d : dmc) (delta : list A) : res dmc :=
    do v <- zip_with add (cV d) delta; enforce_constraints (set_cV d v).
  Fixpoint history (d : dmc) (deltas : list (list A)) : res dmc :=
    match deltas with [] => Ok d | x :: t => do d' <- step d x; history d' t end.
  (* enforce_constraints called n times *)
  Fixpoint enforce_n (n : nat) (d : dmc) : res dmc :=
    match n with O => Ok d | S n' => do d' <- enforce_constraints d; enforce_n n' d' end.
End Constraints.
Arguments mkdmc {A} _ _ _ _ _ _ _ _ _ _.
Arguments cNact {A} _.
Arguments cV {A} _.
Arguments dead {A} _.
Arguments dead_map {A} _.
Arguments biasMap {A} _.
Arguments cVmin {A} _.
Arguments cVmax {A} _.
Arguments pinned {A} _.
Arguments Vpinned {A} _.
Arguments tied {A} _.
Arguments set_cV {A} _ _.

(* ---- orientation ---- *)
(* np.rot90(a, 1): out[i][j] = a[j][N-1-i], out shape (nc, nr) *)
Definition rot90_1 {X} (a : arr X) : arr X :=
  mkarr (nc a) (nr a) (fun i j => px a j (nc a - 1 - i)).
(* np.rot90(a, 2) *)
Definition rot90_2 {X} (a : arr X) : arr X :=
  mkarr (nr a) (nc a) (fun i j => px a (nr a - 1 - i) (nc a - 1 - j)).
(* np.rot90(a, 3) *)
Definition rot90_3 {X} (a : arr X) : arr X :=
  mkarr (nc a) (nr a) (fun i j => px a (nr a - 1 - j) i).
(* np.rot90(a, k): k is reduced modulo 4 *)
Definition rot90 {X} (a : arr X) (k : Z) : arr X :=
  let k := k mod 4 in
  if k =? 0 then a else if k =? 1 then rot90_1 a else if k =? 2 then rot90_2 a else rot90_3 a.
(* np.fliplr *)
Definition fliplr {X} (a : arr X) : arr X :=
  mkarr (nr a) (nc a) (fun i j => px a i (nc a - 1 - j)).

Open Scope string_scope.
(* falco/dm.py:85-103 (None: the DM has no orientation attribute) *)
Definition orient_surf {X} (orientation : option string) (heightMap : arr X) : res (arr X) :=
  match orientation with
  | None => Ok heightMap
  | Some o =>
    if lower o =? "rot0" then Ok heightMap
    else if lower o =? "rot90" then Ok (rot90 heightMap 1)
    else if lower o =? "rot180" then Ok (rot90 heightMap 2)
    else if lower o =? "rot270" then Ok (rot90 heightMap 3)
    else if lower o =? "flipxrot0" then Ok (fliplr heightMap)
    else if lower o =? "flipxrot90" then Ok (rot90 (fliplr heightMap) 1)
    else if lower o =? "flipxrot180" then Ok (rot90 (fliplr heightMap) 2)
    else if lower o =? "flipxrot270" then Ok (rot90 (fliplr heightMap) 3)
    else Raise ValueError
  end.

(* falco/dm.py:611-631: the matrix actIndMat; entry (r,c) is the linear index of the grid position
   whose coordinates are given to actuator r*Nact+c *)
Definition orient_poke (orientation : option string) (Nact : Z) : res (arr Z) :=
  let actIndMat := mkarr Nact Nact (fun i j => i * Nact + j)%Z in
  match orientation with
  | None => Ok actIndMat
  | Some o =>
    if lower o =? "rot0" then Ok actIndMat
    else if lower o =? "rot90" then Ok (rot90 actIndMat (-1))
    else if lower o =? "rot180" then Ok (rot90 actIndMat (-2))
    else if lower o =? "rot270" then Ok (rot90 actIndMat (-3))
    else if lower o =? "flipxrot0" then Ok (fliplr actIndMat)
    else if lower o =? "flipxrot90" then Ok (rot90 (fliplr actIndMat) 1)
    else if lower o =? "flipxrot180" then Ok (rot90 (fliplr actIndMat) 2)
    else if lower o =? "flipxrot270" then Ok (rot90 (fliplr actIndMat) 3)
    else Raise ValueError
  end.
Close Scope string_scope.

(* ---- neighbour rule ---- *)
(* falco/dm.py:826-833 *)
Definition kx1 := [(0, 1); (1, 1); (1, 0)].
Definition kx2 := [(0, 1); (1, 1); (1, 0); (1, -1)].
Definition kx3 := [(1, 0); (1, -1)].
Definition kx4 := [(-1, 1); (0, 1); (1, 1); (1, 0)].
Definition kx5 := [(-1, 1); (0, 1); (1, 1); (1, 0); (1, -1)].
Definition kx6 := [(1, 0); (1, -1)].
Definition kx7 := [(-1, 1); (0, 1)].
Definition kx8 := [(-1, -1)].
(* falco/dm.py:838-857 *)
Definition nbr_table (Nact jj ii : Z) : list (Z * Z) :=
  if jj =? 0 then (if ii =? 0 then kx1 else if ii <? Nact - 1 then kx2 else kx3)
  else if jj <? Nact - 1 then (if ii =? 0 then kx4 else if ii <? Nact - 1 then kx5 else kx6)
  else (if ii <? Nact - 1 then kx7 else kx8).

Section Neighbor.
  Variable A : Type.
  Variable exceeds : A -> A -> bool.   (* np.abs(x - y) > Vlim *)
  (* Vout[r, c] with numpy's negative-index rule *)
  Definition at2 (a : arr A) (r c : Z) : res A :=
    do r' <- np_index (nr a) r; do c' <- np_index (nc a) c;
    Ok (px a (Z.of_nat r') (Z.of_nat c')).
  (* falco/dm.py:863-877: one neighbour.  With the numpy pinned by requirements.txt (2.1.3)
     line 871, np.array([indPair, <1x2>]) with indPair of shape (0,2), is an inhomogeneous array
     and raises ValueError before anything is modified; numpy < 1.24 is not modelled. *)
  Definition check_pair (a : arr A) (jj ii : Z) (k : Z * Z) : res unit :=
    do x <- at2 a jj ii;
    do y <- at2 a (jj + fst k) (ii + snd k);
    if exceeds x y then Raise ValueError else Ok tt.
  Fixpoint for_each {X} (f : X -> res unit) (l : list X) : res unit :=
    match l with [] => Ok tt | x :: t => do _ <- f x; for_each f t end.
  (* falco/dm.py:798-881: the returned command map (the second result, indPair, is then always the
     empty 0x2 array) *)
  Definition apply_neighbor_rule (Vin : arr A) (Nact : Z) : res (arr A) :=
    do _ <- for_each (fun jj => for_each (fun ii =>
              for_each (check_pair Vin jj ii) (nbr_table Nact jj ii)) (zrange Nact)) (zrange Nact);
    Ok Vin.
End Neighbor.
