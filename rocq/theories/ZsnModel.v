(* Model of the Zernike sensitivities, falco/zern.py:19-342.  Real arithmetic; the full model is a parameter that reads the state below *)
From Verif Require Import Base RBase StrBase UtilModel MaskModel HoleModel CBase PropModel OptModel.
Open Scope R_scope.
(* the attributes of mp that the functions change: mp.P1.full.E[:, :, wi, si] as si, wi; mp.full.zindex with mp.full.zval_m (both absent at
   first, or both present); mp.full.zval; mp.full.polaxis *)
Record zst : Type := mkz { z_E : Z -> Z -> field C; z_ind : option (list Z * list R); z_val : option (list R); z_pol : option Z }.
(* the rest of mp: mp.Fend, its numbers of rows and columns, mp.eval.Rsens, mp.eval.indsZnoll, mp.full.flagPROPER, the rows of
   mp.full.indsLambdaMat chosen by mp.full.indsLambdaUnique, mp.full.pol_conds, mp.full.ZrmsVal, mp.full.lambdasMat, the normalised map of one
   Zernike padded to the entrance pupil (falco.zern.gen_norm_zern_maps and falco.util.pad_crop), mp.flagParallel, mp.Nthreads *)
Record scfg : Type := mksc { s_fend : fend; s_ne : nat; s_nx : nat; s_rsens : list (R * R); s_zern : list Z; s_proper : bool; s_lam : list (Z * Z);
  s_pol : option (list Z); s_rms : R; s_wvl : Z -> Z -> R; s_map : Z -> res (field R); s_par : bool; s_threads : nat }.
Definition fullmodel : Type := zst -> Z -> Z -> res (field C).

(* falco/zern.py:40-54: scoring mask of an annulus.  mp.Fend.corr.ang is an array; more than one opening angle does not broadcast with the
   mask (the accidental case of one angle per column of the image is not modelled).  A mask of another size does not fit into the cube *)
Definition zone_in (f : fend) (r : R * R) : res sw_in :=
  match f_FOV f with
  | None => Raise AttributeError
  | Some fov =>
    do sd <- idx (f_sides f) 0;
    do sh <- match f_shape f with None => Ok None | Some l => do x <- idx l 0; Ok (Some x) end;
    match cang f with
    | [a] => Ok (mksw (f_res f) (fst r) (snd r) a sd (Some (f_cen f)) sh None (Some fov) None None None None None None)
    | _ => Raise ValueError
    end
  end.
Definition zone_mask (c : scfg) (r : R * R) : res (nat -> nat -> bool) :=
  do p <- zone_in (s_fend c) r;
  do o <- falco_gen_SW_mask p;
  if ((nr (sw_mask o) =? Z.of_nat (s_ne c)) && (nc (sw_mask o) =? Z.of_nat (s_nx c)))%Z
  then Ok (fun i j => px (sw_mask o) (Z.of_nat i) (Z.of_nat j)) else Raise ValueError.
Fixpoint traverse {A B} (f : A -> res B) (l : list A) : res (list B) :=
  match l with [] => Ok [] | x :: t => do y <- f x; do r <- traverse f t; Ok (y :: r) end.
(* falco/zern.py:72-75 *)
Definition npol (c : scfg) : nat := match s_pol c with Some l => length l | None => 1%nat end.
(* falco/zern.py:79-80, 137-138 *)
Definition inds (c : scfg) : list (nat * nat) := list_prod (seq 0 (length (s_lam c))) (seq 0 (npol c)).
Definition inds_zern (c : scfg) : list (nat * nat * nat) := list_prod (list_prod (seq 0 (length (s_lam c))) (seq 0 (npol c))) (seq 0 (length (s_zern c))).

Definition set_pol (p : Z) (s : zst) : zst := mkz (z_E s) (z_ind s) (z_val s) (Some p).
(* wavelength indices and polarisation of a task *)
Definition task_env (c : scfg) (il ip : nat) : res ((Z * Z) * Z) :=
  do l <- idx (s_lam c) il;
  match s_pol c with None => Raise AttributeError | Some ps => do p <- idx ps ip; Ok (l, p) end.
(* falco/zern.py:228-263 *)
Definition field_nominal (full : fullmodel) (c : scfg) (t : nat * nat) (s : zst) : res (field C) * zst :=
  match task_env c (fst t) (snd t) with
  | Raise e => (Raise e, s)
  | Ok ((si, wi), p) => let s1 := set_pol p s in (full s1 si wi, s1)
  end.
(* falco/zern.py:318-320: zval_m[zind] + ZrmsVal *)
Fixpoint bump (zi : list Z) (zv : list R) (z : Z) (a : R) : res (list R) :=
  match zi, zv with
  | [], _ => Ok zv
  | i :: zi', [] => if (i =? z)%Z then Raise IndexError else bump zi' [] z a
  | i :: zi', v :: zv' => do r <- bump zi' zv' z a; Ok ((if (i =? z)%Z then v + a else v) :: r)
  end.
Definition put_E (E : Z -> Z -> field C) (si wi : Z) (F : field C) : Z -> Z -> field C := fun a b => if ((a =? si) && (b =? wi))%Z then F else E a b.
(* falco/zern.py:333-335 *)
Definition aberrate (rms lam : R) (m : field R) (E : field C) : res (field C) := imul E (fmap (fun v => cis (2 * PI / lam * rms * v)) m).
(* falco/zern.py:315-335: the state in which the full model is called; zindex0, zval_m0 are the saved values *)
Definition disturb (c : scfg) (si wi : Z) (z : Z) (s : zst) (zi : list Z) (zv : list R) : res zst :=
  if s_proper c then
    if existsb (Z.eqb z) zi then do v <- bump zi zv z (s_rms c); Ok (mkz (z_E s) (Some (zi, v)) (Some v) (z_pol s))
    else Ok (mkz (z_E s) (Some ((zi ++ [z])%list, (zv ++ [s_rms c])%list)) (Some (zv ++ [s_rms c])%list) (z_pol s))
  else
    do m <- s_map c z;
    do F <- aberrate (s_rms c) (s_wvl c si wi) m (z_E s si wi);
    Ok (mkz (put_E (z_E s) si wi F) (z_ind s) (z_val s) (z_pol s)).
(* falco/zern.py:266-342 *)
Definition field_zern (full : fullmodel) (c : scfg) (t : nat * nat * nat) (s : zst) : res (field C) * zst :=
  match task_env c (fst (fst t)) (snd (fst t)) with
  | Raise e => (Raise e, s)
  | Ok ((si, wi), p) =>
    let s1 := set_pol p s in
    let zz := match z_ind s with Some x => x | None => ([], []) end in
    let s2 := mkz (z_E s1) (Some zz) (z_val s1) (z_pol s1) in
    match idx (s_zern c) (snd t) with
    | Raise e => (Raise e, s2)
    | Ok z =>
      match disturb c si wi z s2 (fst zz) (snd zz) with
      | Raise e => (Raise e, s2)
      | Ok s3 =>
        match full s3 si wi with
        | Raise e => (Raise e, s3)
        | Ok E => (Ok E, mkz (z_E s2) (Some zz) (z_val s3) (z_pol s3))
        end
      end
    end
  end.

(* a result is copied into a slice of an array of the image's size; other sizes do not fit *)
Definition fits (c : scfg) (E : field C) : bool := (Nat.eqb (frows E) (s_ne c) && Nat.eqb (fcols E) (s_nx c))%bool.
(* falco/zern.py:121-124, 187-189: one after the other on the same mp *)
Fixpoint in_turn {T} (f : T -> zst -> res (field C) * zst) (fit : field C -> bool) (l : list T) (s : zst) : res (list (field C)) * zst :=
  match l with
  | [] => (Ok [], s)
  | t :: r =>
    match f t s with
    | (Raise e, s1) => (Raise e, s1)
    | (Ok E, s1) => if fit E then match in_turn f fit r s1 with (Ok R, s2) => (Ok (E :: R), s2) | (Raise e, s2) => (Raise e, s2) end else (Raise ValueError, s1)
    end
  end.
(* multiprocessing.Pool.starmap cuts the tasks into chunks; the tasks of a chunk are pickled together, so that they share one copy of mp *)
Definition chunk_size (n threads : nat) : nat := let q := (n / (threads * 4))%nat in if Nat.eqb (n mod (threads * 4)) 0 then q else S q.
Fixpoint cut {T} (fuel k : nat) (l : list T) : list (list T) :=
  match fuel, l with
  | O, _ => []
  | _, [] => []
  | S f, _ => firstn k l :: cut f k (skipn k l)
  end.
(* falco/zern.py:102-120, 161-185; the copies are thrown away *)
Definition in_pool {T} (f : T -> zst -> res (field C) * zst) (fit : field C -> bool) (threads : nat) (l : list T) (s : zst) : res (list (field C)) :=
  if Nat.eqb threads 0 then Raise ValueError else
  do R <- traverse (fun ch => fst (in_turn f (fun _ => true) ch s)) (cut (length l) (chunk_size (length l) threads) l);
  if forallb fit (concat R) then Ok (concat R) else Raise ValueError.
Definition run_tasks {T} (f : T -> zst -> res (field C) * zst) (c : scfg) (l : list T) (s : zst) : res (list (field C)) * zst :=
  if s_par c then (in_pool f (fits c) (s_threads c) l s, s) else in_turn f (fits c) l s.

(* falco/zern.py:127-131 *)
Definition put2 {X} (a : nat -> nat -> X) (i j : nat) (x : X) : nat -> nat -> X := fun p q => if (Nat.eqb p i && Nat.eqb q j)%bool then x else a p q.
Definition fzero : field C := mkf 0 0 (fun _ _ => RtoC 0).
Definition e0_array (ts : list (nat * nat)) (R : list (field C)) : nat -> nat -> field C :=
  fold_left (fun a x => put2 a (fst (fst x)) (snd (fst x)) (snd x)) (List.combine ts R) (fun _ _ => fzero).
(* falco/zern.py:192-197: value at row i, column j *)
Definition de_array (ts : list (nat * nat * nat)) (R : list (field C)) (E0 : nat -> nat -> field C) : nat -> nat -> nat -> nat -> nat -> C :=
  fold_left (fun a x => let '((il, ip, iz), E) := x in
    fun p q r => if (Nat.eqb p il && Nat.eqb q ip && Nat.eqb r iz)%bool then (fun i j => Cminus (fpx E i j) (fpx (E0 il ip) i j)) else a p q r)
    (List.combine ts R) (fun _ _ _ _ _ => RtoC 0).
(* np.mean; None is nan, of nothing *)
Definition np_mean (l : list R) : option R := match l with [] => None | _ => Some (rsuml l / INR (length l)) end.
Definition omean (l : list (option R)) : option R :=
  if forallb (fun x => match x with Some _ => true | None => false end) l then np_mean (map (fun x => match x with Some v => v | None => 0 end) l) else None.
(* falco/zern.py:201-206: |dE|^2 averaged over polarisations, then wavelengths, then over the pixels of the mask *)
Definition de2 (c : scfg) (D : nat -> nat -> nat -> nat -> nat -> C) (iz i j : nat) : option R :=
  omean (map (fun il => np_mean (map (fun ip => abs2 (D il ip iz i j)) (seq 0 (npol c)))) (seq 0 (length (s_lam c)))).
Definition cells (c : scfg) : list (nat * nat) := list_prod (seq 0 (s_ne c)) (seq 0 (s_nx c)).
(* the axes of length 1 are squeezed away, after which there are fewer than three *)
Definition squeezed (c : scfg) : bool := (Nat.eqb (s_ne c) 1 || Nat.eqb (s_nx c) 1 || Nat.eqb (length (s_zern c)) 1)%bool.
Definition sens_mat (c : scfg) (D : nat -> nat -> nat -> nat -> nat -> C) (ms : list (nat -> nat -> bool)) : res (list (list (option R))) :=
  if (squeezed c && negb (Nat.eqb (length (s_zern c)) 0))%bool then Raise IndexError
  else Ok (map (fun iz => map (fun m => omean (map (fun q => de2 c D iz (fst q) (snd q)) (filter (fun q => m (fst q) (snd q)) (cells c)))) ms) (seq 0 (length (s_zern c)))).
(* falco/zern.py:19-225; the cube of lines 57-69 is not used afterwards, but making it can fail *)
Definition calc_zern_sens (full : fullmodel) (c : scfg) (s : zst) : res (list (list (option R))) * zst :=
  match (do ms <- traverse (zone_mask c) (s_rsens c); do _ <- (if s_proper c then Ok [] else traverse (s_map c) (s_zern c)); Ok ms) with
  | Raise e => (Raise e, s)
  | Ok ms =>
    match run_tasks (field_nominal full c) c (inds c) s with
    | (Raise e, s1) => (Raise e, s1)
    | (Ok R0, s1) =>
      match run_tasks (field_zern full c) c (inds_zern c) s1 with
      | (Raise e, s2) => (Raise e, s2)
      | (Ok R1, s2) => (sens_mat c (de_array (inds_zern c) R1 (e0_array (inds c) R0)) ms, s2)
      end
    end
  end.
