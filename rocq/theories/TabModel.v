(* Model of falco/thinfilm.py gen_complex_trans_table (427-547): tables of complex transmission kept in files.
   Exact reals: the numbers written into a file name are the rounded exact values (Python rounds the binary value).
   A file name is represented by the tuple of its formatted fields; names of materials that themselves contain the separators of the format are not considered.
   Printing is not modelled.  The directory data/material is assumed to exist and to be writable. *)
From Verif Require Import Base RBase StrBase CBase PropModel OptModel DiffModel ThinModel FilmModel.
Open Scope R_scope.
(* the attributes of mp that the function reads *)
Record tabreq := mktr { tr_sub : string; tr_tTi : R; tr_metal : string; tr_metals : list R; tr_dmetal : R; tr_diel : string; tr_diels : list R; tr_ddiel : R;
  tr_lam0 : R; tr_bw : R; tr_Nsbp : nat; tr_Nwp : nat; tr_aoi : R; tr_d0fac : R; tr_centers : list R; tr_lambdas : list R }.
(* '%.1f', '%.2f' and '%d' of a float *)
Definition pct1 (x : R) : Z := nround (10 * x).
Definition pct2 (x : R) : Z := nround (100 * x).
Definition pctd (x : R) : Z := if Rle_dec 0 x then Int_part x else (- Int_part (- x))%Z.
(* np.min, np.max *)
Definition np_min (l : list R) : res R := match l with nil => Raise ValueError | x :: t => Ok (fold_left Rmin t x) end.
Definition np_max (l : list R) : res R := match l with nil => Raise ValueError | x :: t => Ok (fold_left Rmax t x) end.
Record fname := mkfn { fn_sub : string; fn_tTi : Z; fn_metal : string; fn_m0 : Z; fn_m1 : Z; fn_dm : Z; fn_diel : string; fn_d0 : Z; fn_d1 : Z; fn_dd : Z;
  fn_lam : Z; fn_bw : Z; fn_Nsbp : nat; fn_aoi : Z; fn_full : option nat; fn_refl : bool }.
(* falco/thinfilm.py:451-470 : fn_compact (full = None) and fn_full (full = Some Nwpsbp), with '_refl' for reflection *)
Definition name_of (r : tabreq) (full : option nat) (refl : bool) : res fname :=
  do m0 <- np_min (tr_metals r); do m1 <- np_max (tr_metals r); do d0 <- np_min (tr_diels r); do d1 <- np_max (tr_diels r);
  Ok (mkfn (tr_sub r) (pct1 (tr_tTi r)) (tr_metal r) (pct1 m0) (pct1 m1) (pct2 (tr_dmetal r)) (tr_diel r) (pct1 d0) (pct1 d1) (pct2 (tr_ddiel r))
           (pctd (1000000000 * tr_lam0 r)) (pct1 (100 * tr_bw r)) (tr_Nsbp r) (pct1 (tr_aoi r)) full refl).
(* a table: one slice [dielectric][metal] per wavelength *)
Definition slice := list (list C).
(* falco/thinfilm.py:494-503, 529-539 : the slice of one wavelength *)
Definition one_slice (tb : tables) (r : tabreq) (refl : bool) (lam : R) : res slice :=
  do m <- calc_trans tb (mkti (tr_sub r) (tr_metal r) (tr_diel r) lam (tr_aoi r) (1 / 1000000000 * tr_tTi r) (lam * tr_d0fac r) 2 false)
            (map (fun t => 1 / 1000000000 * t) (tr_metals r)) (map (fun t => 1 / 1000000000 * t) (tr_diels r));
  Ok (map (map (if refl then snd else fst)) m).
(* falco/thinfilm.py:484-504 : sbp_centers[si] for si in range(Nsbp) *)
Definition compute_compact (tb : tables) (r : tabreq) (refl : bool) : res (list slice) :=
  mapr (fun si => match nth_error (tr_centers r) si with Some lam => one_slice tb r refl lam | None => Raise IndexError end) (seq 0 (tr_Nsbp r)).
Definition zero_slice (r : tabreq) : slice := repeat (repeat (RtoC 0) (length (tr_metals r))) (length (tr_diels r)).
(* falco/thinfilm.py:521-541 : the slices of mp.full.lambdas written into an array of Nsbp*Nwpsbp zero slices *)
Definition compute_full (tb : tables) (r : tabreq) (refl : bool) : res (list slice) :=
  do s <- mapr (fun li => if Nat.ltb li (tr_Nsbp r * tr_Nwp r) then one_slice tb r refl (nth li (tr_lambdas r) 0)
                          else do x <- one_slice tb r refl (nth li (tr_lambdas r) 0); Raise IndexError) (seq 0 (length (tr_lambdas r)));
  Ok (s ++ repeat (zero_slice r) (tr_Nsbp r * tr_Nwp r - length s)).
(* files: absent, half written (np.save was interrupted or is under way in another process), complete *)
Inductive file := Torn | Whole (t : list slice).
Definition fs := fname -> option file.
(* np.load : a half written file is refused (ValueError; EOFError when still empty); FileNotFoundError when it has been deleted since is modelled as OtherError *)
Definition np_load (f : option file) : res (list slice) := match f with Some (Whole t) => Ok t | Some Torn => Raise ValueError | None => Raise OtherError end.
Definition isfile (f : option file) : bool := match f with Some _ => true | None => false end.
(* falco/thinfilm.py:479-508 and 511-545.  Other processes may change files between the test and the load: a is the file when isfile looks, b when np.load reads.
   Result: the table, and whether it is then saved under the name *)
Definition get_table (a b : option file) (compute : res (list slice)) : res (list slice * bool) :=
  if isfile a then do t <- np_load b; Ok (t, false) else do t <- compute; Ok (t, true).
(* falco/thinfilm.py:427-547 with the file system seen at the four moments it is read *)
Definition gen_tables (tb : tables) (r : tabreq) (refl : bool) (f1 f2 f3 f4 : fs) : res (list slice * list slice) :=
  do nc <- name_of r None refl; do nf <- name_of r (Some (tr_Nwp r)) refl;
  do c <- get_table (f1 nc) (f2 nc) (compute_compact tb r refl);
  do f <- get_table (f3 nf) (f4 nf) (if Nat.eqb (tr_Nwp r) 1 then Ok (fst c) else compute_full tb r refl);
  Ok (fst c, fst f).
Definition fname_eq_dec (a b : fname) : {a = b} + {a <> b}.
Proof. repeat decide equality. Defined.
Definition put (f : fs) (n : fname) (x : file) : fs := fun m => if fname_eq_dec m n then Some x else f m.
(* One process alone, not interrupted: what it returns and the files afterwards *)
Definition saved (f : fs) (n : fname) (x : list slice * bool) : fs := if snd x then put f n (Whole (fst x)) else f.
Definition run_alone (tb : tables) (r : tabreq) (refl : bool) (f : fs) : res (list slice * list slice * fs) :=
  do nc <- name_of r None refl; do nf <- name_of r (Some (tr_Nwp r)) refl;
  do c <- get_table (f nc) (f nc) (compute_compact tb r refl);
  let g := saved f nc c in
  do x <- get_table (g nf) (g nf) (if Nat.eqb (tr_Nwp r) 1 then Ok (fst c) else compute_full tb r refl);
  Ok (fst c, fst x, saved g nf x).
(* Any number of processes, any interleaving, any of them killed at any moment.  A step of the file system is the opening (file half written) or the completion of an
   np.save by some call that found no file under the name at some earlier moment: its table was computed then, from the files it had seen. *)
Inductive reach (tb : tables) : fs -> Prop :=
| r_empty : reach tb (fun _ => None)
| r_delete f n : reach tb f -> reach tb (fun m => if fname_eq_dec m n then None else f m)
| r_torn f n : reach tb f -> reach tb (put f n Torn)
| r_compact f r refl n t : reach tb f -> name_of r None refl = Ok n -> compute_compact tb r refl = Ok t -> reach tb (put f n (Whole t))
| r_full f r refl n t : reach tb f -> name_of r (Some (tr_Nwp r)) refl = Ok n -> tr_Nwp r <> 1%nat -> compute_full tb r refl = Ok t -> reach tb (put f n (Whole t))
| r_copy f r refl n nc g1 g2 c : reach tb f -> reach tb g1 -> reach tb g2 -> name_of r (Some (tr_Nwp r)) refl = Ok n -> tr_Nwp r = 1%nat -> name_of r None refl = Ok nc ->
    get_table (g1 nc) (g2 nc) (compute_compact tb r refl) = Ok c -> reach tb (put f n (Whole (fst c))).
