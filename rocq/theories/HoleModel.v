(* Model of falco/setup.py falco_configure_dark_hole_region (lines 1014-1139). *)
From Verif Require Import Base RBase StrBase UtilModel MaskModel.
Open Scope R_scope.

(* the attributes of mp.Fend read by the function; lists are the arrays after np.atleast_1d, None is a missing attribute *)
Record fend : Type := mkfend {
  f_res : R; f_cen : string; f_FOV : option R; f_xiFOV : option R; f_etaFOV : option R; f_Nxi : option Z; f_Neta : option Z;
  cRin : list R; cRout : list R; cang : list R; f_sides : list string; f_shape : option (list string);
  f_clock : option (list R); f_xo : option (list R); f_eo : option (list R);
  f_eval_res : R; sRin : list R; sRout : list R; sang : list R }.

(* l[i], IndexError beyond the end *)
Definition idx {A} (l : list A) (i : nat) : res A := match nth_error l i with Some x => Ok x | None => Raise IndexError end.
(* optional attribute indexed by zone *)
Definition oidx {A} (o : option (list A)) (i : nat) : res (option A) :=
  match o with None => Ok None | Some l => do x <- idx l i; Ok (Some x) end.

(* falco/setup.py:1037-1041 *)
Definition shapes (f : fend) : list string :=
  match f_shape f with Some l => l | None => repeat "circle"%string (length (cRin f)) end.

(* falco/setup.py:1046-1060: the CORR dictionary of a zone *)
Definition corr_in (f : fend) (i : nat) : res sw_in :=
  do ri <- idx (cRin f) i; do ro <- idx (cRout f) i; do an <- idx (cang f) i; do sd <- idx (f_sides f) i; do sh <- idx (shapes f) i;
  do ck <- oidx (f_clock f) i; do xo <- oidx (f_xo f) i; do eo <- oidx (f_eo f) i;
  Ok (mksw (f_res f) ri ro an sd (Some (f_cen f)) (Some sh) ck (f_FOV f) xo eo (f_xiFOV f) (f_etaFOV f) (f_Nxi f) (f_Neta f)).

(* sum of two 0/1 masks of one shape, nonzero *)
Definition mor (a b : arr bool) : arr bool := mkarr (nr a) (nc a) (fun i j => px a i j || px b i j).
(* falco/setup.py:1062-1067: the masks are added and only tested for non-zero later; counts are replaced by "or" *)
Definition combine (acc : arr bool) (m : arr bool) : res (arr bool) :=
  let r := Z.max (nr m) (nr acc) in
  let c := Z.max (nc m) (nc acc) in
  do a <- pad_crop acc r c false; do b <- pad_crop m r c false; Ok (mor a b).
Fixpoint corr_loop (f : fend) (zones : list nat) (acc : arr bool) : res (arr bool) :=
  match zones with
  | [] => Ok acc
  | i :: t => do p <- corr_in f i; do o <- falco_gen_SW_mask p; do acc' <- combine acc (sw_mask o); corr_loop f t acc'
  end.
(* falco/setup.py:1043-1069 *)
Definition corr_mask (f : fend) : res (arr bool) := corr_loop f (seq 0 (length (cRin f))) (mkarr 1 1 (fun _ _ => false)).

(* np.meshgrid coordinates of the final array, falco/setup.py:1071-1073; the dictionary holds the last zone
   (a missing key there is a KeyError when there is no zone) *)
Definition with_size (p : sw_in) (nx ne : Z) (r : R) : sw_in :=
  mksw r (rhoInner p) (rhoOuter p) (angDeg p) (whichSide p) (centering p) (shape p) (clockAngDeg p) (FOV p) (xiOffset p) (etaOffset p)
       (xiFOV p) (etaFOV p) (Some nx) (Some ne).

(* falco/setup.py:1114-1126: the SCORE dictionary of a zone. Line 1125 overwrites mp.Fend.etaOffset with
   mp.Fend.xiOffset (AttributeError when that is missing) before using it. *)
Definition score_in (f : fend) (eo : option (list R)) (nx ne : Z) (i : nat) : res (sw_in * option (list R)) :=
  do ri <- idx (sRin f) i; do ro <- idx (sRout f) i; do an <- idx (sang f) i; do sd <- idx (f_sides f) i; do sh <- idx (shapes f) i;
  do ck <- oidx (f_clock f) i; do xo <- oidx (f_xo f) i;
  do eo' <- match eo with
            | None => Ok None
            | Some _ => match f_xo f with None => Raise AttributeError | Some l => Ok (Some l) end
            end;
  do e <- oidx eo' i;
  Ok (mksw (f_res f) ri ro an sd (Some (f_cen f)) (Some sh) ck None xo e None None (Some nx) (Some ne), eo').
Fixpoint score_loop (f : fend) (eo : option (list R)) (nx ne : Z) (zones : list nat) (acc : option (arr bool)) : res (option (arr bool) * option (list R)) :=
  match zones with
  | [] => Ok (acc, eo)
  | i :: t =>
    do (p, eo') <- score_in f eo nx ne i; do o <- falco_gen_SW_mask p;
    score_loop f eo' nx ne t (Some (match acc with None => sw_mask o | Some a => mor a (sw_mask o) end))
  end.

(* boolean indexing a[m], row by row *)
Definition pixels (m : arr bool) : list (Z * Z) :=
  filter (fun '(i, j) => px m i j)
    (flat_map (fun i => map (fun j => (Z.of_nat i, Z.of_nat j)) (seq 0 (Z.to_nat (nc m)))) (seq 0 (Z.to_nat (nr m)))).

Record hole_out : Type := mkho {
  corr_bool : arr bool; h_xis : Z -> R; h_etas : Z -> R; h_Nxi : Z; h_Neta : Z; ev_Nxi : Z; ev_Neta : Z;
  score_bool : arr bool; etaOffset_after : option (list R); score_in_corr : list bool }.

(* falco/setup.py:1014-1139; the two RHOS maps and the pixel counts are derived values and not kept.
   With no zone the loop leaves the dictionary without radii: KeyError at line 1073. *)
Definition configure_dark_hole (f : fend) : res hole_out :=
  do corr <- corr_mask f;
  if Nat.eqb (length (cRin f)) 0 then Raise KeyError else
  do last <- corr_in f (length (cRin f) - 1);
  do axes <- falco_gen_SW_mask (with_size last (nc corr) (nr corr) (f_res f));
  let nx := nc corr in
  let ne := nr corr in
  let evx := ceil_even (f_eval_res f / f_res f * IZR nx) in
  let eve := ceil_even (f_eval_res f / f_res f * IZR ne) in
  do ev <- falco_gen_SW_mask (with_size last evx eve (f_eval_res f));
  do (sc, eo) <- score_loop f (f_eo f) nx ne (seq 0 (length (sRin f))) None;
  (* with no scoring zone maskScore stays the scalar 0: indexing a 0-d array by a 2-D mask is an IndexError *)
  match sc with
  | None => Raise IndexError
  | Some s => Ok (mkho corr (sw_xis axes) (sw_etas axes) nx ne evx eve s eo (map (fun '(i, j) => px s i j) (pixels corr)))
  end.
