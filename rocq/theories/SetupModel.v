(* Model of falco/setup.py: verify_key_values, crop_lyot_stop, falco_set_spatial_weights and
   falco_set_dm_surface_padding.  Ideal real arithmetic. *)
From Verif Require Import Base RBase StrBase UtilModel.
Open Scope string_scope.
Open Scope Z_scope.

(* ---------------- verify_key_values ---------------- *)
Record keys : Type := mkkeys { k_centering : string; k_coro : string; k_layout : string;
                               k_estimator : string; k_controller : string }.
(* falco/setup.py:80-90 *)
Definition allowedCenterings : list string := ["pixel"; "interpixel"].
Definition allowedCoronagraphTypes : list string := ["VC"; "VORTEX"; "LC"; "APLC"; "FLC"; "SPLC"; "HLC"].
Definition allowedLayouts : list string :=
  ["fourier"; "fpm_scale"; "proper"; "roman_phasec_proper"; "wfirst_phaseb_proper"].
Definition allowedEstimators : list string :=
  ["perfect"; "pairwise"; "pairwise-square"; "pwp-bp-square"; "pairwise-rect"; "pwp-bp"; "pwp-kf"].
Definition allowedControllers : list string := ["gridsearchefc"; "plannedefc"; "ad-efc"].

(* falco/setup.py:78-117: the final state of the five attributes and the exception, if any.  The
   attributes are str (a value without lower/upper is not modelled). *)
Definition verify_key_values (m : keys) : keys * option exn :=
  let m1 := mkkeys (lower (k_centering m)) (k_coro m) (k_layout m) (k_estimator m) (k_controller m) in
  if negb (str_in (k_centering m1) allowedCenterings) then (m1, Some ValueError) else
  let m2 := mkkeys (k_centering m1) (upper (k_coro m1)) (k_layout m1) (k_estimator m1) (k_controller m1) in
  if negb (str_in (k_coro m2) allowedCoronagraphTypes) then (m2, Some ValueError) else
  let m3 := mkkeys (k_centering m2) (k_coro m2) (lower (k_layout m2)) (k_estimator m2) (k_controller m2) in
  if negb (str_in (k_layout m3) allowedLayouts) then (m3, Some ValueError) else
  let m4 := mkkeys (k_centering m3) (k_coro m3) (k_layout m3) (lower (k_estimator m3)) (k_controller m3) in
  if negb (str_in (k_estimator m4) allowedEstimators) then (m4, Some ValueError) else
  let m5 := mkkeys (k_centering m4) (k_coro m4) (k_layout m4) (k_estimator m4) (lower (k_controller m4)) in
  if negb (str_in (k_controller m5) allowedControllers) then (m5, Some ValueError) else
  (m5, None).

(* falco/est.py:32-44: which estimator the wrapper calls; None when no branch matches (nothing is
   called and ev is returned as it came) *)
Inductive est_call : Set := CallPerfect | CallPairwise.
Definition est_wrapper_call (estimator : string) : option est_call :=
  if String.eqb estimator "perfect" then Some CallPerfect
  else if str_in estimator ["pairwise"; "pairwise-square"; "pairwise-rect"; "pwp-bp-square"; "pwp-bp"; "pwp-kf"]
       then Some CallPairwise
  else None.
(* falco/est.py:435-445 (= 331): which probe generator pairwise_probing uses; None leaves probeCmd unbound *)
Inductive probe_kind : Set := SquareProbe | RectProbe.
Definition probe_generator (estimator : string) : option probe_kind :=
  if str_in estimator ["pairwise"; "pairwise-square"; "pwp-bp-square"] then Some SquareProbe
  else if str_in estimator ["pairwise-rect"; "pwp-bp"; "pwp-kf"] then Some RectProbe
  else None.
(* falco/est.py:589-593: whether the batch estimate is computed; otherwise Eest is unbound at line 667 *)
Definition batch_branch (estimator : string) (Itr ItrStartKF : Z) : bool :=
  str_in estimator ["pairwise"; "pairwise-square"; "pairwise-rect"; "pwp-bp"; "pwp-bp-square"] ||
  (String.eqb estimator "pwp-kf" && (Itr <? ItrStartKF)).
(* falco/ctrl.py:38-39, 100-103: which controller is called; None when no branch matches (dDM unbound) *)
Inductive ctrl_call : Set := CallGrid | CallPlanned | CallAd.
Definition ctrl_wrapper_call (controller : string) : option ctrl_call :=
  if String.eqb (lower controller) "ad-efc" then Some CallAd
  else if String.eqb (lower controller) "plannedefc" then Some CallPlanned
  else if String.eqb (lower controller) "gridsearchefc" then Some CallGrid
  else None.

(* ---------------- crop_lyot_stop ---------------- *)
(* 1e-7 *)
Definition lyot_tol : R := (/ 10 ^ 7)%R.
(* falco/setup.py:771-779 and 783-792: the while loop; Narr when it exits.  The first entry is
   unconditional because lyotDiff starts at 0.  None: out of fuel (never happens, see SetupProofs). *)
Fixpoint lyot_loop (fuel : nat) (mask : arr R) (lyotSum : R) (counter : Z) : option (res Z) :=
  match fuel with
  | O => None
  | S f =>
    let Narr := nr mask - counter in
    match pad_crop_py (Nd2 mask) (SInt (Narr - 2)) (FillReal 0%R) with
    | Raise e => Some (Raise e)
    | Ok c =>
      if Rle_dec (Rabs (lyotSum - arr_sum c)) lyot_tol
      then lyot_loop f mask lyotSum (counter + 2)
      else Some (Ok Narr)
    end
  end.
(* falco/setup.py:769-780 (full) = 783-794 (compact): Narr and croppedMask *)
Definition crop_one (fuel : nat) (mask : arr R) : option (res (Z * arr R)) :=
  match lyot_loop fuel mask (arr_sum mask) 2 with
  | None => None
  | Some (Raise e) => Some (Raise e)
  | Some (Ok n) => Some (do c <- pad_crop_py (Nd2 mask) (SInt n) (FillReal 0%R); Ok (n, c))
  end.
(* falco/setup.py:753-794.  In PROPER mode only the compact mask is handled. *)
Definition crop_lyot_stop (fuel : nat) (flagPROPER : bool) (full compact : arr R)
  : option (res (option (Z * arr R) * (Z * arr R))) :=
  match (if flagPROPER then Some (Ok None)
         else match crop_one fuel full with
              | None => None | Some (Raise e) => Some (Raise e) | Some (Ok x) => Some (Ok (Some x)) end) with
  | None => None
  | Some (Raise e) => Some (Raise e)
  | Some (Ok f) => match crop_one fuel compact with
                   | None => None | Some (Raise e) => Some (Raise e) | Some (Ok x) => Some (Ok (f, x)) end
  end.

Open Scope R_scope.
(* ---------------- falco_set_spatial_weights ---------------- *)
Definition in_annulus (rho : R) (row : R * R * R) : bool :=
  match row with (rin, rout, _) =>
    ((if Rle_dec rin rho then true else false) && (if Rlt_dec rho rout then true else false))%bool end.
(* falco/setup.py:1170-1172, at one pixel *)
Definition Wannulus (rho : R) (row : R * R * R) : R :=
  1 + (sqrt (snd row) - 1) * (if in_annulus rho row then 1 else 0).
(* falco/setup.py:1162-1173 at pixel (i,j); WspatialDef as its list of rows ([] for size 0) *)
Definition Wspatial (xis etas : Z -> R) (corr : Z -> Z -> bool) (def : list (R * R * R)) (i j : Z) : R :=
  let rho := sqrt (xis j * xis j + etas i * etas i) in
  fold_left (fun w row => w * Wannulus rho row) def (if corr i j then 1 else 0).
(* boolean indexing a[mask]: row-major *)
Definition masked {A} (n m : Z) (mask : Z -> Z -> bool) (a : Z -> Z -> A) : list A :=
  map (fun '(i, j) => a i j) (filter (fun '(i, j) => mask i j) (list_prod (zrange n) (zrange m))).
(* falco/setup.py:1177-1183: column iStar of mp.WspatialVec *)
Definition WspatialVec (n m : Z) (xis etas : Z -> R) (corr : Z -> Z -> bool) (def : list (R * R * R))
    (starWeight : R) : list R :=
  map (fun w => starWeight * w) (masked n m corr (Wspatial xis etas corr def)).

(* ---------------- falco_set_dm_surface_padding ---------------- *)
(* 2**np.ceil(1 + np.log2(x)) *)
Definition nominal (x : R) : R := powerRZ 2 (Zceil (1 + log2 x)).
(* falco/setup.py:1320-1327 / 1335-1342: the starting size *)
Definition start_pad (use1 use2 : bool) (n1 n2 nbeam : R) : R :=
  if use1 && use2 then nominal (Rmax n1 n2)
  else if use1 then nominal n1
  else if use2 then nominal n2
  else 2 * nbeam.
(* falco/setup.py:1329-1331 / 1344-1346: while (N < a) or (N < b): N = 2*N *)
Fixpoint doubling (fuel : nat) (N a b : R) : option R :=
  match fuel with
  | O => None
  | S f => if Rlt_dec N a then doubling f (2 * N) a b
           else if Rlt_dec N b then doubling f (2 * N) a b
           else Some N
  end.
(* np.min of a non-empty list *)
Definition lmin (l : list R) : R := match l with [] => 0 | x :: t => fold_left Rmin t x end.
(* falco/setup.py:1314-1332: mp.compact.NdmPad.  Note line 1329 divides by P2.full.dx. *)
Definition compact_pad (fuel : nat) (use1 use2 : bool) (n1 n2 nbeam : R)
    (sbp_centers : list R) (d12 dP2 dx_full dx_compact : R) : option R :=
  doubling fuel (start_pad use1 use2 n1 n2 nbeam)
    (lmin sbp_centers * Rabs d12 / (dx_full * dx_full))
    (lmin sbp_centers * Rabs dP2 / (dx_compact * dx_compact)).
(* falco/setup.py:1334-1347: mp.full.NdmPad *)
Definition full_pad (fuel : nat) (use1 use2 : bool) (n1 n2 nbeam : R)
    (lambdas : list R) (d12 dP2 dx_full : R) : option R :=
  doubling fuel (start_pad use1 use2 n1 n2 nbeam)
    (lmin lambdas * Rabs d12 / (dx_full * dx_full))
    (lmin lambdas * Rabs dP2 / (dx_full * dx_full)).
