(* Model of falco/imaging.py (simulated images) and of the perfect estimator of falco/est.py, at one pixel.
   falco.model.full is a parameter: its value may depend on the two fields of mp that tasks overwrite,
   mp.full.polaxis (field 0) and the focal-plane mask mp.F3.full.mask (field 1). *)
From Verif Require Import Base RBase PoolModel JacModel SpectModel EfcSpec.
Open Scope R_scope.

(* accesses of one call of falco.model.full: falco/model/models.py:117-126 overwrites mp.F3.full.mask for the
   HLC; polaxis is read with the other fields of mp.full (models.py:137,166), the mask by full_Fourier *)
Definition full_code (hlc : bool) (fpm : Z) : code := (if hlc then [Wr 1 fpm] else []) ++ [Rd 0; Rd 1].
Definition with_reads {A} (d : A) (f : Z -> Z -> A) (l : list Z) : A := match l with [p; m] => f p m | _ => d end.
(* for loop with += over results *)
Definition acc_sum (l : list R) : R := fold_left Rplus l 0.

Section Img.
  Variables (Nsbp Nw stars : nat) (pol_conds : list Z).        (* mp.Nsbp, mp.Nwpsbp, mp.star.count, mp.full.pol_conds *)
  Variables (sbpw lamw : nat -> R).                            (* mp.sbp_weights, mp.full.lambda_weights *)
  Variable hlc : bool.
  Variable fpm : nat -> nat -> Z.                              (* which mask model.full stores for (sub-band, wavelength) *)
  (* |model.full|^2 at the pixel, for sub-band, wavelength, star, polaxis and mask *)
  Variable inten : nat -> nat -> nat -> Z -> Z -> R.
  Variable flagImageNoise : bool.
  Variable noise : nat -> R -> R.                              (* add_noise_to_subband_image for given random draws *)

  Definition pol (ipol : nat) : Z := nth ipol pol_conds 0%Z.
  Definition Npol : nat := length pol_conds.

  (* falco/imaging.py:417-418: (wi, ipol, iStar) *)
  Definition inds_list : list (nat * nat * nat) :=
    list_prod (list_prod (seq 0 Nw) (seq 0 Npol)) (seq 0 stars).
  (* falco/imaging.py:466-493 *)
  Definition comp_code (si : nat) (x : nat * nat * nat) : code :=
    let '(wi, ipol, _) := x in Wr 0 (pol ipol) :: full_code hlc (fpm si wi).
  Definition comp_value (si : nat) (x : nat * nat * nat) (reads : list Z) : R :=
    let '(wi, _, star) := x in lamw wi / INR Npol * with_reads 0 (inten si wi star) reads.
  (* falco/imaging.py:454-461 *)
  Definition subband_total (si : nat) (reads : list (list Z)) : R :=
    let I := acc_sum (map (fun '(x, r) => comp_value si x r) (combine inds_list reads)) in
    if flagImageNoise then noise si I else I.
  Definition sbp_jobs (si : nat) : list code := map (comp_code si) inds_list.
  (* falco/imaging.py:396-463, flagParallel False / True *)
  Definition sbp_image_serial (m : mem) (si : nat) : R := subband_total si (serial_reads m (sbp_jobs si)).
  Definition sbp_image_pool (T : nat) (m : mem) (sched : list nat) (si : nat) : option R :=
    option_map (subband_total si) (pool_reads T m (sbp_jobs si) sched).

  (* falco/imaging.py:270-273: the loop over sub-bands; mp keeps the last values written *)
  Fixpoint final_mem (m : mem) (jobs : list code) : mem :=
    match jobs with [] => m | c :: t => final_mem (fst (run_code m c)) t end.
  Fixpoint summed_loop (m : mem) (sis : list nat) : list R :=
    match sis with
    | [] => []
    | si :: t => sbpw si * sbp_image_serial m si :: summed_loop (final_mem m (sbp_jobs si)) t
    end.
  Definition summed_serial (m : mem) : R := acc_sum (summed_loop m (seq 0 Nsbp)).

  (* falco/imaging.py:275-322: one task per (unique wavelength, polarisation) *)
  Variable uniq : list nat.                                    (* mp.full.indsLambdaUnique *)
  Variable wall : list R.                                      (* mp.full.lambda_weights_all *)
  Definition vals_list : list (nat * Z) := list_prod (seq 0 (length uniq)) pol_conds.
  (* falco/imaging.py:346-361 *)
  Definition rep (ilam : nat) : nat * nat := indsLambdaMat Nw (nth ilam uniq 0%nat).
  Definition uniq_code (x : nat * Z) : code :=
    let '(ilam, p) := x in Wr 0 p :: full_code hlc (fpm (fst (rep ilam)) (snd (rep ilam))).
  Definition uniq_value (x : nat * Z) (reads : list Z) : R :=
    let '(ilam, _) := x in
    nth ilam wall 0 / INR Npol * with_reads 0 (inten (fst (rep ilam)) (snd (rep ilam)) 0%nat) reads.
  Definition summed_pool (T : nat) (m : mem) (sched : list nat) : option R :=
    option_map (fun reads => acc_sum (map (fun '(x, r) => uniq_value x r) (combine vals_list reads)))
      (pool_reads T m (map uniq_code vals_list) sched).
End Img.

(* ---- normalisation: falco/imaging.py:141-183 (full model) ---- *)
Section Norm.
  Variables (Nsbp Nw : nat) (hlc : bool) (fpm : nat -> nat -> Z).
  (* max |full|^2 for star 0, isNorm=False *)
  Variable peak : nat -> nat -> Z -> Z -> R.
  Definition norm_inds : list (nat * nat) := list_prod (seq 0 Nsbp) (seq 0 Nw).
  Definition norm_jobs : list code := map (fun '(si, wi) => full_code hlc (fpm si wi)) norm_inds.
  Definition norm_set (I00 : nat -> nat -> R) (x : (nat * nat) * list Z) : nat -> nat -> R :=
    let '((si, wi), r) := x in
    fun a b => if (Nat.eqb a si && Nat.eqb b wi)%bool then with_reads 0 (peak si wi) r else I00 a b.
  Definition norm_from (reads : list (list Z)) : nat -> nat -> R :=
    fold_left norm_set (combine norm_inds reads) (fun _ _ => 1).
  Definition norm_serial (m : mem) : nat -> nat -> R := norm_from (serial_reads m norm_jobs).
  Definition norm_pool (T : nat) (m : mem) (sched : list nat) : option (nat -> nat -> R) :=
    option_map norm_from (pool_reads T m norm_jobs sched).
End Norm.

(* ---- perfect estimator: falco/est.py:49-200 ---- *)
Definition same_set (a b : list Z) : bool :=
  forallb (fun x => existsb (Z.eqb x) b) a && forallb (fun x => existsb (Z.eqb x) a) b.
(* falco/est.py:72-82 *)
Definition perfect_polaxis (pol_conds : list Z) : res Z :=
  if (same_set pol_conds [-2; -1; 1; 2]%Z || same_set pol_conds [10]%Z)%bool then Ok 10%Z
  else if (same_set pol_conds [-1; 1]%Z || same_set pol_conds [5]%Z)%bool then Ok 5%Z
  else if (same_set pol_conds [-2; 2]%Z || same_set pol_conds [6]%Z)%bool then Ok 6%Z
  else if same_set pol_conds [0]%Z then Ok 0%Z
  else Raise ValueError.

Definition cadd (a b : R * R) : R * R := (fst a + fst b, snd a + snd b).
Definition cscale (k : R) (a : R * R) : R * R := (k * fst a, k * snd a).
Definition csum (l : list (R * R)) : R * R := fold_left cadd l (0, 0).

Section Perfect.
  Variables (Nmode Nw : nat) (lamw : nat -> R) (hlc : bool) (fpm : nat -> nat -> Z).
  Variables (sbp_ind : nat -> nat) (zern_ind : nat -> Z).      (* mp.jac.sbp_inds, zern_inds *)
  Variable Efull : nat -> nat -> Z -> Z -> R * R.              (* model.full at the pixel for (mode, wavelength) *)
  Variables (Nxi Neta : nat).
  (* (iMode, wi): falco/est.py:89-91 *)
  Definition perf_inds : list (nat * nat) := list_prod (seq 0 Nmode) (seq 0 Nw).
  Definition perf_jobs : list code := map (fun '(im, wi) => full_code hlc (fpm (sbp_ind im) wi)) perf_inds.
  Definition perf_table (reads : list (list Z)) (im wi : nat) : R * R :=
    with_reads (0, 0) (Efull im wi) (nth (im * Nw + wi) reads []).
  (* weighted mean over the wavelengths of the sub-band *)
  Definition band_mean (tab : nat -> nat -> R * R) (im : nat) : R * R :=
    csum (map (fun wi => cscale (lamw wi) (tab im wi)) (seq 0 Nw)).
  Definition piston (im : nat) : bool := (zern_ind im =? 1)%Z.
  (* ev.imageArray[pixel, 0, :]: parallel (est.py:165-168) accumulates, serial (est.py:189-190) overwrites *)
  Definition img_parallel (tab : nat -> nat -> R * R) : nat -> R :=
    fold_left (fun a im => if piston im then fun s => if Nat.eqb s (sbp_ind im) then a s + sqmod (band_mean tab im) else a s else a)
      (seq 0 Nmode) (fun _ => 0).
  Definition img_serial (tab : nat -> nat -> R * R) : nat -> R :=
    fold_left (fun a im => if piston im then fun s => if Nat.eqb s (sbp_ind im) then sqmod (band_mean tab im) else a s else a)
      (seq 0 Nmode) (fun _ => 0).
  (* (Eest at the pixel by mode, imageArray by sub-band) *)
  Definition perfect_serial (m : mem) : (nat -> R * R) * (nat -> R) :=
    let tab := perf_table (serial_reads m perf_jobs) in (band_mean tab, img_serial tab).
  (* E2D has shape (Neta, Nxi), EmatArray[:, :, iMode, wi] has shape (Nxi, Neta): falco/est.py:128-135 *)
  Definition assign_ok : bool := ((Nat.eqb Neta Nxi || Nat.eqb Neta 1) && (Nat.eqb Nxi Neta || Nat.eqb Nxi 1))%bool.
  Definition perfect_pool (T : nat) (m : mem) (sched : list nat) : option (res ((nat -> R * R) * (nat -> R))) :=
    option_map (fun reads =>
      if (assign_ok || Nat.eqb (Nmode * Nw) 0)%bool then let tab := perf_table reads in Ok (band_mean tab, img_parallel tab)
      else Raise ValueError) (pool_reads T m perf_jobs sched).
End Perfect.

(* ---- expected image: falco/imaging.py:496-580 ---- *)
(* DM commands as functions of DM number and actuator: the array arithmetic is elementwise *)
Section Expected.
  Variable dm_ind : list nat.
  Variable Nsbp : nat.
  Variable sbpw : nat -> R.
  Variable compact : (nat -> nat -> R) -> nat -> res (nat -> R * R).  (* DM commands, sub-band -> field by pixel *)
  Variable corr : nat -> bool.                                        (* mp.Fend.corr.maskBool *)
  Variable Eest : nat -> nat -> R * R.                                (* cvar.Eest: (sub-band, dark-hole pixel) *)
  Definition driven (d : nat) : bool := existsb (Nat.eqb d) dm_ind && existsb (Nat.eqb d) [1; 2; 8; 9]%nat.
  Fixpoint fields (V : nat -> nat -> R) (sis : list nat) : res (list (nat -> R * R)) :=
    match sis with
    | [] => Ok []
    | si :: t => do E <- compact V si; do r <- fields V t; Ok (E :: r)
    end.
  Definition csub (a b : R * R) : R * R := (fst a - fst b, snd a - snd b).
  (* mp (its commands) after the call, and the returned image or the exception *)
  Definition expected_image (V dV : nat -> nat -> R) : (nat -> nat -> R) * res (nat -> R) :=
    match fields V (seq 0 Nsbp) with
    | Raise e => (V, Raise e)
    | Ok new =>
      let Vold := fun d a => if driven d then V d a - dV d a else V d a in
      match fields Vold (seq 0 Nsbp) with
      | Raise e => (Vold, Raise e)
      | Ok old =>
        let img := fun px =>
          acc_sum (map (fun si => sbpw si * (if corr px then
             sqmod (cadd (Eest si px) (csub (nth si new (fun _ => (0,0)) px) (nth si old (fun _ => (0,0)) px))) else 0)) (seq 0 Nsbp)) in
        (* reset from the saved copies *)
        (fun d a => if driven d then V d a else Vold d a, Ok img)
      end
    end.
End Expected.
