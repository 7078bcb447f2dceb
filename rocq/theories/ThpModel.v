(* Model of the off-axis image, the throughput and the image noise: falco/imaging.py:12-110, 583-629.  Real arithmetic *)
From Verif Require Import StrBase Base RBase CtrlModel CBase PropModel OptModel SrcModel.
Open Scope R_scope.
(* ---- off-axis image ---- *)
(* what the functions read besides the compact model's own data: mp.star.count, mp.Nsbp, mp.jac.weightMat[:, 0] *)
Record scene : Type := mkscene { sc_stars : nat; sc_nsbp : nat; sc_w : nat -> R }.
(* falco/imaging.py:612-624: ModelVariables of one term *)
Definition off_var (x y : R) (iStar si : nat) : modvar := mkmv (Some (Z.of_nat si)) None None (Some (Z.of_nat iStar)) (Some "offaxis"%string) (Some x) (Some y) (Some 1%Z).
(* (np.abs(E2D)**2) * weight *)
Definition intensity (w : R) (E : field C) : field R := mkf (frows E) (fcols E) (fun i j => abs2 (fpx E i j) * w).
(* Iout += A for Iout = 0. (None) or an array; every term has the shape of mp.Fend: other shapes are not modelled beyond their failure *)
Definition iadd (acc : option (field R)) (A : field R) : res (option (field R)) :=
  match acc with
  | None => Ok (Some A)
  | Some B => if (Nat.eqb (frows A) (frows B) && Nat.eqb (fcols A) (fcols B))%bool then Ok (Some (mkf (frows B) (fcols B) (fun i j => fpx B i j + fpx A i j))) else Raise ValueError
  end.
(* falco/imaging.py:617-627: the two loops; cmp: falco.model.compact for the given ModelVariables and isEvalMode *)
Fixpoint off_loop (cmp : modvar -> bool -> res (field C)) (w : nat -> R) (x y : R) (ev : bool) (l : list (nat * nat)) (acc : option (field R)) : res (option (field R)) :=
  match l with
  | [] => Ok acc
  | (k, si) :: r => do E <- cmp (off_var x y k si) ev; do a <- iadd acc (intensity (w si) E); off_loop cmp w x y ev r a
  end.
Definition off_terms (s : scene) : list (nat * nat) := list_prod (seq 0 (sc_stars s)) (seq 0 (sc_nsbp s)).
Definition offaxis_image (cmp : modvar -> bool -> res (field C)) (s : scene) (x y : R) (ev : bool) : res (option (field R)) := off_loop cmp (sc_w s) x y ev (off_terms s) None.
(* falco.model.compact as modelled in SrcModel *)
Definition compact_model (b : bench) (cd : compactdata) : modvar -> bool -> res (field C) := fun mv ev => compact_wrapper b cd mv true ev true.
(* ---- throughput ---- *)
Definition fsum (A : field R) : R := rsum (frows A) (fun i => rsum (fcols A) (fun j => fpx A i j)).
Definition pixels (A : field R) : list R := flat_map (fun i => map (fun j => fpx A i j) (seq 0 (fcols A))) (seq 0 (frows A)).
(* np.max; an empty array raises *)
Definition np_max (A : field R) : res R := match pixels A with [] => Raise ValueError | a :: l => Ok (fold_left Rmax l a) end.
(* np.sum(A[mask]) *)
Definition masked_sum (A : field R) (m : nat -> nat -> bool) : R := rsum (frows A) (fun i => rsum (fcols A) (fun j => if m i j then fpx A i j else 0)).
Definition mean (l : list R) : R := rsuml l / INR (length l).
Definition leb (a b : R) : bool := if Rle_dec a b then true else false.
(* mp.thput_metric, mp.thput_radius, mp.thput_eval_x, mp.thput_eval_y, mp.Fend.eval.RHOS, mp.sumPupil, mp.Fend.eval.I00 *)
Record thcfg : Type := mkth { t_metric : string; t_radius : R; t_x : R; t_y : R; t_rho : field R; t_pupil : R; t_I00 : list R }.
Definition same_shape {A B} (a : field A) (b : field B) : bool := (Nat.eqb (frows a) (frows b) && Nat.eqb (fcols a) (fcols b))%bool.
(* falco/imaging.py:67-110.  Without any star or sub-band the image is the number 0., which cannot be indexed; a boolean mask of another
   shape raises; for an unknown metric the result is never assigned *)
Definition calc_thput (cmp : modvar -> bool -> res (field C)) (s : scene) (t : thcfg) : res (R * field R) :=
  do J <- offaxis_image cmp s (t_x t) (t_y t) true;
  let m := lower (t_metric t) in
  let finish := fun (A : field R) (mask : nat -> nat -> bool) => Ok (masked_sum A mask / t_pupil t * mean (t_I00 t), A) in
  if String.eqb m "hmi" then
    match J with
    | None => Raise TypeError
    | Some A => do M <- np_max A; if same_shape A (t_rho t) then finish A (fun i j => leb (1 / 2 * M) (fpx A i j)) else Raise IndexError
    end
  else if (String.eqb m "ee" || String.eqb m "e.e.")%bool then
    match J with
    | None => Raise TypeError
    | Some A => if same_shape A (t_rho t) then finish A (fun i j => leb (fpx (t_rho t) i j) (t_radius t)) else Raise IndexError
    end
  else Raise NameError.
(* falco/imaging.py:131-133: mp.sumPupil for an aperture and the mean entrance field, already of the aperture's size *)
Definition sum_pupil (M : field R) (E : field C) : R := rsum (frows M) (fun i => rsum (fcols M) (fun j => abs2 (Cmult (RtoC (fpx M i j)) (fpx E i j)))).
(* ---- noise ---- *)
(* mp.detector: peakFluxVec, tExpVec, gain, Nexp, darkCurrentRate, readNoiseStd *)
Record detector : Type := mkdet { d_flux : list R; d_texp : list R; d_gain : R; d_nexp : nat; d_dark : R; d_read : R }.
(* random draws of exposure e at pixel (i, j): np.random.poisson of the light and of the dark current, np.random.randn *)
Record draws : Type := mkdraws { shot : nat -> nat -> nat -> nat; darkc : nat -> nat -> nat -> nat; gauss : nat -> nat -> nat -> R }.
(* largest mean np.random.poisson accepts: 2^63 - 1 less ten standard deviations *)
Definition lam_max : R := IZR (2 ^ 63 - 1) - 10 * sqrt (IZR (2 ^ 63 - 1)).
Definition lam_ok (x : R) : bool := (leb 0 x && leb x lam_max)%bool.
Definition all_ok (A : field R) : bool := forallb (fun v => lam_ok v) (pixels A).
(* one pixel of imageInCounts after the loop of lines 40-59; np.round rounds halves to even *)
Definition counts (d : detector) (w : draws) (i j : nat) : R :=
  rsum (d_nexp d) (fun e => IZR (ZnearestE ((INR (shot w e i j) + INR (darkc w e i j) + d_read d * gauss w e i j) / d_gain d)) / INR (d_nexp d)).
Inductive image : Type := Scalar0 | Pixels (A : field R).
(* falco/imaging.py:12-64, for an image that is a 2-D array and iSubband >= 0; without exposures the result is the number 0 *)
Definition add_noise (d : detector) (w : draws) (J : field R) (si : Z) : res image :=
  if (si <? 0)%Z then Raise ValueError
  else
    do fl <- np_get (d_flux d) si;
    do te <- np_get (d_texp d) si;
    let peak := fl * te in
    let electrons := mkf (frows J) (fcols J) (fun i j => d_gain d * peak * fpx J i j) in
    if Nat.eqb (d_nexp d) 0 then Ok Scalar0
    else if (all_ok electrons && all_ok (mkf (frows J) (fcols J) (fun _ _ => d_dark d * te)))%bool
    then Ok (Pixels (mkf (frows J) (fcols J) (fun i j => counts d w i j / peak)))
    else Raise ValueError.
