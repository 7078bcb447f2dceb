(* Model of falco/ctrl.py: EFC schedule generator, grid search and planned EFC. *)
From Verif Require Import Base RBase.
Open Scope Z_scope.

(* ------------------------------------------------------------------ *)
(** * efc_schedule_generator, falco/ctrl.py:721-800 *)

(* One row of the schedule matrix.  C is the type of the (complex) regularisation entry.
   The int(np.real(.)) conversions of columns 0, 2, 3, 4 are taken as done: the fields are
   integers (fractional entries are not modelled). *)
Record row (C : Type) : Type := mkrow {
  r_count : Z; r_reg : C; r_dms : Z; r_relin : Z; r_grid : Z }.
Arguments mkrow {C} _ _ _ _ _.
Arguments r_count {C} _.
Arguments r_reg {C} _.
Arguments r_dms {C} _.
Arguments r_relin {C} _.
Arguments r_grid {C} _.

(* v[a:b] = x on a 1-D array (Python slice clipping) *)
Definition set_range {X} (v : list X) (a b : Z) (x : X) : list X :=
  let n := Z.of_nat (length v) in
  let a' := slice_bound n a in
  let b' := slice_bound n b in
  map (fun '(k, y) => if (a' <=? k) && (k <? b') then x else y) (combine (zrange n) v).

(* digits of str(n), most significant first; int('-') raises ValueError for negative n.
   The recursion is on a fuel that is always sufficient. *)
Fixpoint digits_aux (fuel : nat) (n : Z) (acc : list Z) : list Z :=
  match fuel with
  | O => acc
  | S f => if n <? 10 then n :: acc else digits_aux f (n / 10) (n mod 10 :: acc)
  end.
Definition str_digits (n : Z) : res (list Z) :=
  if n <? 0 then Raise ValueError else Ok (digits_aux (S (Z.to_nat (Z.log2 n))) n []).

Record sched (C : Type) : Type := mksched {
  s_Nitr : Z; s_relin : list Z; s_grid : list Z; s_reg : list C; s_dms : list (list Z) }.
Arguments mksched {C} _ _ _ _ _.
Arguments s_Nitr {C} _.
Arguments s_relin {C} _.
Arguments s_grid {C} _.
Arguments s_reg {C} _.
Arguments s_dms {C} _.

(* loop state: iterCount, relinItrVec, gridSearchItrVec, log10regSched, dmIndList *)
Definition sg_state (C : Type) : Type := (Z * list Z * list Z * list C * list Z)%type.

(* falco/ctrl.py:769-787, body of the loop over rows *)
Definition sg_row {C} (st : sg_state C) (r : row C) : sg_state C :=
  let '(it, relin, grid, reg, dms) := st in
  let relin' := if r_relin r =? 1 then relin ++ [it] else relin in
  let grid' := if r_grid r =? 1 then grid ++ [it] else grid in
  let d := r_count r in
  let '(reg', dms') :=
    if negb (d =? 0)
    then (set_range reg it (it + d) (r_reg r), set_range dms it (it + d) (r_dms r))
    else (reg, dms) in
  (it + r_count r, relin', grid', reg', dms').

Fixpoint map_res {X Y} (f : X -> res Y) (l : list X) : res (list Y) :=
  match l with
  | [] => Ok []
  | x :: t => do y <- f x; do ys <- map_res f t; Ok (y :: ys)
  end.

(* falco/ctrl.py:721-800; czero is numpy's 0j; np.zeros of a negative size raises ValueError *)
Definition efc_schedule_generator {C} (czero : C) (rows : list (row C)) : res (sched C) :=
  let Nitr := fold_left (fun s r => s + r_count r) rows 0 in
  if Nitr <? 0 then Raise ValueError else
  let st0 := (0, [], [], repeat czero (Z.to_nat Nitr), repeat 0 (Z.to_nat Nitr)) in
  let '(_, relin, grid, reg, dms) := fold_left sg_row rows st0 in
  do ds <- map_res str_digits dms;
  Ok (mksched Nitr relin grid reg ds).

(* ------------------------------------------------------------------ *)
(** * argmin and grid search, falco/ctrl.py:291-420 *)

(* index and value of the first minimum, scanning left to right (np.argmin without NaN) *)
Fixpoint argmin_from (best : nat) (bv : R) (k : nat) (l : list R) : nat * R :=
  match l with
  | [] => (best, bv)
  | x :: t => if Rlt_dec x bv then argmin_from k x (S k) t else argmin_from best bv (S k) t
  end.
Definition argmin (l : list R) : res (nat * R) :=
  match l with [] => Raise ValueError | x :: t => Ok (argmin_from 0 x 1 t) end.

(* falco/ctrl.py:308, 440, 576: [(x, y) for y in dmfacVec for x in log10regVec] *)
Definition vals_list (regs facs : list R) : list (R * R) :=
  flat_map (fun y => map (fun x => (x, y)) regs) facs.

Section Search.
  Variable cmd : Type.                 (* delta DM commands of all DMs in use *)
  Variable img : Type.                 (* summed image *)
  Variable zero_img : img.

  (* What the grid search leaves behind: command returned, regularisation used, gain,
     minimum intensity, image stored in cvar.Im *)
  Record gs_out : Type := mkgs {
    gs_cmd : cmd; gs_reg : R; gs_fac : R; gs_min : R; gs_im : img }.

  (* falco/ctrl.py:291-420.  efc ni (reg, fac) is the result of _efc(ni, vals_list, ...):
     mean intensity, command, image; an oracle.  [par] is
     mp.flagParallel and mp.ctrl.flagUseModel: that branch never fills ImCube. *)
  Definition grid_search (efc : nat -> R * R -> R * cmd * img) (par : bool)
      (regs facs : list R) : res gs_out :=
    let vals := vals_list regs facs in
    let outs := map (fun '(ni, v) => efc ni v) (combine (seq 0 (length vals)) vals) in
    let InormVec := map (fun o => fst (fst o)) outs in
    let ImCube := map (fun o => if par then zero_img else snd o) outs in
    do (indBest, cMin) <- argmin InormVec;
    match nth_error outs indBest, nth_error vals indBest, nth_error ImCube indBest with
    | Some o, Some v, Some im => Ok (mkgs (snd (fst o)) (fst v) (snd v) cMin im)
    | _, _, _ => Raise IndexError
    end.

  (** ** planned EFC, falco/ctrl.py:559-718 (identical control flow in _planned_ad_efc,
      falco/ctrl.py:423-556, with _ad_efc as the oracle) *)

  (* persistent controller variables: cvar.latestBestlog10reg, cvar.latestBestDMfac *)
  Record pstate : Type := mkps { p_best : option R; p_fac : option R }.

  (* One scheduled entry: complex log10regSchedIn[Itr] as real and imaginary part, and
     whether Itr is in gridSearchItrVec. *)
  Record pin : Type := mkpin { i_re : R; i_im : R; i_grid : bool }.

  Record pout : Type := mkpout { o_cmd : cmd; o_reg : R; o_min : R; o_im : img }.

  (* grid n v: _efc calls during the grid search; single v: the call of step 3 *)
  Definition planned_efc
      (grid : nat -> R * R -> R * cmd * img) (single : R * R -> R * cmd * img)
      (regs facs : list R) (st : pstate) (i : pin) : res (pstate * pout) :=
    let useBest := if Req_EM_T (i_im i) 0 then false else true in
    let reIsZero := if Req_EM_T (i_re i) 0 then true else false in
    (* step 1 *)
    do (st1, gs) <-
      (if i_grid i then
         do g <- grid_search grid false regs facs;
         Ok (mkps (Some (gs_reg g)) (Some (gs_fac g)), Some g)
       else Ok (st, None));
    match gs, useBest && reIsZero with
    | Some g, true =>
      (* falco/ctrl.py:675-690: reuse the best command of this iteration's grid search *)
      Ok (st1, mkpout (gs_cmd g) (gs_reg g) (gs_min g) (gs_im g))
    | _, _ =>
      (* falco/ctrl.py:691-714: steps 2 and 3 *)
      do r <- (if useBest then
                 match p_best st1 with
                 | Some b => Ok (b + i_re i)%R
                 | None => Raise AttributeError
                 end
               else Ok (i_re i));
      let fac := match p_fac st1 with Some f => f | None => 1%R end in
      let '(m, c, im) := single (r, fac) in
      Ok (mkps (p_best st1) (Some fac), mkpout c r m im)
    end.

  (* A whole run: iteration k uses oracles (grid k) and (single k). *)
  Fixpoint planned_run
      (grid : nat -> nat -> R * R -> R * cmd * img) (single : nat -> R * R -> R * cmd * img)
      (regs facs : list R) (k : nat) (st : pstate) (l : list pin)
    : res (pstate * list pout) :=
    match l with
    | [] => Ok (st, [])
    | i :: t =>
      do (st1, o) <- planned_efc (grid k) (single k) regs facs st i;
      do (st2, os) <- planned_run grid single regs facs (S k) st1 t;
      Ok (st2, o :: os)
    end.
End Search.
Arguments mkgs {cmd img} _ _ _ _ _.
Arguments gs_cmd {cmd img} _.
Arguments gs_reg {cmd img} _.
Arguments gs_fac {cmd img} _.
Arguments gs_min {cmd img} _.
Arguments gs_im {cmd img} _.
Arguments mkpout {cmd img} _ _ _ _.
Arguments o_cmd {cmd img} _.
Arguments o_reg {cmd img} _.
Arguments o_min {cmd img} _.
Arguments o_im {cmd img} _.
