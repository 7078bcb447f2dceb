(* Property theorems C14, C16, C17 about falco/ctrl.py. *)
From Coq Require Import Lra.
From Verif Require Import Base RBase SchedModel SchedSpec SchedProofs.
Open Scope Z_scope.

(* ---------------- C14 ---------------- *)
Theorem C14_schedule_expands : forall (C : Type) (czero : C) (rows : list (row C)),
  nonneg_rows rows ->
  Forall (fun r => 0 < r_count r -> 0 <= r_dms r) rows ->
  exists s, efc_schedule_generator czero rows = Ok s /\
    s_Nitr s = Z.of_nat (length (expand rows)) /\
    s_reg s = map r_reg (expand rows) /\
    Forall2 (fun ds r => decimal ds (r_dms r)) (s_dms s) (expand rows) /\
    (forall i, In i (s_relin s) <-> starts_flagged r_relin rows i) /\
    (forall i, In i (s_grid s) <-> starts_flagged r_grid rows i).
Proof. exact @schedule_spec. Qed.
Print Assumptions C14_schedule_expands.

(* the example schedule of the docstring style: relinearise only (0 iterations), then 2 + 1 *)
Example C14_ex :
  efc_schedule_generator 0 [mkrow 0 0 0 1 0; mkrow 2 7 12 0 1; mkrow 1 (-3) 129 1 1]
  = Ok (mksched 3 [0; 2] [0; 2] [7; 7; -3] [[1; 2]; [1; 2]; [1; 2; 9]]).
Proof. vm_compute. reflexivity. Qed.
Example C14_ex_hyps : let rows := [mkrow 0 0 0 1 0; mkrow 2 7 12 0 1; mkrow 1 (-3) 129 1 1] in
  nonneg_rows rows /\ Forall (fun r => 0 < r_count r -> 0 <= r_dms r) rows.
Proof. cbn. split; repeat constructor; cbn; lia. Qed.

(* ---------------- C16 ---------------- *)
Theorem C16_grid_search_applies_best : forall (cmd img : Type) (zero_img : img)
    (efc : nat -> R * R -> R * cmd * img) (par : bool) (regs facs : list R),
  regs <> [] -> facs <> [] ->
  exists g k v o, grid_search cmd img zero_img efc par regs facs = Ok g /\
    evaluation cmd img efc regs facs k v o /\
    gs_cmd g = snd (fst o) /\ gs_reg g = fst v /\ gs_fac g = snd v /\ gs_min g = fst (fst o) /\
    gs_im g = (if par then zero_img else snd o) /\
    (forall j v' o', evaluation cmd img efc regs facs j v' o' ->
       (gs_min g <= fst (fst o'))%R /\ ((j < k)%nat -> (gs_min g < fst (fst o'))%R)).
Proof. exact (@grid_search_spec). Qed.
Print Assumptions C16_grid_search_applies_best.

Theorem C16_every_pair_is_tried : forall (cmd img : Type)
    (efc : nat -> R * R -> R * cmd * img) (regs facs : list R) (x y : R),
  In x regs -> In y facs -> exists j o, evaluation cmd img efc regs facs j (x, y) o.
Proof. exact (@every_pair_evaluated). Qed.
Print Assumptions C16_every_pair_is_tried.

Theorem C16_empty_grid_rejected : forall (cmd img : Type) (zero_img : img)
    (efc : nat -> R * R -> R * cmd * img) (par : bool) (regs facs : list R),
  regs = [] \/ facs = [] -> grid_search cmd img zero_img efc par regs facs = Raise ValueError.
Proof. exact (@grid_search_empty). Qed.
Print Assumptions C16_empty_grid_rejected.

(* the image reported by the parallel branch is not the image of the chosen command *)
Theorem C16_parallel_image_refuted :
  exists (efc : nat -> R * R -> R * Z * Z) regs facs g,
    grid_search Z Z 0 efc true regs facs = Ok g /\
    (forall j v o, evaluation Z Z efc regs facs j v o -> gs_im g <> snd o).
Proof.
  exists (fun _ _ => (1%R, 2, 3)), [1%R], [1%R].
  eexists. split; [cbn; reflexivity|].
  intros j v o [_ ->]. cbn. discriminate.
Qed.
Print Assumptions C16_parallel_image_refuted.

(* ---------------- C17 ---------------- *)
(* planned_run starts with no remembered result; grid k / single k: the model evaluations made at
   iteration k *)
Theorem C17_planned_follows_schedule : forall (cmd img : Type) (zero_img : img)
    (grid : nat -> nat -> R * R -> R * cmd * img) (single : nat -> R * R -> R * cmd * img)
    (regs facs : list R) (l : list pin),
  regs <> [] -> facs <> [] ->
  (forall k i, nth_error l k = Some i -> i_im i <> 0%R -> exists j, last_grid l k j) ->
  exists st' os, planned_run cmd img zero_img grid single regs facs 0 (mkps None None) l = Ok (st', os) /\
    length os = length l /\
    forall k i o, nth_error l k = Some i -> nth_error os k = Some o ->
      (forall j g, last_grid l k j -> grid_search cmd img zero_img (grid j) false regs facs = Ok g ->
         planned_as_scheduled cmd img (grid k) (single k) regs facs (Some (gs_reg g, gs_fac g)) i o) /\
      ((forall j, ~ last_grid l k j) ->
         planned_as_scheduled cmd img (grid k) (single k) regs facs None i o).
Proof. exact (@planned_run_spec). Qed.
Print Assumptions C17_planned_follows_schedule.

(* a relative entry before any grid search is an error, not a silent default *)
Theorem C17_relative_entry_needs_grid_search : forall (cmd img : Type) (zero_img : img)
    (grid : nat -> nat -> R * R -> R * cmd * img) (single : nat -> R * R -> R * cmd * img)
    (regs facs : list R) (l : list pin) k i,
  regs <> [] -> facs <> [] ->
  nth_error l k = Some i -> i_im i <> 0%R ->
  (forall m i', (m <= k)%nat -> nth_error l m = Some i' -> i_grid i' = false) ->
  planned_run cmd img zero_img grid single regs facs 0 (mkps None None) l = Raise AttributeError.
Proof. exact (@planned_run_fails). Qed.
Print Assumptions C17_relative_entry_needs_grid_search.

Example C17_ex_hyps : let l := [mkpin (-2) 0 true; mkpin (-1) 1 false] in
  forall k i, nth_error l k = Some i -> i_im i <> 0%R -> exists j, last_grid l k j.
Proof.
  intros l [|[|[|k]]] i Hk Hi; cbn in Hk; try discriminate; injection Hk as <-; cbn in Hi; try lra.
  exists 0%nat. split; [lia|]. split; [eexists; split; reflexivity|].
  intros [|[|m]] i' Hm Hi'; try lia. cbn in Hi'. injection Hi' as <-. reflexivity.
Qed.
