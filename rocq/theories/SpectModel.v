(* Model of falco/setup.py: falco_set_spectral_properties and falco_set_jacobian_modal_weights, over the
   reals (floating-point rounding of the arithmetic is not modelled; np.round is). *)
From Verif Require Import Base RBase JacModel.
Open Scope R_scope.

(* np.linspace(a, b, N)[i] *)
Definition linspace (a b : R) (N i : nat) : R :=
  if Nat.eqb N 1 then a else a + INR i * ((b - a) / INR (N - 1)).
(* np.ones(n) with entries 0 and -1 set to 1/2 *)
Definition ends_half (n i : nat) : R := if (Nat.eqb i 0 || Nat.eqb i (n - 1))%bool then 1/2 else 1.
(* v / np.sum(v) *)
Definition normalised (n : nat) (v : nat -> R) (i : nat) : R := v i / rsum n v.

Section Spect.
  Variables (Nsbp Nw : nat) (flagSim : bool) (lambda0 fracBW : R).   (* mp.Nsbp, mp.Nwpsbp, ... *)

  (* falco/setup.py:487-494: raw sub-band weights *)
  Definition sbp_raw (i : nat) : R :=
    if (Nat.eqb Nw 1 && flagSim && negb (Nat.eqb Nsbp 1))%bool then ends_half Nsbp i else 1.
  (* falco/setup.py:488-501: sub-band centres *)
  Definition sbp_center (i : nat) : R :=
    if (Nat.eqb Nw 1 && flagSim)%bool then
      if Nat.eqb Nsbp 1 then lambda0 else lambda0 * linspace (1 - fracBW / 2) (1 + fracBW / 2) Nsbp i
    else
      let c2c := fracBW * (1 - 1 / INR Nsbp) in
      lambda0 * linspace (1 - c2c / 2) (1 + c2c / 2) Nsbp i.
  (* falco/setup.py:503 *)
  Definition sbp_weight : nat -> R := normalised Nsbp sbp_raw.
  (* falco/setup.py:516-528 *)
  Definition lam_raw (i : nat) : R := if Nat.eqb Nw 1 then 1 else ends_half Nw i.
  Definition dlam : R :=
    if Nat.eqb Nw 1 then 0 else
      let bw := fracBW / INR Nsbp in
      (linspace (1 - bw / 2) (1 + bw / 2) Nw 1 - linspace (1 - bw / 2) (1 + bw / 2) Nw 0) * lambda0.
  Definition lam_weight : nat -> R := normalised Nw lam_raw.
  (* falco/setup.py:536-541.  np.arange(-(Nw-1)/2, (Nw+1)/2) is -(Nw-1)/2 + wi, wi < Nw *)
  Definition lambdasMat (si wi : nat) : R :=
    if Nat.eqb Nw 1 then sbp_center si
    else (- ((INR Nw - 1) / 2) + INR wi) * dlam + sbp_center si.
  (* falco/setup.py:543-547: the flat lists, entry si*Nw + wi *)
  Definition lambdas (k : nat) : R := lambdasMat (k / Nw) (k mod Nw).
  Definition lambda_weights_all0 (k : nat) : R := sbp_weight (k / Nw) * lam_weight (k mod Nw).
  Definition Nlam : nat := (Nsbp * Nw)%nat.
  Definition indsLambdaMat (k : nat) : nat * nat := (k / Nw, k mod Nw)%nat.
End Spect.

(* np.unique(keys, return_index=True): sorted distinct values, and the first index of each *)
Fixpoint adjacent_uniq (l : list Z) : list Z :=
  match l with
  | [] => []
  | x :: t => match t with y :: _ => if (x =? y)%Z then adjacent_uniq t else x :: adjacent_uniq t | [] => [x] end
  end.
Fixpoint first_index (x : Z) (l : list Z) : nat :=
  match l with [] => 0 | y :: t => if (y =? x)%Z then 0 else S (first_index x t) end.
Definition np_unique_index (keys : list Z) : list nat :=
  map (fun k => first_index k keys) (adjacent_uniq (isort keys)).

(* falco/setup.py:550: key of a wavelength, in picometres *)
Definition pm_key (x : R) : Z := ZnearestE (10 ^ 12 * x).
Definition inds_unique (n : nat) (lam : nat -> R) : list nat := np_unique_index (map (fun k => pm_key (lam k)) (seq 0 n)).
(* falco/setup.py:552, np.setdiff1d(np.arange(n), inds_unique) *)
Definition duplicate_inds (n : nat) (u : list nat) : list nat :=
  filter (fun k => negb (existsb (Nat.eqb k) u)) (seq 0 n).
Definition Rleb (x y : R) : bool := if Rle_dec x y then true else false.
(* falco/setup.py:558-562: one pass of the loop over duplicates *)
Definition merge_dup (lam w : nat -> R) (u : list nat) (acc : list R) (d : nat) : list R :=
  map (fun '(j, x) => if Rleb (Rabs (lam j - lam d)) (/ 10 ^ 11) then x + w d else x) (combine u acc).
(* falco/setup.py:555-563: mp.full.lambda_weights_all; mp.full.lambdas is map lam u *)
Definition merged_weights (n : nat) (lam w : nat -> R) : list R :=
  let u := inds_unique n lam in
  fold_left (merge_dup lam w u) (duplicate_inds n u) (map w u).

(* ---- modal weights ---- *)
(* x / y in floating point for x = 0 = y: nan, written None; nan > 0 is False and 0*nan is nan *)
Definition fdiv (x y : R) : option R := if Req_EM_T y 0 then None else Some (x / y).
Definition positive (x : option R) : bool := match x with Some r => if Rlt_dec 0 r then true else false | None => false end.

Record jmodes : Type := mkjm {
  jm_weightMat : nat -> nat -> option R;       (* [sub-band, Zernike] *)
  jm_inds : list (nat * nat);                  (* weightMatInd: (sub-band, Zernike column) *)
  jm_perStar : nat; jm_Nmode : nat;
  jm_weights : list (option R); jm_sbp : list nat; jm_zern : list Z; jm_star : list nat;
  jm_Zcoef : list R }.

Section Modal.
  (* list(set(zerns)): Python's iteration order of a set *)
  Variable set_list : list Z -> list Z.
  Variables (Nsbp stars : nat) (perfect : bool).   (* mp.compact.star.count; estimator == 'perfect' *)

  Definition si_ref : nat := (Nsbp / 2)%nat.                     (* falco/setup.py:484 *)
  Definition m_set (m : nat -> nat -> R) (i j : nat) (x : R) : nat -> nat -> R :=
    fun a b => if (Nat.eqb a i && Nat.eqb b j)%bool then x else m a b.
  (* falco/setup.py:601-609, one Zernike mode *)
  Definition mat_step (m : nat -> nat -> R) (iz : nat) (z : Z) : nat -> nat -> R :=
    if (z =? 1)%Z then fun a b => if Nat.eqb b 0 then 1 else m a b
    else m_set (m_set (m_set m 0 iz 1) si_ref iz 1) (Nsbp - 1) iz 1.
  Fixpoint mat_loop (m : nat -> nat -> R) (iz : nat) (zerns : list Z) : nat -> nat -> R :=
    match zerns with [] => m | z :: t => mat_loop (mat_step m iz z) (S iz) t end.
  (* falco/setup.py:614-616 *)
  Definition half_row (i : nat) (m : nat -> nat -> R) : nat -> nat -> R :=
    fun a b => if Nat.eqb a i then 1/2 * m a b else m a b.
  Definition raw_mat (zerns : list Z) : nat -> nat -> R :=
    let m := mat_loop (fun _ _ => 0) 0 zerns in
    if perfect then half_row (Nsbp - 1) (half_row 0 m) else m.
  (* falco/setup.py:618-626 *)
  Definition final_mat (zerns : list Z) (Zcoef : list R) : nat -> nat -> option R :=
    fun a b =>
      let x := fdiv (raw_mat zerns a b) (rsum Nsbp (fun i => raw_mat zerns i b)) in
      if Req_EM_T (nth b Zcoef 0) 0 then option_map (fun r => 0 * r) x else x.
  (* np.nonzero(weightMat > 0): row-major *)
  Definition mode_inds (nz : nat) (m : nat -> nat -> option R) : list (nat * nat) :=
    filter (fun '(a, b) => positive (m a b)) (list_prod (seq 0 Nsbp) (seq 0 nz)).
  (* np.tile(v, n) *)
  Definition tile {X} (n : nat) (v : list X) : list X := concat (repeat v n).
  (* Zcoef[zerns == 1] = 1 *)
  Definition reset_piston (zerns : list Z) (Zcoef : list R) : res (list R) :=
    if Nat.eqb (length zerns) (length Zcoef) then Ok (map (fun '(z, c) => if (z =? 1)%Z then 1 else c) (combine zerns Zcoef))
    else Raise IndexError.
  Definition list_eqb (a b : list Z) : bool := if list_eq_dec Z.eq_dec a b then true else false.

  (* falco/setup.py:567-654 (the type check of mp is not modelled) *)
  Definition set_jacobian_modal_weights (zerns : list Z) (Zcoef : list R) : res jmodes :=
    if negb (existsb (Z.eqb 1) zerns) then Raise ValueError
    else if negb (list_eqb zerns (set_list zerns)) then Raise ValueError
    else
      do zc <- reset_piston zerns Zcoef;
      let m := final_mat zerns zc in
      let inds := mode_inds (length zerns) m in
      let per := length inds in
      Ok (mkjm m inds per (stars * per)
            (tile stars (map (fun '(a, b) => m a b) inds))
            (tile stars (map fst inds))
            (tile stars (map (fun '(_, b) => nth b zerns 0%Z) inds))
            (concat (map (fun s => repeat s per) (seq 0 stars)))
            zc).
End Modal.

(* list(set(l)) for at most four small non-negative integers whose residues modulo 8 differ: CPython
   keeps them in a table of 8 slots at their hash (the integer itself) modulo 8 and iterates by slot. *)
Definition cpython_set8 (l : list Z) : list Z :=
  flat_map (fun s => filter (fun z => (z mod 8 =? s)%Z) (nodup Z.eq_dec l)) [0; 1; 2; 3; 4; 5; 6; 7]%Z.
(* columns of out.normIntModCorr and the like: falco/setup.py:1480-1483 *)
Definition norm_int_columns (Nsbp stars : nat) : nat := (Nsbp * stars)%nat.
