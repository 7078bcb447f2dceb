(* Model of falco/est.py: pairwise_probing, gen_pairwise_probe, gen_pairwise_probe_square. *)
From Verif Require Import Base RBase.
Open Scope Z_scope.

(* ------------------------------------------------------------------ *)
(** * Sequence of DM commands, images and model calls (falco/est.py:222-717) *)
Section Probing.
  Variable V : Type.                         (* DM command map *)
  Variable vadd : V -> V -> V.               (* array addition *)
  Variables zero1 zero2 : V.                 (* np.zeros((Nact, Nact)) of DM1, DM2 *)
  Variable Img : Type.                       (* image *)

  (* one exposure, or one call of the compact model, with the commands in force *)
  Inductive shot : Type :=
  | Exposure (sb : nat) (v1 v2 : V)
  | ModelCall (star sb : nat) (v1 v2 : V).

  (* mp.dm_ind (contents, and whether it is a Python list rather than an ndarray), mp.dm1.V, mp.dm2.V, and
     what has been done so far *)
  Record pst : Type := mkpst { p_ind : list Z; p_islist : bool; p_v1 : V; p_v2 : V; p_log : list shot }.

  (* effects keep their state changes when an exception is raised *)
  Definition M (A : Type) : Type := pst -> pst * res A.
  Definition mret {A} (a : A) : M A := fun s => (s, Ok a).
  Definition mraise {A} (e : exn) : M A := fun s => (s, Raise e).
  Definition mbind {A B} (m : M A) (f : A -> M B) : M B :=
    fun s => match m s with (s', Ok a) => f a s' | (s', Raise e) => (s', Raise e) end.
  Definition mget : M pst := fun s => (s, Ok s).
  Definition mput (s : pst) : M unit := fun _ => (s, Ok tt).
  Definition set_v1 (v : V) : M unit := fun s => (mkpst (p_ind s) (p_islist s) v (p_v2 s) (p_log s), Ok tt).
  Definition set_v2 (v : V) : M unit := fun s => (mkpst (p_ind s) (p_islist s) (p_v1 s) v (p_log s), Ok tt).
  Definition set_ind (l : list Z) (b : bool) : M unit := fun s => (mkpst l b (p_v1 s) (p_v2 s) (p_log s), Ok tt).
  (* np.any(mp.dm_ind == k): comparing a list with an int is False *)
  Definition sees (s : pst) (k : Z) : bool := if p_islist s then false else existsb (Z.eqb k) (p_ind s).
  Definition when_dm (k : Z) (m : M unit) : M unit := fun s => if sees s k then m s else (s, Ok tt).
  Fixpoint mfor {B} (l : list nat) (f : nat -> M B) : M (list B) :=
    match l with
    | [] => mret []
    | x :: t => mbind (f x) (fun b => mbind (mfor t f) (fun r => mret (b :: r)))
    end.

  (* get_sbp_image: any image-valued function of when it is taken and of the commands (noise included) *)
  Variable image : nat -> nat -> V -> V -> Img.
  Definition expose (sb : nat) : M Img :=
    fun s => (mkpst (p_ind s) (p_islist s) (p_v1 s) (p_v2 s) (p_log s ++ [Exposure sb (p_v1 s) (p_v2 s)]),
              Ok (image (length (p_log s)) sb (p_v1 s) (p_v2 s))).
  Definition model_call (star sb : nat) : M unit :=
    fun s => (mkpst (p_ind s) (p_islist s) (p_v1 s) (p_v2 s) (p_log s ++ [ModelCall star sb (p_v1 s) (p_v2 s)]), Ok tt).

  (* gen_pairwise_probe or gen_pairwise_probe_square for the given star and probe number, the probe intensity being
     a function of the unprobed image (falco/est.py:419-445) *)
  Variable gen : nat -> Img -> nat -> res V.
  Variables (which : Z) (Npairs Nsbp stars : nat) (scheduled : bool).
  Variables (Nact1 Nact2 : Z).               (* actuators across DM1, DM2; at least 2 *)

  Definition lift {A} (r : res A) : M A := fun s => (s, r).
  Notation "'mdo' x <- a ; b" := (mbind a (fun x => b)) (at level 200, x pattern, a at level 100, b at level 200, right associativity).

  (* falco/est.py:432-500: one probe.  dDM1Vprobe, dDM2Vprobe: the probe on the chosen DM, scalar 0 on the other. *)
  Definition probe_one (nom1 nom2 : V) (star sb : nat) (I0 : Img) (iProbe : nat) : M V :=
    mdo cmd <- lift (gen star I0 iProbe);
    mdo _ <- when_dm 1 (set_v1 (if which =? 1 then vadd nom1 cmd else nom1));
    mdo _ <- when_dm 2 (set_v2 (if which =? 2 then vadd nom2 cmd else nom2));
    mdo _ <- expose sb;
    mret (vadd (if which =? 1 then nom1 else nom2) cmd).          (* entry of DM?Vplus / DM?Vminus *)

  (* falco/est.py:545-575, flagUseJac = False: the model calls.  cmds: commands of the probed exposures, in order. *)
  Definition set_which (v : V) : M unit := if which =? 1 then set_v1 v else set_v2 v.
  Definition model_pair (star sb : nat) (cmds : list V) (k : nat) : M unit :=
    mdo _ <- match nth_error cmds (2 * k) with Some v => set_which v | None => mraise IndexError end;
    mdo _ <- model_call star sb;
    mdo _ <- match nth_error cmds (2 * k + 1) with Some v => set_which v | None => mraise IndexError end;
    model_call star sb.

  (* falco/est.py:370-676: body of the loops over stars and sub-bands *)
  Definition subband (nom1 nom2 : V) (star sb : nat) : M unit :=
    mdo _ <- set_v1 nom1;
    mdo _ <- set_v2 nom2;
    mdo I0 <- expose sb;
    mdo cmds <- mfor (seq 0 (2 * Npairs)) (probe_one nom1 nom2 star sb I0);
    mdo _ <- (if (which =? 2) && negb (Nact1 =? Nact2) && negb (Nat.eqb Npairs 0)
              then mraise ValueError else mret tt);            (* lines 518-520: DM1Vplus[:, :, ii] - DM1Vnom *)
    mdo _ <- when_dm 1 (set_v1 nom1);
    mdo _ <- when_dm 2 (set_v2 nom2);
    mdo _ <- model_call star sb;
    mdo _ <- mfor (seq 0 Npairs) (model_pair star sb cmds);
    mret tt.

  (* falco/est.py:222-717 (flagUseJac = False).  scheduled: some entry of mp.est.probeSchedule is not None; then
     check.oneD_array is called with one argument instead of three (lines 252, 259, 266, 273). *)
  Definition pairwise_probing : M unit :=
    if scheduled then mraise TypeError else
    mdo s0 <- mget;
    let ind_init := p_ind s0 in
    mdo _ <- set_ind ind_init true;                                 (* mp.dm_ind = list(mp.dm_ind) *)
    mdo s1 <- mget;
    mdo _ <- (if (which =? 1) && negb (sees s1 1) then set_ind (ind_init ++ [1]) false
              else if (which =? 2) && negb (sees s1 2) then set_ind (ind_init ++ [2]) false
              else mret tt);
    if negb ((which =? 1) || (which =? 2)) then mraise ValueError else
    mdo s2 <- mget;
    let nom1 := if sees s2 1 then p_v1 s2 else zero1 in
    let nom2 := if sees s2 2 then p_v2 s2 else zero2 in
    mdo _ <- mfor (seq 0 stars) (fun star => mfor (seq 0 Nsbp) (subband nom1 nom2 star));
    if (Nat.eqb stars 0 || Nat.eqb Nsbp 0)%bool then mraise NameError      (* ampSq unbound, line 679 *)
    else
    mdo _ <- when_dm 1 (set_v1 nom1);
    mdo _ <- when_dm 2 (set_v2 nom2);
    set_ind ind_init false.
End Probing.
Arguments Exposure {V} _ _ _.
Arguments ModelCall {V} _ _ _ _.
Arguments mkpst {V} _ _ _ _ _.
Arguments p_ind {V} _.
Arguments p_islist {V} _.
Arguments p_v1 {V} _.
Arguments p_v2 {V} _.
Arguments p_log {V} _.

Open Scope R_scope.
(* ------------------------------------------------------------------ *)
(** * Probe phases and shapes *)

(* falco/est.py:322-325, before the scaling by pi/Npairs (line 327) *)
Fixpoint phase_loop (n : nat) (Npairs : Z) (l : list Z) : list Z :=
  match n with
  | O => l
  | S m => let l1 := (l ++ [last l 0%Z - (Npairs - 1)])%list%Z in
           let l2 := (l1 ++ [last l1 0%Z + Npairs])%list%Z in
           phase_loop m Npairs l2
  end.
Definition probePhase (Npairs : nat) (i : nat) : R :=
  IZR (nth i (phase_loop (Npairs - 1) (Z.of_nat Npairs) [0%Z; Z.of_nat Npairs]) 0%Z) * PI / INR Npairs.

(* falco/est.py:333-361: badAxisVec[i] for the i-th probe; mp.est.probe.axis is one of the three kinds below ('m'
   excluded, see square_height).  true: 'y', false: 'x'. *)
Inductive axis_opt : Type := AxX | AxY | AxAlt.
Definition bad_axis_y (o : axis_opt) (Itr : Z) (i : nat) : bool :=
  match o with
  | AxX => false
  | AxY => true
  | AxAlt => let r := ((Z.of_nat i + 1) mod 4)%Z in
             if (Itr mod 2 =? 0)%Z then negb ((r =? 1) || (r =? 2))%Z else ((r =? 1) || (r =? 2))%Z
  end.

(* np.sinc *)
Definition sinc (x : R) : R := if Req_EM_T x 0 then 1 else sin (PI * x) / (PI * x).
(* np.arctan2 *)
Definition atan2 (y x : R) : R :=
  if Rlt_dec 0 x then atan (y / x)
  else if Rlt_dec x 0 then (if Rle_dec 0 y then atan (y / x) + PI else atan (y / x) - PI)
  else if Rlt_dec 0 y then PI / 2
  else if Rlt_dec y 0 then - (PI / 2)
  else 0.

(* falco/est.py:755-758 / 846-849: normalised actuator coordinate j of N, offset rounded half to even *)
Definition act_coord (Nact : Z) (offset : R) (j : Z) : R :=
  (- ((IZR Nact - 1) / 2) + IZR j) / IZR Nact - IZR (ZnearestE offset) / IZR Nact.
(* falco/est.py:762-767 / 853-858: rotated coordinates of a point (np.radians(rotation) = rotation*pi/180);
   10*np.finfo(float).eps *)
Definition rot_eps : R := 10 * / 2 ^ 52.
Definition rotate (rotation x y : R) : R * R :=
  if Rlt_dec rot_eps (Rabs rotation) then
    let r := sqrt (x * x + y * y) in
    let t := atan2 y x in
    (r * cos (t - rotation * PI / 180), r * sin (t - rotation * PI / 180))
  else (x, y).

(* falco/est.py:774-799: height of the square probe at (already rotated) coordinates, axis 'x' or 'y'; radius is
   restricted to Nact/2 (lines 770-771).  The axis 'm' (omegaX(i) calls an array) raises TypeError and is left out. *)
Definition square_height (lambda0 Inorm radius : R) (Nact : Z) (axis_y : bool) (psi X Y : R) : R :=
  let r := if Rlt_dec (IZR Nact / 2) radius then IZR Nact / 2 else radius in
  let magn := 4 * PI * lambda0 * sqrt Inorm in
  if Req_EM_T psi 0 then magn * sinc (2 * r * X) * sinc (2 * r * Y)
  else if axis_y then magn * sinc (r * X) * sinc (2 * r * Y) * cos (2 * PI * (r / 2) * X + psi)
  else magn * sinc (2 * r * X) * sinc (r * Y) * cos (2 * PI * (r / 2) * Y + psi).
(* falco/est.py:861-874: height of the rectangular probe *)
Definition rect_height (lambda0 Inorm xi eta width height : R) (phase X Y : R) : R :=
  4 * PI * lambda0 * sqrt Inorm * sinc (width * X) * sinc (height * Y) *
  cos (2 * PI * (xi * X + eta * Y) + phase).

Section Gen.
  (* fit_surf_to_act for the probing DM: command of each actuator for a target height map *)
  Variable fit : (Z -> Z -> R) -> (Z -> Z -> R).
  Variables (Nact : Z) (lambda0 xOffset yOffset rotation gain : R).
  (* the height map: XS varies along columns, YS along rows (np.meshgrid) *)
  Definition height_map (h : R -> R -> R) : Z -> Z -> R :=
    fun i j => let '(X, Y) := rotate rotation (act_coord Nact xOffset j) (act_coord Nact yOffset i) in h X Y.
  (* falco/est.py:720-806, gainFudge of length 1 *)
  Definition gen_square (Inorm radius : R) (axis_y : bool) (psi : R) : Z -> Z -> R :=
    fun i j => gain * fit (height_map (square_height lambda0 Inorm radius Nact axis_y psi)) i j.
  (* falco/est.py:809-878; D = mp.P2.D, spacing = dm.dm_spacing.  The ValueError for a probe centred on the star is
     the first line of the function. *)
  Definition gen_rect (Inorm D spacing xi eta width height phase : R) : res (Z -> Z -> R) :=
    if Req_EM_T xi 0 then if Req_EM_T eta 0 then Raise ValueError else
      let k := IZR Nact / (D / spacing) in
      Ok (fun i j => gain * fit (height_map (rect_height lambda0 Inorm (xi * k) (eta * k) (width * k) (height * k) phase)) i j)
    else
      let k := IZR Nact / (D / spacing) in
      Ok (fun i j => gain * fit (height_map (rect_height lambda0 Inorm (xi * k) (eta * k) (width * k) (height * k) phase)) i j).
End Gen.

(* ------------------------------------------------------------------ *)
(** * Batch estimate at one pixel (falco/est.py:503-507, 580-676) *)

(* one probe pair at one pixel: measured Iplus, Iminus, and the phase of the probe field from the model *)
Record pairm : Type := mkpair { m_plus : R; m_minus : R; m_phase : R }.
(* falco/est.py:503-505 *)
Definition ampSq (I0 : R) (p : pairm) : R :=
  let a := (m_plus p + m_minus p) / 2 - I0 in if Rlt_dec a 0 then 0 else a.
Definition amp (I0 : R) (p : pairm) : R := sqrt (ampSq I0 p).
(* falco/est.py:507 *)
Definition zmeas (p : pairm) : R := (m_plus p - m_minus p) / 4.
(* falco/est.py:580-584: phase of dEplus - dEminus *)
Definition model_phase (dEp dEm : R * R) : R := atan2 (snd dEp - snd dEm) (fst dEp - fst dEm).
(* falco/est.py:619-621: a row of H *)
Definition hrow (I0 : R) (p : pairm) : R * R := (amp I0 p * cos (m_phase p), amp I0 p * sin (m_phase p)).

(* np.linalg.pinv(H) @ z for H with two columns, written out: inverse of the normal matrix when it is regular,
   H^T/||H||^2 when the rank is one, 0 when H = 0.  (numpy's relative cut-off 1e-15 on singular values is not
   modelled.)  Data: list of (row of H, entry of z). *)
Definition sum2 (f : (R * R) * R -> R) (l : list ((R * R) * R)) : R := rsuml (map f l).
Definition pinv_apply (l : list ((R * R) * R)) : R * R :=
  let a := sum2 (fun '((h1, h2), z) => h1 * h1) l in
  let b := sum2 (fun '((h1, h2), z) => h1 * h2) l in
  let c := sum2 (fun '((h1, h2), z) => h2 * h2) l in
  let p := sum2 (fun '((h1, h2), z) => h1 * z) l in
  let q := sum2 (fun '((h1, h2), z) => h2 * z) l in
  let det := a * c - b * b in
  if Req_EM_T det 0 then
    if Req_EM_T (a + c) 0 then (0, 0) else (p / (a + c), q / (a + c))
  else ((c * p - b * q) / det, (a * q - b * p) / det).

(* falco/est.py:605-623: pairs with positive amplitude; fewer than two give 0 *)
Definition good (I0 : R) (p : pairm) : bool := if Rlt_dec 0 (amp I0 p) then true else false.
Definition Epix (I0 : R) (pairs : list pairm) : R * R :=
  let g := filter (good I0) pairs in
  if Nat.ltb (length g) 2 then (0, 0)
  else pinv_apply (map (fun p => (hrow I0 p, zmeas p)) g).
(* falco/est.py:639: estimates brighter than Ithreshold are zeroed *)
Definition Eest (Ithreshold I0 : R) (pairs : list pairm) : R * R :=
  let '(x, y) := Epix I0 pairs in
  if Rlt_dec Ithreshold (x * x + y * y) then (0, 0) else (x, y).
(* falco/est.py:676 *)
Definition IincoEst (Ithreshold I0 : R) (pairs : list pairm) : R :=
  let '(x, y) := Eest Ithreshold I0 pairs in I0 - (x * x + y * y).
