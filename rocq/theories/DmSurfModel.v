(* Model of falco/dm.py: quantisation, gain maps, influence-function superposition, rotation
   matrices, postage-stamp geometry, least-squares surface fit.  Real numbers stand for floats. *)
From Verif Require Import StrBase Base RBase CtrlModel UtilModel.
Open Scope Z_scope.

(* falco/dm.py:147-199 (rounding of one step count): np.round is round-half-to-even.
   [None] stands for a non-string argument. *)
Definition round_steps (method : option string) : res (R -> Z) :=
  match method with
  | None => Raise TypeError
  | Some m =>
    if contains "round" (lower m) then Ok ZnearestE
    else if contains "floor" (lower m) then Ok Zfloor
    else if contains "ceil" (lower m) then Ok Zceil
    else if contains "fix" (lower m) then Ok Ztrunc
    else Raise ValueError
  end.

Open Scope R_scope.
(* falco/dm.py:147-199: the array dm.Vquantized, element by element.  VtoH = 0 and HminStep = 0
   (nan in numpy) are excluded by hypothesis where it matters. *)
Definition discretize_surf (method : option string) (HminStep : R) (VtoH V : arr R) : res (arr R) :=
  do rnd <- round_steps method;
  Ok (mkarr (nr V) (nc V) (fun i j =>
        let h_cont := px VtoH i j * px V i j in
        let nSteps := h_cont / HminStep in
        IZR (rnd nSteps) * HminStep / px VtoH i j)).

(* falco/dm.py:1554-1602.  The calibration fields that must be present are given as options. *)
Record calib : Type := mkcal {
  p1 : option R; p2 : option R; p3 : option R;
  a0 : option R; a1 : option R; a2 : option R; b1 : option R; b2 : option R; w : option R }.
Definition update_gain_map (fitType : string) (c : calib) (V biasMap VtoH : arr R) : res (arr R) :=
  if str_in (lower fitType) ["linear"; "poly1"]%string then Ok VtoH
  else if str_in (lower fitType) ["quadratic"; "poly2"]%string then
    match p1 c, p2 c, p3 c with
    | Some q1, Some q2, Some _ =>
      Ok (mkarr (nr V) (nc V) (fun i j => 2 * q1 * (px V i j + px biasMap i j) + q2))
    | _, _, _ => Raise ValueError
    end
  else if String.eqb (lower fitType) "fourier2" then
    match a0 c, a1 c, a2 c, b1 c, b2 c, w c with
    | Some _, Some c1, Some c2, Some s1, Some s2, Some om =>
      Ok (mkarr (nr V) (nc V) (fun i j =>
            let Vt := px V i j + px biasMap i j in
            om * (- c1 * sin (Vt * om) + s1 * cos (Vt * om) +
                  - 2 * c2 * sin (2 * Vt * om) + 2 * s2 * cos (2 * Vt * om))))
    | _, _, _, _, _, _ => Raise ValueError
    end
  else Raise ValueError.

(* ---- superposition of influence functions ---- *)
(* np.arange(ll, ll+Nbox, dtype=int) used as an index into an axis of length n: the position each
   box row lands on; IndexError when any is outside *)
Definition box_index (n ll Nbox : Z) : res (list nat) :=
  fold_right (fun b acc => do l <- acc; do p <- np_index n (ll + b)%Z; Ok (p :: l)) (Ok []) (zrange Nbox).
(* the last position in a list of indices that equals i (numpy keeps the last write) *)
Fixpoint last_index_from (k : Z) (i : Z) (l : list nat) : option Z :=
  match l with
  | [] => None
  | p :: t => match last_index_from (k + 1) i t with
              | Some b => Some b
              | None => if (Z.of_nat p =? i)%Z then Some k else None
              end
  end.
(* dmSurf[np.ix_(ys, xs)] += vals *)
Definition add_box (s : arr R) (ys xs : list nat) (vals : Z -> Z -> R) : arr R :=
  mkarr (nr s) (nc s) (fun i j =>
    match last_index_from 0 i ys, last_index_from 0 j xs with
    | Some a, Some b => px s i j + vals a b
    | _, _ => px s i j
    end).
(* np.sum(np.abs(inf[:, :, k])) *)
Definition abs_total (Nbox : Z) (inf : Z -> Z -> R) : R :=
  rsum (Z.to_nat Nbox) (fun a => rsum (Z.to_nat Nbox) (fun b => Rabs (inf (Z.of_nat a) (Z.of_nat b)))).

Record cube : Type := mkcube {
  NdmPad : Z; Nbox : Z; inf_datacube : Z -> Z -> Z -> R;   (* actuator, row, column *)
  ll_x : Z -> Z; ll_y : Z -> Z }.                          (* xy_box_lowerLeft *)

(* dm.V[np.unravel_index(iact, V.shape)] *)
Definition at_linear (a : arr R) (k : Z) : res R :=
  if (k <? nr a * nc a)%Z then Ok (px a (k / nc a)%Z (k mod nc a)%Z) else Raise ValueError.

(* one turn of the loop, falco/dm.py:1061-1072 *)
Definition superpose (c : cube) (V VtoH : arr R) (s : arr R) (iact : Z) : res (arr R) :=
  if Rlt_dec (1 / 10 ^ 12) (abs_total (Nbox c) (inf_datacube c iact)) then
    do xs <- box_index (NdmPad c) (ll_x c iact) (Nbox c);
    do ys <- box_index (NdmPad c) (ll_y c iact) (Nbox c);
    do v <- at_linear V iact;
    do g <- at_linear VtoH iact;
    Ok (add_box s ys xs (fun a b => v * g * inf_datacube c iact a b))
  else Ok s.
Fixpoint superpose_all (c : cube) (V VtoH : arr R) (s : arr R) (acts : list Z) : res (arr R) :=
  match acts with [] => Ok s | k :: t => do s' <- superpose c V VtoH s k; superpose_all c V VtoH s' t end.

(* falco/dm.py:1029-1074 *)
Definition gen_surf_from_poke_cube (model_type : string) (compact full : cube) (NactTotal : Z)
    (V VtoH : arr R) : res (arr R) :=
  if negb (str_in model_type ["compact"; "full"]%string) then Raise ValueError else
  let c := if String.eqb model_type "compact" then compact else full in
  superpose_all c V VtoH (mkarr (NdmPad c) (NdmPad c) (fun _ _ => 0)) (zrange NactTotal).

(* ---- rotation matrices ---- *)
(* falco/dm.py:575-600 (the 3x3 part; the fourth row and column are those of the identity);
   angles a, b, g in radians *)
Definition Mrot (XYZ : bool) (a b g : R) (i j : nat) : R :=
  let sa := sin a in let ca := cos a in let sb := sin b in let cb := cos b in
  let sg := sin g in let cg := cos g in
  let row (x y z : R) := match j with 0%nat => x | 1%nat => y | _ => z end in
  if XYZ then
    match i with
    | 0%nat => row (cb * cg) (sa * sb * cg - ca * sg) (ca * sb * cg + sa * sg)
    | 1%nat => row (cb * sg) (sa * sb * sg + ca * cg) (ca * sb * sg - sa * cg)
    | _ => row (- sb) (sa * cb) (ca * cb)
    end
  else
    match i with
    | 0%nat => row (cb * cg) (- cb * sg) sb
    | 1%nat => row (ca * sg + sa * sb * cg) (ca * cg - sa * sb * sg) (- sa * cb)
    | _ => row (sa * sg - ca * sb * cg) (sa * cg + ca * sb * sg) (ca * cb)
    end.
(* falco/dm.py:634-638: actuator centre (x, y, 0) rotated, first two coordinates *)
Definition rot_xy (XYZ : bool) (a b g x y : R) : R * R :=
  (Mrot XYZ a b g 0 0 * x + Mrot XYZ a b g 0 1 * y,
   Mrot XYZ a b g 1 0 * x + Mrot XYZ a b g 1 1 * y).

(* ---- postage-stamp geometry: falco/dm.py:704-727, 753-758 ---- *)
(* np.max over a non-empty list *)
Definition np_max (l : list R) : res R :=
  match l with [] => Raise ValueError | x :: t => Ok (fold_right Rmax x t) end.
(* centers: the flattened xy_cent_act array, in actuator widths *)
Definition ndm_pad (NboxAS : Z) (centers : list R) (NpixPerAct : R) : res Z :=
  do m <- np_max (map Rabs centers);
  Ok (ceil_even (IZR NboxAS + 2 * (1 + (m + / 2) * NpixPerAct))).
(* xy_box_lowerLeft, as a number: np.round(x*spacing/dx + 0.5) + (NdmPad - Nbox)/2 *)
Definition box_lower_left (x NpixPerAct : R) (ndmpad nbox : Z) : R :=
  IZR (ZnearestE (x * NpixPerAct + / 2)) + (IZR ndmpad - IZR nbox) / 2.

(* ---- least-squares fit at actuator resolution ---- *)
(* scipy.ndimage.convolve(a, k, mode='constant', cval=0), k of odd shape (2*ry+1) x (2*rx+1):
   out[i,j] = sum_{s,t} k[s,t] * a[i + ry - s, j + rx - t] *)
Definition get0 (a : arr R) (i j : Z) : R :=
  if ((0 <=? i) && (i <? nr a) && (0 <=? j) && (j <? nc a))%Z then px a i j else 0.
Definition convolve (a k : arr R) (i j : Z) : R :=
  rsum (Z.to_nat (nr k)) (fun s => rsum (Z.to_nat (nc k)) (fun t =>
    px k (Z.of_nat s) (Z.of_nat t) *
    get0 a (i + nr k / 2 - Z.of_nat s) (j + nc k / 2 - Z.of_nat t))).
(* falco/dm.py:1451-1510: entry [j, p] of the prefilter (row j holds the response to poking j) *)
Definition prefilter (nrow ncol : Z) (inf : arr R) (j p : Z) : R :=
  convolve (mkarr nrow ncol (fun r c => if (r * ncol + c =? j)%Z then 1 else 0)) inf
           (p / ncol) (p mod ncol).
(* falco/dm.py:1408-1448: x is a solution returned by spsolve(act_effect, surf.ravel()) *)
Definition is_lsq_fit (nrow ncol : Z) (inf surf x : arr R) : Prop :=
  forall j, (0 <= j < nrow * ncol)%Z ->
    rsum (Z.to_nat (nrow * ncol)) (fun p =>
      prefilter nrow ncol inf j (Z.of_nat p) * px x (Z.of_nat p / ncol) (Z.of_nat p mod ncol))
    = px surf (j / ncol) (j mod ncol).
