(* Specification vocabulary for C97 *)
From Verif Require Import Base StrBase RBase CtrlModel UtilModel DmModel DmSpec DmSurfModel DmSurfSpec CubModel DmcModel CBase PropModel OptModel DiffModel DiffSpec RotModel GsfModel.
Open Scope R_scope.
(* the same DM before its first surface *)
Definition brand_new (s : gst) : gst := mkgs (q_c s) None None.
(* no tilt and no clocking *)
Definition untilted (c : gcfg) : Prop := g_xt c = 0 /\ g_yt c = 0 /\ g_zr c = 0.
(* the file of the influence function has mag samples per actuator *)
Definition samples_per_act (c : gcfg) (mag : nat) : Prop := (1 <= mag)%nat /\ 0 < i_pix (g_file c) /\ i_pitch (g_file c) = INR mag * i_pix (g_file c).
(* width of a sample of the influence function on the mirror *)
Definition sample_width (c : gcfg) (mag : nat) : R := g_spacing c / INR mag.
(* height of the mirror ky, kx samples of the influence function from the centre: actuators' heights times influence function, on the array of
   the wrapper (odd arrays are one sample off, see C69) *)
Definition mirror (ifn : field R) (nact mag : nat) (sx sy : Z) (h : field R) (ky kx : Z) : R :=
  let N := Z.of_nat (frows ifn) in let M := Z.of_nat (fcols ifn) in
  let y := (N / 2 + ky)%Z in let x := (M / 2 + kx)%Z in
  if ((0 <=? y) && (y <? N) && (0 <=? x) && (x <? M))%Z then superposed ifn nact mag sx sy h (y + N mod 2) (x + M mod 2) else 0.
(* the constraints leave the command v as it is *)
Definition accepted (d : dmr) (v : list R) : Prop := exists d', enforce (set_cV d v) = Ok d' /\ cV d' = v.
