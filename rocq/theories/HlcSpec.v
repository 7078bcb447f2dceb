(* Specification for the masks of a hybrid Lyot coronagraph looked up in tables (C76). *)
From Verif Require Import Base RBase StrBase CBase PropModel OptModel TabModel HlcModel.
Open Scope R_scope.
(* value of an influence function at an offset from its lower left corner; zero outside *)
Definition stamp (f : field R) (a b : Z) : R := if ((0 <=? a) && (a <? Z.of_nat (frows f)) && (0 <=? b) && (b <? Z.of_nat (fcols f)))%Z then fpx f (Z.to_nat a) (Z.to_nat b) else 0.
(* evenly spaced thicknesses *)
Definition steps (t0 dt : R) (n : nat) : list R := map (fun k => t0 + INR k * dt) (seq 0 n).
(* x limited to [a, b] *)
Definition limited (a b x : R) : R := Rmin b (Rmax a x).
(* a DM whose arrays have the declared sizes and whose boxes lie inside the surface *)
Definition well_formed (dm : fpmdm) (ic : infcube) : Prop :=
  (fd_act dm <= length (fd_V dm))%nat /\ (fd_act dm <= length (fd_vtoh dm))%nat /\ (fd_act dm <= length (ic_inf ic))%nat /\
  forall k, (k < fd_act dm)%nat -> (0 <= ic_x ic k /\ ic_x ic k + Z.of_nat (ic_box ic) <= Z.of_nat (ic_pad ic) /\ 0 <= ic_y ic k /\ ic_y ic k + Z.of_nat (ic_box ic) <= Z.of_nat (ic_pad ic))%Z /\
    forall f, nth_error (ic_inf ic) k = Some f -> frows f = ic_box ic /\ fcols f = ic_box ic.
Definition the_inf (ic : infcube) (k : nat) : field R := nth k (ic_inf ic) (mkf 0 0 (fun _ _ => 0)).
Definition contribution (dm : fpmdm) (ic : infcube) (k i j : nat) : R :=
  nth k (fd_V dm) 0 * nth k (fd_vtoh dm) 0 * stamp (the_inf ic k) (Z.of_nat i - ic_y ic k) (Z.of_nat j - ic_x ic k).
(* the loop passes over actuators with hardly any influence or gain *)
Definition passed_over (dm : fpmdm) (ic : infcube) (k : nat) : bool :=
  if Rlt_dec (abs_sum (the_inf ic k)) (1 / 100000000) then true else if Rlt_dec (Rabs (nth k (fd_vtoh dm) 0)) (1 / 1000000000000) then true else false.
(* the arrays of one of the two optical models *)
Definition model_of (dm : fpmdm) (mt : string) : option infcube := if String.eqb (lower mt) "compact" then Some (fd_comp dm) else if String.eqb (lower mt) "full" then Some (fd_fullm dm) else None.
(* a mask setup: two DMs of the same size, boxes inside, evenly spaced tables *)
Definition ready (p : hlc) (mt : string) (pad : nat) : Prop :=
  (exists c8, model_of (h_dm8 p) mt = Some c8 /\ well_formed (h_dm8 p) c8 /\ ic_pad c8 = pad) /\ (exists c9, model_of (h_dm9 p) mt = Some c9 /\ well_formed (h_dm9 p) c9 /\ ic_pad c9 = pad) /\
  0 < h_dmetal p /\ 0 < h_ddiel p /\ (exists a n, (0 < n)%nat /\ h_metals p = steps a (h_dmetal p) n) /\ (exists a n, (0 < n)%nat /\ h_diels p = steps a (h_ddiel p) n).
Definition filled (p : hlc) (s : slice) : Prop := length s = length (h_diels p) /\ forall row, In row s -> length row = length (h_metals p).
(* tabulated thickness q is nearest to the height x of a layer (in metres), for heights limited to the range of the table *)
Definition nearest_in (ts : list R) (dt : R) (x : R) (k : nat) : Prop := (k < length ts)%nat /\ Rabs (nth k ts 0 - limited (nth 0 ts 0) (nth (length ts - 1) ts 0) (1000000000 * x)) <= dt / 2.
