(* Specification vocabulary for the columns of the control Jacobian. *)
From Coquelicot Require Import Coquelicot.
From Verif Require Import Base RBase StrBase CBase PropModel PropSpec OptModel OptSpec GradModel GradSpec PokeModel.
Open Scope R_scope.
(* derivative at 0 of a complex-valued function of a real variable *)
Definition derivative (f : R -> C) (l : C) : Prop := is_derive (fun t => fst (f t)) 0 (fst l) /\ is_derive (fun t => snd (f t)) 0 (snd l).
(* surface change for one volt on the actuator: its influence function times its gain, in an n x n array in which the
   DM array of pk_nd samples is centred *)
Definition poke_surface (n : nat) (pk : poked) : field R :=
  mkf n n (fun i j =>
    let p := (Z.of_nat i - (Z.of_nat n / 2 - Z.of_nat (pk_nd pk) / 2) - pk_lly pk)%Z in
    let q := (Z.of_nat j - (Z.of_nat n / 2 - Z.of_nat (pk_nd pk) / 2) - pk_llx pk)%Z in
    if ((0 <=? p) && (p <? Z.of_nat (pk_nbox pk)) && (0 <=? q) && (q <? Z.of_nat (pk_nbox pk)))%Z then pk_vtoh pk * fpx (pk_inf pk) (Z.to_nat p) (Z.to_nat q) else 0).
(* the instrument with t volts added to the actuator, on DM1 or on DM2 *)
Definition poked_by (o : optics) (dm2 : bool) (pk : poked) (t : R) : optics :=
  if dm2 then with_surfs o (o_surf1 o) (along (o_surf2 o) (poke_surface (o_pad o) pk) t)
  else with_surfs o (along (o_surf1 o) (poke_surface (o_pad o) pk) t) (o_surf2 o).
(* field of the compact model at a pixel of the final focal plane; 0 on failure *)
Definition model_field (o : optics) (wvl I00 : R) (scale : bool) (Ein : field C) (i j : nat) : C :=
  match compact_field o wvl I00 false scale true Ein with Ok F => fpx F i j | Raise _ => RtoC 0 end.
(* pixel centring and rotations between pupils: then a 180-degree rotation leaves row 0 and column 0 in place *)
Definition edge (o : optics) : Z := if o_rot o && negb (interp (o_cen o)) then 1 else 0.
(* the padded box lies inside the DM array *)
Definition box_inside (o : optics) (pk : poked) (ll : Z) : Prop :=
  let a := (ll - (Z.of_nat (pk_nas pk) - Z.of_nat (pk_nbox pk)) / 2)%Z in
  (edge o <= a)%Z /\ (a + Z.of_nat (pk_nas pk) <= Z.of_nat (pk_nd pk))%Z.
Definition even_size (n : nat) : Prop := Nat.even n = true.
(* configurations for which the column is claimed to be exact; everything but the propagation distances *)
Record poke_ready (o : optics) (pk : poked) : Prop := mkpr {
  pr_wf : well_formed o;
  pr_even : even_size (o_pad o) /\ even_size (pk_nd pk) /\ even_size (o_narr4 o);
  pr_nd : (1 <= pk_nd pk <= o_pad o)%nat;
  pr_box : (1 <= pk_nbox pk <= pk_nas pk)%nat /\ Nat.even (pk_nas pk - pk_nbox pk) = true;
  pr_inf : frows (pk_inf pk) = pk_nbox pk /\ fcols (pk_inf pk) = pk_nbox pk;
  pr_in : box_inside o pk (pk_llx pk) /\ box_inside o pk (pk_lly pk);
  pr_x : length (pk_x pk) = pk_nd pk /\ forall k, (k < pk_nd pk)%nat -> nth k (pk_x pk) 0 = coord (pk_nd pk) (o_dx2 o) (o_cen o) k;
  pr_y : length (pk_y pk) = pk_nd pk /\ forall k, (k < pk_nd pk)%nat -> nth k (pk_y pk) 0 = coord (pk_nd pk) (o_dx2 o) (o_cen o) k;
  pr_apod : match o_apod o with None => True | Some (m, na) => even_size na /\ (na <= o_pad o)%nat /\
              (edge o = 1%Z -> forall k, (k < na)%nat -> fpx m 0%nat k = RtoC 0 /\ fpx m k 0%nat = RtoC 0) end }.
(* the box is the whole array *)
Definition whole_array (o : optics) (pk : poked) : Prop :=
  pk_nas pk = o_pad o /\ pk_nd pk = o_pad o /\ edge o = 0%Z /\
  pk_llx pk = ((Z.of_nat (pk_nas pk) - Z.of_nat (pk_nbox pk)) / 2)%Z /\ pk_lly pk = ((Z.of_nat (pk_nas pk) - Z.of_nat (pk_nbox pk)) / 2)%Z.
