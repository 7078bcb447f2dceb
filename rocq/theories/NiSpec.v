(* Specification vocabulary for the Jacobian of the normalised intensity. *)
From Verif Require Import Base RBase StrBase CBase PropModel PropSpec OptModel OptSpec SrcModel PokeModel PokeSpec NiModel.
Open Scope R_scope.

(* field of the compact model without the focal-plane mask at a pixel; 0 on failure *)
Definition unocculted (o : optics) (wvl I00 : R) (scale : bool) (Ein : field C) (i j : nat) : C :=
  match compact_field o wvl I00 false scale false Ein with Ok F => fpx F i j | Raise _ => RtoC 0 end.
(* the pixel lies in the image and on the optical axis *)
Definition on_axis (o : optics) (i j : nat) : Prop :=
  (i < g_Neta (o_fend o))%nat /\ (j < g_Nxi (o_fend o))%nat /\
  coord (g_Neta (o_fend o)) (g_deta (o_fend o)) (o_cen o) i = 0 /\ coord (g_Nxi (o_fend o)) (g_dxi (o_fend o)) (o_cen o) j = 0.
(* the unocculted image has its only maximum at the pixel *)
Definition only_maximum (o : optics) (wvl I00 : R) (scale : bool) (Ein : field C) (i j : nat) : Prop :=
  forall k l, (k < g_Neta (o_fend o))%nat -> (l < g_Nxi (o_fend o))%nat -> (k, l) <> (i, j) ->
    Cmod (unocculted o wvl I00 scale Ein k l) < Cmod (unocculted o wvl I00 scale Ein i j).
(* the normalised field: the coronagraphic field over the brightest unocculted pixel; 0 on failure *)
Definition normalised (o : optics) (wvl I00 : R) (scale : bool) (Ein : field C) (i j : nat) : C :=
  match compact_field o wvl I00 false scale true Ein, compact_field o wvl I00 false scale false Ein with
  | Ok F, Ok U => match peak_of U with Ok p => Cdiv (fpx F i j) p | Raise _ => RtoC 0 end
  | _, _ => RtoC 0
  end.
(* configurations for which the peak's Jacobian is claimed to be exact *)
Record ni_ready (b : bench) (o : optics) (st : star) (sp : stops) : Prop := mknr {
  (* the rotations leave the default centring right *)
  nr_cen : o_cen o = Pixel \/ o_rot o = false;
  nr_dx : o_dx4 o = o_dx2 o;
  (* the star is on axis *)
  nr_star : st_xi st = 0 /\ st_eta st = 0;
  (* the tilt array covers the cropped Lyot stop *)
  nr_X : frows (b_X b) = fcols (b_X b) /\ even_size (frows (b_X b)) /\ (o_narr4 o <= frows (b_X b))%nat;
  (* the Lyot stop: the cropped one with zeros around it *)
  nr_stop : exists n, even_size n /\ (o_narr4 o <= n)%nat /\ frows (sp_mask sp) = n /\ fcols (sp_mask sp) = n /\
    forall i j, (i < n)%nat -> (j < n)%nat -> fpx (sp_mask sp) i j =
      (let p := (Z.of_nat i - (Z.of_nat n / 2 - Z.of_nat (o_narr4 o) / 2))%Z in
       let q := (Z.of_nat j - (Z.of_nat n / 2 - Z.of_nat (o_narr4 o) / 2))%Z in
       if ((0 <=? p) && (p <? Z.of_nat (o_narr4 o)) && (0 <=? q) && (q <? Z.of_nat (o_narr4 o)))%Z then fpx (o_lyot o) (Z.to_nat p) (Z.to_nat q) else RtoC 0);
  nr_lyot : (o_narr4 o <= o_pad o)%nat /\ (edge o = 1%Z -> forall k, (k < o_narr4 o)%nat -> fpx (o_lyot o) 0%nat k = RtoC 0 /\ fpx (o_lyot o) k 0%nat = RtoC 0) }.
