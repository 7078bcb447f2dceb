(* Model of falco/hlc.py gen_fpm_from_LUT (14-80), gen_fpm_cube_from_LUT (83-146), discretize_fpm_surf (149-180), gen_fpm_surf_from_cube (183-238), and of the two places that
   choose the mask of the compact model: falco/model/models.py:738-744 and 1076-1081.  Exact reals.  Corners of boxes are whole numbers (the code truncates with dtype=int). *)
From Verif Require Import Base RBase StrBase CBase PropModel OptModel DiffModel SrcModel ThinModel FilmModel TabModel.
Open Scope R_scope.
(* mp.dm8 or mp.dm9 for one of the two optical models: NdmPad, Nbox, inf_datacube (one array per actuator), xy_box_lowerLeft *)
Record infcube := mkic { ic_pad : nat; ic_box : nat; ic_inf : list (field R); ic_x : nat -> Z; ic_y : nat -> Z }.
Record fpmdm := mkfd { fd_act : nat; fd_V : list R; fd_vtoh : list R; fd_comp : infcube; fd_fullm : infcube }.
Definition geti {A} (l : list A) (i : nat) : res A := match nth_error l i with Some x => Ok x | None => Raise IndexError end.
Definition abs_sum (f : field R) : R := rsum (frows f) (fun i => rsum (fcols f) (fun j => Rabs (fpx f i j))).
(* assignment through np.ix_: the row of the box that ends up in row i (the last one when indices repeat) *)
Fixpoint last_match (n lo : Z) (nb : nat) (i : nat) : option nat :=
  match nb with
  | O => None
  | S b => match np_ix n (lo + Z.of_nat b) with
           | Some k => if Z.eqb k (Z.of_nat i) then Some b else last_match n lo b i
           | None => last_match n lo b i
           end
  end.
Fixpoint all_in (n lo : Z) (nb : nat) : bool := match nb with O => true | S b => match np_ix n (lo + Z.of_nat b) with Some _ => all_in n lo b | None => false end end.
(* falco/hlc.py:219-231 : one pass of the loop *)
Definition add_act (dm : fpmdm) (ic : infcube) (surf : field R) (k : nat) : res (field R) :=
  do inf <- geti (ic_inf ic) k;
  if Rlt_dec (abs_sum inf) (1 / 100000000) then Ok surf
  else
    do h <- geti (fd_vtoh dm) k;
    if Rlt_dec (Rabs h) (1 / 1000000000000) then Ok surf
    else
      let n := Z.of_nat (ic_pad ic) in
      if negb (all_in n (ic_y ic k) (ic_box ic) && all_in n (ic_x ic k) (ic_box ic)) then Raise IndexError
      else
        do v <- geti (fd_V dm) k;
        if negb (Nat.eqb (frows inf) (ic_box ic) && Nat.eqb (fcols inf) (ic_box ic)) then Raise ValueError
        else Ok (mkf (frows surf) (fcols surf) (fun i j =>
               match last_match n (ic_y ic k) (ic_box ic) i, last_match n (ic_x ic k) (ic_box ic) j with
               | Some a, Some b => fpx surf i j + v * h * fpx inf a b
               | _, _ => fpx surf i j
               end)).
Fixpoint add_acts (dm : fpmdm) (ic : infcube) (surf : field R) (ks : list nat) : res (field R) :=
  match ks with nil => Ok surf | k :: t => do s <- add_act dm ic surf k; add_acts dm ic s t end.
Definition choose_model (mt : string) : res bool := if String.eqb (lower mt) "compact" then Ok true else if String.eqb (lower mt) "full" then Ok false else Raise ValueError.
(* falco/hlc.py:183-238 *)
Definition gen_fpm_surf (dm : fpmdm) (mt : string) : res (field R) :=
  do c <- choose_model mt;
  let ic := if c then fd_comp dm else fd_fullm dm in
  do s <- add_acts dm ic (mkf (ic_pad ic) (ic_pad ic) (fun _ _ => 0)) (seq 0 (fd_act dm));
  Ok (mkf (frows s) (fcols s) (fun i j => if Rlt_dec (fpx s i j) 0 then 0 else fpx s i j)).
(* falco/hlc.py:149-180 (a step of zero: ZeroDivisionError of a Python float) *)
Definition discretize (surf : field R) (ts : list R) (dt : R) : res (field Z) :=
  do lo <- np_min ts; do hi <- np_max ts;
  if Req_EM_T dt 0 then Raise ZeroDivisionError
  else Ok (mkf (frows surf) (fcols surf) (fun i j =>
    let x := 1000000000 * fpx surf i j in
    let y := if Rlt_dec x lo then lo else x in
    let z := if Rlt_dec hi y then hi else y in
    nround (1 / dt * (z - lo)))).
(* what gen_fpm_from_LUT reads of mp; the tables are stored by wavelength, [dielectric][metal] *)
Record hlc := mkhlc { h_dm8 : fpmdm; h_dm9 : fpmdm; h_bias : R; h_metals : list R; h_dmetal : R; h_diels : list R; h_ddiel : R; h_Nwp : nat;
  h_tabC : list slice; h_tabF : list slice; h_lamC : list R; h_lamF : list R }.
Definition entry (tab : list slice) (il id im : Z) : res C := do s <- np_get tab il; do row <- np_get s id; np_get row im.
Definition oks {A} (x : res A) : bool := match x with Ok _ => true | _ => false end.
Definition val (x : res C) : C := match x with Ok v => v | _ => RtoC 0 end.
(* falco/hlc.py:71-78 : the look-up loops *)
Definition lookup (tab : list slice) (il : Z) (md dd : field Z) : res (field C) :=
  if forallb (fun ij => oks (entry tab il (fpx dd (fst ij) (snd ij)) (fpx md (fst ij) (snd ij)))) (grid (frows md) (fcols md))
  then Ok (mkf (frows md) (fcols md) (fun i j => val (entry tab il (fpx dd i j) (fpx md i j))))
  else Raise IndexError.
(* falco/hlc.py:51-69, 116-134 : thickness maps and their table indices *)
Definition thick_maps (p : hlc) (mt : string) : res (field R * field R) :=
  do s8 <- gen_fpm_surf (h_dm8 p) mt;
  do s9 <- gen_fpm_surf (h_dm9 p) mt;
  let s9' := mkf (frows s9) (fcols s9) (fun i j => h_bias p * (1 / 1000000000) + fpx s9 i j) in
  if negb (Nat.eqb (frows s8 * fcols s8) (frows s9 * fcols s9)) then Raise ValueError else Ok (s8, s9').
Definition indices (p : hlc) (mt : string) : res (field Z * field Z) :=
  do s <- thick_maps p mt;
  do md <- discretize (fst s) (h_metals p) (h_dmetal p);
  do dd <- discretize (snd s) (h_diels p) (h_ddiel p);
  Ok (md, dd).
(* falco/hlc.py:14-80 *)
Definition gen_fpm (p : hlc) (si wi : Z) (mt : string) : res (field C) :=
  do c <- choose_model mt;
  let tab := if c then h_tabC p else h_tabF p in
  let il := if c then si else ((si - 1) * Z.of_nat (h_Nwp p) + wi)%Z in
  do ii <- indices p mt;
  lookup tab il (fst ii) (snd ii).
(* falco/hlc.py:83-146 : one mask per wavelength *)
Definition gen_fpm_cube (p : hlc) (mt : string) : res (list (field C)) :=
  do c <- choose_model mt;
  let tab := if c then h_tabC p else h_tabF p in
  let lams := if c then h_lamC p else h_lamF p in
  do ii <- indices p mt;
  mapr (fun il => lookup tab (Z.of_nat il) (fst ii) (snd ii)) (seq 0 (length lams)).
(* mp.compact.fpmCube, kept on mp once it has been made.
   falco/model/models.py:1076-1081 (start of every Jacobian, layout 'fourier', coro 'HLC') *)
Definition jac_cube (p : hlc) (cube : option (list (field C))) : res (list (field C)) := match cube with Some q => Ok q | None => gen_fpm_cube p "compact" end.
(* falco/model/models.py:738-744 : mask of the compact model *)
Definition compact_mask (p : hlc) (cube : option (list (field C))) (si : Z) : res (field C) :=
  match cube with Some q => np_get q si | None => gen_fpm p si (-1) "compact" end.
