(* Model of falco/thinfilm.py calc_complex_trans_matrix (101-336), calc_complex_occulter (12-98).
   Exact real arithmetic.  The two data files falco/data/nickel_..._n_k.txt and falco/data/MgF2_..._n_k.txt are a parameter (rows of wavelength, n, k). *)
From Verif Require Import Base RBase StrBase CBase PropModel OptModel ThinModel.
Open Scope R_scope.
Record tables := mktab { ni_rows : list (R * R * R); mgf2_rows : list (R * R * R) }.
Definition col1 (t : list (R * R * R)) : list R := map (fun r => fst (fst r)) t.
Definition col2 (t : list (R * R * R)) : list R := map (fun r => snd (fst r)) t.
Definition col3 (t : list (R * R * R)) : list R := map snd t.
(* falco/thinfilm.py:178-203 : refractive index of the substrate (np.sqrt of a negative number would be nan; not modelled).
   The second name of the first list is the single string 'FUSEDSILICA, FUSED_SILICA', as in the code. *)
Definition substrate_index (substrate : string) (lam_um : R) : res R :=
  let l2 := lam_um * lam_um in
  if str_in (upper substrate) ["FS"; "FUSEDSILICA, FUSED_SILICA"]%string then
    Ok (sqrt (1 + (683740494 / 1000000000) * l2 / (l2 - 460352869 / 100000000000) + (420323613 / 1000000000) * l2 / (l2 - 133968856 / 10000000000)
              + (58502748 / 100000000) * l2 / (l2 - 644932732 / 10000000)))
  else if str_in (upper substrate) ["N-BK7"; "NBK7"; "BK7"]%string then
    Ok (sqrt (1 + (103961212 / 100000000) * l2 / (l2 - 600069867 / 100000000000) + (231792344 / 1000000000) * l2 / (l2 - 200179144 / 10000000000)
              + (101046945 / 100000000) * l2 / (l2 - 103560653 / 1000000)))
  else Raise ValueError.
(* falco/thinfilm.py:205-230 : dielectric index n, k *)
Definition dielectric_index (tb : tables) (dielectric : string) (lam_um lam_nm : R) : res (R * R) :=
  if str_in (lower dielectric) ["pmgi"]%string then
    Ok (1524 / 1000 + (5176 / 1000000) / (lam_um * lam_um) + (2105 / 10000000) / (lam_um * lam_um * lam_um * lam_um), 0)
  else if str_in (lower dielectric) ["mgf2"]%string then
    let x := map (fun w => w * 1000) (col1 (mgf2_rows tb)) in
    Ok (np_interp lam_nm x (col2 (mgf2_rows tb)), np_interp lam_nm x (col3 (mgf2_rows tb)))
  else Raise ValueError.
(* falco/thinfilm.py:236-262 : titanium *)
Definition ti_rows : list (R * R * R) :=
  [(397, 208/100, 295/100); (413, 214/100, 298/100); (431, 221/100, 301/100); (451, 227/100, 304/100); (471, 23/10, 31/10); (496, 236/100, 319/100);
   (521, 244/100, 32/10); (549, 254/100, 343/100); (582, 26/10, 358/100); (617, 267/100, 374/100); (659, 276/100, 384/100); (704, 286/100, 396/100);
   (756, 3, 401/100); (821, 321/100, 401/100); (892, 329/100, 396/100); (984, 335/100, 397/100); (1088, 35/10, 402/100); (1216, 362/100, 415/100)].
Definition row_index (t : list (R * R * R)) (lam_nm : R) : R * R := (np_interp lam_nm (col1 t) (col2 t), np_interp lam_nm (col1 t) (col3 t)).
(* falco/thinfilm.py:264-278 : the metal *)
Definition metal_index (tb : tables) (metal : string) (lam_nm : R) : res (R * R) :=
  if str_in (lower metal) ["nickel"; "ni"]%string then Ok (row_index (ni_rows tb) lam_nm) else Raise ValueError.
Definition absorbing (nk : R * R) : C := (fst nk, - snd nk).
(* falco/thinfilm.py:232-234 : titanium only under the metal *)
Definition ti_under (t_Ti t_metal : R) : R := if Rlt_dec t_metal (1 / 10000000000) then 0 else t_Ti.
(* falco/thinfilm.py:313-336 : one entry of the matrix *)
Definition trans_entry (n_sub : R) (n_diel n_metal n_ti : C) (lam theta t_Ti d0 : R) (pol : Z) (flagOPD : bool) (dpm dni : R) : res (C * C) :=
  let dti := ti_under t_Ti dni in
  let nvec := [RtoC 1; RtoC 1; n_diel; n_metal; n_ti; RtoC n_sub] in
  let dvec := [d0 - dpm - dni - dti; dpm; dni; dti] in
  do rt <- (if Z.eqb pol 2 then
              do s0 <- solver nvec dvec theta lam false;
              do s1 <- solver nvec dvec theta lam true;
              Ok (Cdiv (Cplus (tf_rr s0) (tf_rr s1)) (RtoC 2), Cdiv (Cplus (tf_tt s0) (tf_tt s1)) (RtoC 2))
            else if Z.eqb pol 0 || Z.eqb pol 1 then
              do s <- solver nvec dvec theta lam (Z.eqb pol 1); Ok (tf_rr s, tf_tt s)
            else Raise ValueError);
  let (rr, tt) := rt in
  Ok (if flagOPD then (tt, rr) else (Cconj tt, Cconj rr)).
(* nested loops over the two thickness vectors *)
Fixpoint mapr {A B} (f : A -> res B) (l : list A) : res (list B) :=
  match l with nil => Ok nil | a :: t => do b <- f a; do r <- mapr f t; Ok (b :: r) end.
Record trans_in := mkti { ti_sub : string; ti_metal : string; ti_diel : string; ti_lam : R; ti_aoi : R; ti_tTi : R; ti_d0 : R; ti_pol : Z; ti_opd : bool }.
(* falco/thinfilm.py:101-336.  Result: for each dielectric thickness the row of (tCoef, rCoef) over the metal thicknesses.  The thickness vectors are 1-D arrays
   (others are refused by oneD_array, modelled in CheckModel) *)
Definition calc_trans (tb : tables) (a : trans_in) (t_metal t_diel : list R) : res (list (list (C * C))) :=
  let lam := ti_lam a in
  if Rle_dec lam 0 then Raise TypeError
  else if Rlt_dec (ti_aoi a) 0 then Raise TypeError
  else if Rlt_dec (ti_tTi a) 0 then Raise TypeError
  else
    let lam_nm := lam * 1000000000 in
    let lam_um := lam * 1000000 in
    let theta := ti_aoi a * (PI / 180) in
    do n_sub <- substrate_index (ti_sub a) lam_um;
    do nd <- dielectric_index tb (ti_diel a) lam_um lam_nm;
    do nm <- metal_index tb (ti_metal a) lam_nm;
    mapr (fun dpm => mapr (fun dni => trans_entry n_sub (absorbing nd) (absorbing nm) (absorbing (row_index ti_rows lam_nm)) lam theta (ti_tTi a) (ti_d0 a) (ti_pol a) (ti_opd a) dpm dni) t_metal) t_diel.

(* falco/thinfilm.py:12-98 : calc_complex_occulter.  Two maps of one shape; np.unique gives each occurring triple of thicknesses once (its order does not matter
   and is not modelled).  eps = 2^-52.
   Maps of unequal shapes are refused; the kind of exception (ValueError from np.stack or broadcasting, IndexError for a row against a column) is simplified to ValueError. *)
Definition triple_eq (p q : R * R * R) : bool :=
  if Req_EM_T (fst (fst p)) (fst (fst q)) then if Req_EM_T (snd (fst p)) (snd (fst q)) then if Req_EM_T (snd p) (snd q) then true else false else false else false.
Fixpoint uniq (l : list (R * R * R)) : list (R * R * R) :=
  match l with nil => nil | p :: t => p :: filter (fun q => negb (triple_eq p q)) (uniq t) end.
Definition grid (r c : nat) : list (nat * nat) := flat_map (fun i => map (fun j => (i, j)) (seq 0 c)) (seq 0 r).
Definition ti_map (t_Ti : R) (metal : field R) (i j : nat) : R := if Rlt_dec (10 / 4503599627370496) (fpx metal i j) then t_Ti else 0.
Definition with_tTi (a : trans_in) (t : R) : trans_in := mkti (ti_sub a) (ti_metal a) (ti_diel a) (ti_lam a) (ti_aoi a) t (ti_d0 a) (ti_pol a) (ti_opd a).
Fixpoint occ_loop (tb : tables) (a : trans_in) (metal diel : field R) (us : list (R * R * R)) (out : field C) : res (field C) :=
  match us with
  | nil => Ok out
  | u :: t =>
      do m <- calc_trans tb (with_tTi a (snd u)) [snd (fst u)] [fst (fst u)];
      let v := fst (nth 0 (nth 0 m nil) (RtoC 0, RtoC 0)) in
      occ_loop tb a metal diel t (mkf (frows out) (fcols out) (fun i j => if triple_eq (fpx diel i j, fpx metal i j, ti_map (ti_tTi a) metal i j) u then v else fpx out i j))
  end.
Definition calc_occulter (tb : tables) (a : trans_in) (metal diel : field R) : res (field C) :=
  if Rlt_dec (ti_tTi a) 0 then Raise TypeError
  else if negb (Nat.eqb (frows metal) (frows diel) && Nat.eqb (fcols metal) (fcols diel)) then Raise ValueError
  else
    let us := uniq (map (fun ij => (fpx diel (fst ij) (snd ij), fpx metal (fst ij) (snd ij), ti_map (ti_tTi a) metal (fst ij) (snd ij))) (grid (frows metal) (fcols metal))) in
    occ_loop tb a metal diel us (mkf (frows metal) (fcols metal) (fun _ _ => RtoC 0)).
