(* Model of the wrappers of falco/model/models.py that build the input field and choose the mask and the
   normalisation: full (22-188, layouts 'fourier' and 'fpm_scale') and compact (640-767).
   The PROPER layouts call an external library and are a parameter.  Exact arithmetic. *)
From Verif Require Import Base RBase StrBase UtilModel CBase PropModel OptModel.
Open Scope R_scope.

(* numpy indexing of one axis by an integer: negative indices count from the end *)
Definition np_ix (n i : Z) : option Z := if ((0 <=? i) && (i <? n))%Z then Some i else if ((- n <=? i) && (i <? 0))%Z then Some (i + n)%Z else None.
Definition np_get {A} (l : list A) (i : Z) : res A :=
  match np_ix (Z.of_nat (length l)) i with
  | Some k => match nth_error l (Z.to_nat k) with Some x => Ok x | None => Raise IndexError end
  | None => Raise IndexError
  end.
Definition np_get2 {A} (l : list (list A)) (i j : Z) : res A := do r <- np_get l i; np_get r j.
(* an attribute that may be missing *)
Definition attr {A} (o : option A) : res A := match o with Some x => Ok x | None => Raise AttributeError end.

(* falco/config/ModelVariables: the attributes set on a given object *)
Record modvar : Type := mkmv { mv_sbp : option Z; mv_wps : option Z; mv_wvl : option R; mv_star : option Z; mv_which : option string;
  mv_x : option R; mv_y : option R; mv_zern : option Z }.
Inductive layout : Type := LFourier | LFpmScale | LProper | LUnknown.
(* stars: xi offset, eta offset, weight (lambda0/D) *)
Record star : Type := mkstar { st_xi : R; st_eta : R; st_w : R }.
(* mp.<...> as read by one wrapper; X, Y are mp.P2.<...>.XsDL, YsDL *)
Record bench : Type := mkb {
  b_o : optics; b_layout : layout; b_X : field R; b_Y : field R; b_stars : list star; b_lambda0 : R;
  b_normx : R; b_normy : R; b_zern : Z -> res (field C); b_zcoef : Z -> res R;
  b_proper : R -> R -> res (field C) }.
(* np.exp(1j*(-1)*(2*pi*(x*Xs + y*Ys))*lambda0/wvl) *)
Definition tilt (b : bench) (x y wvl : R) : field C :=
  mkf (frows (b_X b)) (fcols (b_X b)) (fun i j => cis ((-1) * (2 * PI * (x * fpx (b_X b) i j + y * fpx (b_Y b) i j)) * b_lambda0 b / wvl)).
Definition with_fpm (o : optics) (m : field C) : optics :=
  mko (o_pad o) (o_rot o) (o_n12 o) (o_n23 o) (o_n34 o) (o_nend o) (o_cen o) (o_d1 o) (o_d12 o) (o_fl o) (o_lambda0 o) (o_dx2 o) (o_use1 o) (o_use2 o) (o_surf1 o) (o_surf2 o) (o_pupil o) (o_stop1 o) (o_stop2 o) (o_wfe o) (o_apod o) (o_coro o) (o_f3 o) m (o_trans o) (o_charge o) (o_nbeam1 o) (o_nbeam4 o) (o_dx4 o) (o_narr4 o) (o_lyot o) (o_downsample o) (o_fend o) (o_eval o).
Local Open Scope string_scope.
(* falco/model/models.py:66-90 and 700-727: star position and weight, off-axis source, normalisation shift *)
Definition source_field (b : bench) (mv : modvar) (wvl normFac : R) (E0 : field C) : res (field C) :=
  do k <- attr (mv_star mv);
  do st <- np_get (b_stars b) k;
  do E1 <- bop Cmult (scal (RtoC (sqrt (st_w st))) (tilt b (st_xi st) (st_eta st) wvl)) E0;
  do src <- attr (mv_which mv);
  do E2 <- (if String.eqb (lower src) "offaxis" then do x <- attr (mv_x mv); do y <- attr (mv_y mv); imul E1 (tilt b x y wvl) else Ok E1);
  if Req_EM_T normFac 0 then imul E2 (tilt b (b_normx b) (b_normy b) wvl) else Ok E2.
(* falco/model/models.py:106-116: slice of the FPM cube; no branch assigns ilam when Nsbp < 1 *)
Definition ilam_full (Nsbp Nwpsbp s w : Z) : res Z :=
  if ((1 <? Nsbp) && (1 <? Nwpsbp))%Z then Ok ((s - 2) * Nwpsbp + w + (Nsbp - s + 1))%Z
  else if ((Nsbp =? 1) && (1 <? Nwpsbp))%Z then Ok w
  else if (Nwpsbp =? 1)%Z then Ok s
  else Raise NameError.
(* what the full wrapper reads besides the bench: I00, lambdasMat, P1.full.E (as [sbp][wpsbp]), the FPM cube or the mask made from the
   lookup table, Nsbp, Nwpsbp *)
Record fulldata : Type := mkfd { fd_I00 : list (list R); fd_lam : list (list R); fd_E : list (list (field C)); fd_cube : option (list (field C));
  fd_lut : Z -> Z -> res (field C); fd_Nsbp : Z; fd_Nwp : Z }.
Definition run_full (b : bench) (o : optics) (wvl normFac : R) (Ein : field C) : res (field C) :=
  match b_layout b with
  | LFourier => full_Fourier o wvl normFac false Ein
  | LFpmScale => full_Fourier o wvl normFac true Ein
  | LProper => b_proper b wvl normFac
  | LUnknown => Raise NameError                           (* Eout is never assigned *)
  end.
(* falco/model/models.py:99-104: no factor 1j here *)
Definition zern_full (b : bench) (z : Z) (wvl : R) (Ein : field C) : res (field C) :=
  if (z =? 1)%Z then Ok Ein else do m <- b_zern b z; do c <- b_zcoef b z; do P <- bop Cmult Ein m; Ok (scal (RtoC (2 * PI / wvl * c)) P).
(* falco/model/models.py:118-126 *)
Definition hlc_full (b : bench) (fd : fulldata) (s w : Z) : res optics :=
  if String.eqb (upper (o_coro (b_o b))) "HLC" then
    do il <- ilam_full (fd_Nsbp fd) (fd_Nwp fd) s w;
    match b_layout b with
    | LFourier | LProper =>
        match fd_cube fd with Some c => do m <- np_get c il; Ok (with_fpm (b_o b) m) | None => do m <- fd_lut fd s w; Ok (with_fpm (b_o b) m) end
    | LFpmScale => match fd_cube fd with Some c => do m <- np_get c il; Ok (with_fpm (b_o b) m) | None => Raise AttributeError end
    | LUnknown => Ok (b_o b)
    end
  else Ok (b_o b).
(* falco/model/models.py:22-188.  ilam itself is computed for every coronagraph, but only fails when no branch applies and HLC uses it *)
Definition full_wrapper (b : bench) (fd : fulldata) (mv : modvar) (isNorm : bool) : res (field C) :=
  do nf <- (if isNorm then match mv_sbp mv, mv_wps mv with Some s, Some w => np_get2 (fd_I00 fd) s w | _, _ => Raise ValueError end else Ok 0);
  do wvl <- match mv_wvl mv, mv_sbp mv with
            | Some l, _ => Ok l
            | None, Some s => do w <- attr (mv_wps mv); np_get2 (fd_lam fd) s w
            | None, None => Raise ValueError
            end;
  do k <- attr (mv_star mv);
  do _ <- np_get (b_stars b) k;
  do w <- attr (mv_wps mv); do s <- attr (mv_sbp mv);
  do E0 <- np_get2 (fd_E fd) s w;
  do E1 <- source_field b mv wvl nf E0;
  do z <- attr (mv_zern mv);
  do E2 <- zern_full b z wvl E1;
  do o <- hlc_full b fd s w;
  run_full b o wvl nf E2.

(* what the compact wrapper reads besides the bench *)
Record compactdata : Type := mkcd { cd_I00 : list R; cd_I00eval : list R; cd_lam : list R; cd_E : list (field C); cd_cube : option (list (field C)); cd_lut : Z -> res (field C) }.
(* falco/model/models.py:734-742: with factor 1j, in place *)
Definition zern_compact (b : bench) (z : Z) (wvl : R) (Ein : field C) : res (field C) :=
  if (z =? 1)%Z then Ok Ein else do m <- b_zern b z; do c <- b_zcoef b z; imul Ein (scal (Cmult Ci (RtoC (2 * PI / wvl * c))) m).
(* falco/model/models.py:744-757 *)
Definition hlc_compact (b : bench) (cd : compactdata) (s : Z) : res optics :=
  if String.eqb (upper (o_coro (b_o b))) "HLC" then
    match b_layout b with
    | LFourier => match cd_cube cd with Some c => do m <- np_get c s; Ok (with_fpm (b_o b) m) | None => do m <- cd_lut cd s; Ok (with_fpm (b_o b) m) end
    | LFpmScale | LProper => match cd_cube cd with Some c => do m <- np_get c s; Ok (with_fpm (b_o b) m) | None => Raise AttributeError end
    | LUnknown => Raise ValueError
    end
  else Ok (b_o b).
(* falco/model/models.py:640-767 *)
Definition compact_wrapper (b : bench) (cd : compactdata) (mv : modvar) (isNorm evalMode useFPM : bool) : res (field C) :=
  do nf <- (if isNorm then do s <- attr (mv_sbp mv); np_get (if evalMode then cd_I00eval cd else cd_I00 cd) s else Ok 0);
  do wvl <- match mv_wvl mv with Some l => Ok l | None => do s <- attr (mv_sbp mv); np_get (cd_lam cd) s end;
  do k <- attr (mv_star mv);
  do _ <- np_get (b_stars b) k;
  do s <- attr (mv_sbp mv);
  do E0 <- np_get (cd_E cd) s;
  do E1 <- source_field b mv wvl nf E0;
  do E2 <- zern_compact b (match mv_zern mv with Some z => z | None => 1%Z end) wvl E1;
  do o <- hlc_compact b cd s;
  match b_layout b with
  | LFourier => compact_field o wvl nf evalMode false useFPM E2
  | LFpmScale | LProper => compact_field o wvl nf evalMode (String.eqb (upper (o_coro (b_o b))) "HLC") useFPM E2
  | LUnknown => Raise NameError
  end.
Local Close Scope string_scope.
