(* Specification vocabulary for the source wrappers of the optical models. *)
From Verif Require Import Base RBase StrBase UtilModel CBase PropModel OptModel LinBase SrcModel.
Open Scope R_scope.
(* position of the wavelength of a (subband, wavelength) pair among the distinct wavelengths of the band, in increasing order: each subband has
   Nw wavelengths and shares its edges with its neighbours *)
Definition wavelength_number (Nw s w : Z) : Z := (s * (Nw - 1) + w)%Z.
Definition distinct_wavelengths (Ns Nw : Z) : Z := (Ns * (Nw - 1) + 1)%Z.
(* w samples evenly spread from edge to edge of subband s, subbands adjacent: centre of the band l0, width bw (relative) *)
Definition sample_wavelength (l0 bw : R) (Ns Nw s w : Z) : R :=
  l0 * (1 - bw / 2) + l0 * bw / IZR Ns * (IZR s + IZR w / IZR (Nw - 1)).
Definition pair_ok (Ns Nw s w : Z) : Prop := (0 <= s < Ns)%Z /\ (0 <= w < Nw)%Z.
(* the same bench with other stars; the same request for another source, another Zernike, another wavelength *)
Definition with_stars (b : bench) (l : list star) : bench := mkb (b_o b) (b_layout b) (b_X b) (b_Y b) l (b_lambda0 b) (b_normx b) (b_normy b) (b_zern b) (b_zcoef b) (b_proper b).
Definition with_source (mv : modvar) (src : string) (x y : option R) : modvar := mkmv (mv_sbp mv) (mv_wps mv) (mv_wvl mv) (mv_star mv) (Some src) x y (mv_zern mv).
Definition with_zern (mv : modvar) (z : Z) : modvar := mkmv (mv_sbp mv) (mv_wps mv) (mv_wvl mv) (mv_star mv) (mv_which mv) (mv_x mv) (mv_y mv) (Some z).
(* the pupil coordinate arrays have the shape r x c *)
Definition coords_fit (b : bench) (r c : nat) : Prop := frows (b_X b) = r /\ fcols (b_X b) = c /\ frows (b_Y b) = r /\ fcols (b_Y b) = c.
Definition fourier_layout (b : bench) : Prop := b_layout b = LFourier \/ b_layout b = LFpmScale.
(* the offsets requested *)
Definition want_off (mv : modvar) (x y : R) : Prop :=
  exists src, mv_which mv = Some src /\ ((String.eqb (lower src) "offaxis" = true /\ mv_x mv = Some x /\ mv_y mv = Some y) \/ (String.eqb (lower src) "offaxis" = false /\ x = 0 /\ y = 0)).
(* the requests compared ask for the same subband, wavelength and Zernike mode *)
Definition same_target (mv mv' : modvar) : Prop := mv_sbp mv' = mv_sbp mv /\ mv_wps mv' = mv_wps mv /\ mv_wvl mv' = mv_wvl mv /\ mv_zern mv' = mv_zern mv.
Definition full_fields (fd : fulldata) (r c : nat) : Prop := forall s w E, np_get2 (fd_E fd) s w = Ok E -> shape E r c.
Definition compact_fields (cd : compactdata) (r c : nat) : Prop := forall s E, np_get (cd_E cd) s = Ok E -> shape E r c.
(* the two wrappers, given the same data *)
Record same_data (b : bench) (fd : fulldata) (cd : compactdata) (mv : modvar) (s w : Z) (n wvl : R) (E : field C) : Prop := mksd {
  sd_s : mv_sbp mv = Some s; sd_w : mv_wps mv = Some w; sd_wvl : mv_wvl mv = None;
  sd_I : np_get2 (fd_I00 fd) s w = Ok n; sd_I' : np_get (cd_I00 cd) s = Ok n;
  sd_l : np_get2 (fd_lam fd) s w = Ok wvl; sd_l' : np_get (cd_lam cd) s = Ok wvl;
  sd_E : np_get2 (fd_E fd) s w = Ok E; sd_E' : np_get (cd_E cd) s = Ok E }.
