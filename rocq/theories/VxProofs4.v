(* The propagation through the vortex keeps the energy; without charge it is a rotation by 180 degrees. *)
From Verif Require Import Base RBase StrBase UtilModel UtilProofs CBase PropModel PropSpec PropProofs PropProofs2 OptModel OptSpec LinBase OptProofs OptProofs2 OptProofs3 OptProofs4 DiffModel DiffProofs2 SrcModel PokeModel PokeProofs PokeProofs2 GradModel GradSpec PokeSpec PokeProofs5 VxModel VxSpec VxProofs VxProofs2.
Open Scope R_scope.

Definition win (N : nat) (E : field C) : Z -> Z -> C := boxf (- hf N) (- hf N) N (fpx E).
Lemma win_rep N E : Nat.even N = true -> shape E N N -> rep N E (win N E) /\ supp (- hf N) (hf N) (win N E).
Proof.
  intros He S. apply even_hf in He. split; [split; [exact S|]|].
  - intros i j Hi Hj. unfold win, boxf. destruct (_ && _)%bool eqn:Q; [f_equal; lia|]. exfalso. repeat (apply andb_false_iff in Q; destruct Q as [Q|Q]); lia.
  - intros u v H. unfold win, boxf. destruct (_ && _)%bool eqn:Q; [|reflexivity]. repeat (apply andb_prop in Q; destruct Q as [Q ?]). repeat match goal with H : (_ && _)%bool = true |- _ => apply andb_prop in H; destruct H end. lia.
Qed.
Lemma padded_rep N n E : Nat.even N = true -> Nat.even n = true -> (1 <= N <= n)%nat -> shape E N N -> exists E', pad_cropf E n n = Ok E' /\ rep n E' (win N E) /\ supp (- hf n) (hf n) (win N E).
Proof.
  intros He He' H S. destruct (win_rep N E He S) as [R U]. destruct (rep_pad N E (win N E) n R) as (E' & EE & R'); [lia|auto|left; exact U|lia|].
  exists E'. split; auto. split; auto. intros u v Q. apply U. assert (hf N <= hf n)%Z by (unfold hf; apply Z.div_le_mono; lia). lia.
Qed.
Lemma rep_energy N n E E' G : Nat.even N = true -> Nat.even n = true -> rep N E G -> rep n E' G -> supp (- hf N) (hf N) G -> supp (- hf n) (hf n) G -> fenergy E' = fenergy E.
Proof.
  intros He He' [[S1 S2] V] [[T1 T2] V'] U1 U2. apply even_hf in He, He'. unfold fenergy, energy. rewrite S1, S2, T1, T2. apply RtoC_inj. rewrite !RtoC_rsum.
  rewrite (csum_ext n _ (fun i => csum n (fun j => RtoC (abs2 (fpx E' i j))))) by (intros; apply RtoC_rsum). rewrite (csum_ext N _ (fun i => csum N (fun j => RtoC (abs2 (fpx E i j))))) by (intros; apply RtoC_rsum).
  set (F := fun u v => RtoC (abs2 (G u v))). pose proof (sum_match false Pixel (- hf n) (- hf n) n (- hf N) N F) as SM. cbn [sg] in SM.
  assert (Z0 : abs2 (RtoC 0) = 0) by (unfold abs2; cbn; ring).
  transitivity (wsum (- hf n) n (fun u => wsum (- hf n) n (fun v => F u v))); [|rewrite SM].
  - unfold wsum. apply csum2_ext. intros a b Ha Hb. rewrite V' by auto. unfold F. do 3 f_equal; lia.
  - unfold wsum. apply csum2_ext. intros a b Ha Hb. rewrite V by auto. unfold F. do 3 f_equal; lia.
  - intros u v H. unfold F. rewrite U2, Z0; [reflexivity|lia].
  - intros u v H. unfold F. rewrite U1, Z0; [reflexivity|lia].
Qed.
Lemma abs2_cis t : abs2 (cis t) = 1.
Proof. unfold abs2, cis. cbn. pose proof (sin2_cos2 t). unfold Rsqr in *. lra. Qed.
Lemma abs2_scal t E : fenergy (scal (RtoC t) E) = t * t * fenergy E.
Proof.
  unfold fenergy, energy. cbn [scal fmap frows fcols fpx]. rewrite <- rsum_scal. apply rsum_ext. intros i _. rewrite <- rsum_scal. apply rsum_ext. intros j _. unfold abs2. cbn. ring.
Qed.
Lemma energy_shift E : fenergy (fftshift E) = fenergy E. Proof. apply energy_roll. Qed.
Lemma vortex_energy N n q E : Nat.even N = true -> Nat.even n = true -> (1 <= N <= n)%nat -> shape E N N -> fenergy (fft_vortex n q E) = fenergy E.
Proof.
  intros He He' H S. destruct (win_rep N E He S) as [R U]. destruct (padded_rep N n E He He' H S) as (E' & EE & R' & U'). destruct (ffts_value n N q E E' (win N E)) as (O & EO & SO & FO); auto; [lia|].
  rewrite <- (energy_feq _ _ FO). rewrite <- (rep_energy N n E E' (win N E) He He' R R' U U'). clear FO. pose proof (proj1 R') as SE'.
  unfold vx_ffts in EO. set (V := fftshift (vx_mask q n)) in *. set (X := fftn (fftshift E')) in *. assert (SV : shape V n n) by (split; reflexivity). assert (SX : shape X n n) by (apply fftn_shape, shift_shape; exact SE').
  destruct (bop_sq Cmult V X n n SV SX) as (VF & EV & SVF & VVF). rewrite EV in EO. cbn [rbind] in EO. injection EO as <-. assert (Hn : INR n <> 0) by (apply not_0_INR; lia).
  rewrite abs2_scal, energy_shift. unfold fftn at 1. rewrite energy_fft; [|auto|rewrite (proj1 (scal_shape' _ _ _ _ SVF)); lia|rewrite (proj2 (scal_shape' _ _ _ _ SVF)); lia]. rewrite abs2_scal.
  assert (EVF : fenergy VF = fenergy X). { destruct SVF as [F1 F2]. destruct SX as [X1 X2]. unfold fenergy, energy. rewrite F1, F2, X1, X2. apply rsum_ext. intros i Hi. apply rsum_ext. intros j Hj. rewrite VVF by auto. rewrite abs2_mult. unfold V, fftshift. cbn [roll2 fpx vx_mask]. rewrite abs2_cis. ring. }
  rewrite EVF. unfold X, fftn. rewrite energy_fft; [|auto|rewrite (proj1 (shift_shape _ _ _ SE')); lia|rewrite (proj2 (shift_shape _ _ _ SE')); lia]. rewrite energy_shift.
  cbn [scal fmap fftshift roll2 frows fcols]. destruct SVF as [F1 F2], SE' as [T1 T2]. unfold size. cbn [scal fmap frows fcols]. change (frows (fftshift E')) with (frows E'). change (fcols (fftshift E')) with (fcols E'). rewrite ?F1, ?F2, T1, T2. field. auto.
Qed.
Lemma ph_neg n u j : (u < n)%nat -> ph (-1) n u j = ph 1 n ((n - u) mod n)%nat j.
Proof.
  intros Hu. unfold ph. assert (Hn : INR n <> 0) by (apply not_0_INR; lia). destruct u as [|u].
  - rewrite Nat.sub_0_r, Nat.mod_same by lia. f_equal. cbn. unfold Rdiv. ring.
  - rewrite Nat.mod_small by lia. rewrite minus_INR by lia.
    replace (1 * (2 * PI) * (INR n - INR (S u)) * INR j / INR n) with (-1 * (2 * PI) * INR (S u) * INR j / INR n + 2 * PI * IZR (Z.of_nat j)) by (rewrite <- INR_IZR_INZ; field; auto). now rewrite cis_period.
Qed.
Lemma no_charge N n E E' i j : Nat.even N = true -> Nat.even n = true -> (1 <= N <= n)%nat -> shape E N N -> pad_cropf E n n = Ok E' -> (i < n)%nat -> (j < n)%nat ->
  fpx (fft_vortex n 0 E) i j = fpx E' ((n - i) mod n)%nat ((n - j) mod n)%nat.
Proof.
  intros He He' H S EP Hi Hj. destruct (win_rep N E He S) as [R U]. destruct (padded_rep N n E He He' H S) as (E'' & EE & R' & U'). assert (E'' = E') by congruence. subst E''. destruct (ffts_value n N 0 E E' (win N E)) as (O & EO & SO & FO); auto; [lia|].
  destruct FO as (_ & _ & FO). destruct SO as [O1 O2]. rewrite <- FO by congruence. clear FO. pose proof (proj1 R') as SE'. assert (Hn : INR n <> 0) by (apply not_0_INR; lia).
  unfold vx_ffts in EO. set (V := fftshift (vx_mask 0 n)) in *. set (X := fftn (fftshift E')) in *. assert (SV : shape V n n) by (split; reflexivity). assert (SX : shape X n n) by (apply fftn_shape, shift_shape; exact SE').
  destruct (bop_sq Cmult V X n n SV SX) as (VF & EV & SVF & VVF). rewrite EV in EO. cbn [rbind] in EO. injection EO as <-. cbn [scal fmap fpx]. unfold fftshift at 1. cbn [roll2 fpx frows fcols fftn fft_scaled scal fmap]. destruct SVF as [F1 F2]. rewrite F1, F2.
  set (u := roll_ix n (half n) i). set (v := roll_ix n (half n) j). assert (Hu : (u < n)%nat) by (apply roll_lt; lia). assert (Hv : (v < n)%nat) by (apply roll_lt; lia).
  assert (Q : dft2 (-1) n n (fun k l => Cmult (RtoC (/ INR n)) (fpx VF k l)) u v = Cmult (RtoC (/ INR n)) (dft2 1 n n (dft2 (- 1) n n (fpx (fftshift E'))) ((n - u) mod n)%nat ((n - v) mod n)%nat)).
  { unfold dft2 at 1 2. rewrite <- csum_scal. apply csum_ext. intros k Hk. rewrite <- csum_scal. apply csum_ext. intros l Hl. rewrite VVF by auto. rewrite <- !ph_neg by auto.
    unfold V, fftshift at 1. cbn [roll2 fpx vx_mask]. rewrite Rmult_0_l, cis_0. unfold X, fftn, fft_scaled. cbn [fpx frows fcols fftshift roll2]. destruct SE' as [T1 T2]. rewrite T1, T2. ring. }
  rewrite Q. rewrite (dft2_inverse 1 n n) by (auto; apply Nat.mod_upper_bound; lia). unfold fftshift. cbn [roll2 fpx frows fcols]. destruct SE' as [T1 T2]. rewrite T1, T2.
  assert (IX : forall k, (k < n)%nat -> roll_ix n (half n) ((n - roll_ix n (half n) k) mod n)%nat = ((n - k) mod n)%nat).
  { intros k Hk. unfold roll_ix. pose proof (even_hf n He') as Hh. rewrite half_hf. apply Nat2Z.inj. rewrite Z2Nat.id by (apply Z.mod_pos_bound; lia).
    assert (B : (0 <= (Z.of_nat k - hf n) mod Z.of_nat n < Z.of_nat n)%Z) by (apply Z.mod_pos_bound; lia).
    rewrite !Nat2Z.inj_mod, !Nat2Z.inj_sub by lia. rewrite Z2Nat.id by lia. rewrite Zminus_mod_idemp_l. match goal with |- ((?a - ?b - ?c) mod _ = _)%Z => replace (a - b - c)%Z with (a - c - b)%Z by lia end. rewrite Zminus_mod_idemp_r. f_equal. lia. }
  unfold u, v. rewrite !IX by auto. rewrite Cmult_assoc, Cmult_assoc. rewrite !RtoC_mult. 
  assert (K : Cmult (Cmult (RtoC (/ INR n)) (RtoC 1)) (Cmult (RtoC (/ INR n)) (Cmult (RtoC (INR n)) (RtoC (INR n)))) = RtoC 1).
  { rewrite <- !RtoC_mult. f_equal. field. auto. }
  transitivity (Cmult (Cmult (Cmult (RtoC (/ INR n)) (RtoC 1)) (Cmult (RtoC (/ INR n)) (Cmult (RtoC (INR n)) (RtoC (INR n))))) (fpx E' ((n - i) mod n)%nat ((n - j) mod n)%nat)); [ring|]. rewrite K. ring.
Qed.
