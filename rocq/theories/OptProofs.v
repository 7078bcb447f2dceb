From Verif Require Import Base RBase StrBase UtilModel CBase PropModel PropSpec PropProofs PropProofs2 OptModel LinBase.
Open Scope R_scope.

Lemma lin_at_ext f g r c : lin_at f r c -> (forall E, shape E r c -> req_field (f E) (g E)) -> lin_at g r c.
Proof.
  intros [[e He]|(r' & c' & K & HK)] H.
  - left. exists e. intros E S. specialize (H E S). rewrite He in H by auto. destruct (g E); cbn in H; [destruct H|congruence].
  - right. exists r', c', K. intros E S. destruct (HK E S) as (O & EO & [O1 O2] & V). specialize (H E S). rewrite EO in H. destruct (g E) as [O'|]; [|destruct H].
    destruct H as (H1 & H2 & H3). exists O'. split; [auto|]. split; [split; congruence|]. intros k l Hk Hl. rewrite <- H3 by congruence. auto.
Qed.
(* separable transform with m x m output *)
Definition sep (m : nat) (a b : nat -> nat -> nat -> C) (s : C) (E : field C) : field C :=
  mkf m m (fun k l => Cmult s (csum (frows E) (fun i => csum (fcols E) (fun j => Cmult (Cmult (a (fcols E) k i) (b (fcols E) j l)) (fpx E i j))))).
Lemma lin_sep m a b s : lin (fun E => Ok (sep m a b s E)).
Proof.
  apply lin_pure. intros r c. exists m, m, (fun k l i j => Cmult s (Cmult (a c k i) (b c j l))). intros E [S1 S2]. split; [split; reflexivity|]. intros k l _ _. cbn. rewrite S1, S2.
  unfold apply_kernel. rewrite <- csum_scal. apply csum_ext. intros i _. rewrite <- csum_scal. apply csum_ext. intros j _. ring.
Qed.
Definition sep_to_cols (a b : nat -> nat -> nat -> C) (s : C) (n : nat) (E : field C) : field C := sep n (fun _ => a n) (fun _ => b n) s E.
Lemma dft_uxxu_sum rg u x n A k l : dft_uxxu rg u x n A k l = csum n (fun i => csum n (fun j => Cmult (Cmult (cis (- rg * (2 * PI) * (u k * x i))) (cis (- rg * (2 * PI) * (x j * u l)))) (A i j))).
Proof.
  unfold dft_uxxu. rewrite (csum_ext n _ (fun j => csum n (fun i => Cmult (Cmult (cis (- rg * (2 * PI) * (u k * x i))) (cis (- rg * (2 * PI) * (x j * u l)))) (A i j)))).
  2:{ intros j _. rewrite <- csum_scal_r. apply csum_ext. intros i _. ring. }
  apply csum_swap.
Qed.
Lemma dft_uxxu_ext rg u x n A B k l : (forall i j, (i < n)%nat -> (j < n)%nat -> A i j = B i j) -> dft_uxxu rg u x n A k l = dft_uxxu rg u x n B k l.
Proof. intros H. rewrite !dft_uxxu_sum. apply csum2_ext. intros. now rewrite H. Qed.
Lemma lin_vortex q br iv ov rev : lin (fun E => mft_p2v2p E q br iv ov rev).
Proof.
  intros r c. unfold mft_p2v2p. destruct (Rle_dec br 0); [apply lin_raise|]. destruct (Rle_dec iv 0); [apply lin_raise|]. destruct (Rle_dec ov 0); [apply lin_raise|].
  destruct (Nat.eqb_spec r c) as [->|Hn]; [|left; exists ValueError; intros E [S1 S2]; rewrite S1, S2; destruct (Nat.eqb_spec r c); [contradiction|reflexivity]].
  set (D := 2 * br). set (NB := Z.to_nat (ceil_even (4 * D))). set (rg := if rev then -1 else 1).
  set (FPM := vortex_fpm q rev NB). set (RHO := fun i j => sqrt (vaxis NB j * vaxis NB j + vaxis NB i * vaxis NB i)). set (knee := 1 - iv / ov).
  set (w1 := fun i j => tukey_window (2 * ov * 4) knee (RHO i j)). set (w2 := fun i j => tukey_window (INR NB) knee (RHO i j)).
  set (x := fun k => vaxis c k / D). set (u1 := fun k => vaxis NB k / 4). set (u2 := fun k => vaxis NB k * 2 * ov / INR NB).
  set (c1 := RtoC (1 / (1 * D * 4))). set (c2 := RtoC (2 * ov / (1 * D * INR NB))).
  set (a := fun u x : nat -> R => fun (_ k i : nat) => cis (- rg * (2 * PI) * (u k * x i))).
  set (br' := fun (u : nat -> R) (s : C) (w : nat -> nat -> R) E => do F <- Ok (sep NB (a u x) (fun _ j l => cis (- rg * (2 * PI) * (x j * u l))) s E);
     do G <- Ok (mul_by (fun i j => Cmult (FPM i j) (RtoC (w i j))) F); Ok (sep c (a x u) (fun _ j l => cis (- rg * (2 * PI) * (u j * x l))) s G)).
  apply (lin_at_ext (fun E => do A <- br' u1 c1 (fun i j => 1 - w1 i j) E; do B <- br' u2 c2 w2 E; bop (if true then Cplus else Cminus) A B)).
  - assert (L : forall u s w, lin (br' u s w)).
    { intros u s w. unfold br'. apply (lin_bind (fun E => Ok (sep NB (a u x) (fun _ j l => cis (- rg * (2 * PI) * (x j * u l))) s E))
        (fun F => do G <- Ok (mul_by (fun i j => Cmult (FPM i j) (RtoC (w i j))) F); Ok (sep c (a x u) (fun _ j l => cis (- rg * (2 * PI) * (u j * x l))) s G))); [apply lin_sep|].
      apply (lin_bind (fun F => Ok (mul_by (fun i j => Cmult (FPM i j) (RtoC (w i j))) F)) (fun G => Ok (sep c (a x u) (fun _ j l => cis (- rg * (2 * PI) * (u j * x l))) s G))); [|apply lin_sep].
      apply (lin_mul_by (fun _ _ i j => Cmult (FPM i j) (RtoC (w i j)))). }
    exact (lin_bop2 true _ _ (L u1 c1 (fun i j => 1 - w1 i j)) (L u2 c2 w2) c c).
  - intros E [S1 S2]. rewrite S1, S2, Nat.eqb_refl. cbn [negb]. unfold br'. cbn [rbind]. unfold bop. cbn [sep frows fcols]. unfold bdim. rewrite Nat.eqb_refl.
    split; [reflexivity|]. split; [reflexivity|]. cbn [frows fcols fpx]. intros k l Hk Hl.
    assert (Bx : forall i, (i < c)%nat -> bix c i = i) by (intros i Hi; unfold bix; destruct (Nat.eqb_spec c 1); lia). rewrite !Bx by auto. cbn [mul_by frows fcols fpx]. unfold sep. cbn [frows fcols fpx]. rewrite S1, S2.
    f_equal; rewrite dft_uxxu_sum; f_equal; apply csum2_ext; intros i j Hi Hj; unfold a; rewrite dft_uxxu_sum; unfold mul_by, x, w1, w2, RHO; cbn [fpx frows fcols]; ring.
Qed.
Lemma lin_req_dec (P : bool) f g : lin f -> lin g -> lin (fun E => if P then f E else g E).
Proof. destruct P; auto. Qed.
Lemma lin_to_Fend o w g : lin (to_Fend o w g).
Proof. apply (lin_bind (fun E => relay E _ _) (fun E => mft_p2f E _ _ _ _ _ _ _ _)); [apply lin_relay|apply lin_p2f]. Qed.
Lemma lin_apod o : lin (fun E => match o_apod o with None => Ok E | Some (m, na) => do p <- pad_cropf E na na; bop Cmult m p end).
Proof. destruct (o_apod o) as [[m na]|]; [|apply lin_id]. apply (lin_bind (fun E => pad_cropf E na na) (fun p => bop Cmult m p)); [apply lin_pad_crop|apply lin_mask_l]. Qed.
Ltac lstep := first [apply lin_relay | apply lin_pad_crop | apply lin_mask_l | apply lin_mask_r | apply lin_imul | apply lin_ptp | apply lin_p2f | apply lin_f2p | apply lin_scal | apply lin_id | apply lin_raise | apply lin_apod | apply lin_vortex | apply lin_normalise | apply lin_to_Fend].
Lemma lin_maybe_ptp (b : bool) fw w z : lin (fun E => if b then Ok E else ptp E fw w z).
Proof. destruct b; lstep. Qed.
Lemma lin_full_to_P3 o w : lin (full_to_P3 o w).
Proof.
  unfold full_to_P3. apply lin_const_bind. intros pup.
  assert (HS : lin (fun E => do st1 <- stop_or_ones (o_pad o) (o_stop1 o); do st2 <- stop_or_ones (o_pad o) (o_stop2 o);
    if o_wfe o then Raise NameError else do EP1 <- bop Cmult pup E; do EP2 <- relay EP1 (nrel o (o_n12 o)) (o_cen o);
    do Edm1 <- (if Req_EM_T (o_d1 o) 0 then Ok EP2 else ptp EP2 (o_dx2 o * INR (o_pad o)) w (o_d1 o));
    do a1 <- bop Cmult Edm1 (ones (o_pad o)); do a2 <- bop Cmult a1 st1; do Edm1b <- bop Cmult a2 (phasor w (surf_or_zero (o_use1 o) (o_pad o) (o_surf1 o)));
    do Edm2 <- ptp Edm1b (o_dx2 o * INR (o_pad o)) w (o_d12 o);
    do b1 <- bop Cmult (ones (o_pad o)) st2; do b2 <- bop Cmult b1 (phasor w (surf_or_zero (o_use2 o) (o_pad o) (o_surf2 o)));
    do Edm2' <- imul Edm2 b2;
    do EP2eff <- (if Req_EM_T (o_d1 o + o_d12 o) 0 then Ok Edm2' else ptp Edm2' (o_dx2 o * INR (o_pad o)) w (-1 * (o_d12 o + o_d1 o)));
    do EP3 <- relay EP2eff (nrel o (o_n23 o)) (o_cen o);
    match o_apod o with None => Ok EP3 | Some (m, na) => do p <- pad_cropf EP3 na na; bop Cmult m p end)).
  { apply lin_const_bind. intros st1. apply lin_const_bind. intros st2. destruct (o_wfe o); [apply lin_raise|].
    apply lin_bind; [lstep|]. apply lin_bind; [lstep|]. apply lin_bind; [destruct (Req_EM_T (o_d1 o) 0); lstep|].
    apply lin_bind; [lstep|]. apply lin_bind; [lstep|]. apply lin_bind; [lstep|]. apply lin_bind; [lstep|].
    apply lin_const_bind. intros b1. apply lin_const_bind. intros b2. apply lin_bind; [lstep|]. apply lin_bind; [destruct (Req_EM_T (o_d1 o + o_d12 o) 0); lstep|].
    apply lin_bind; [lstep|lstep]. }
  apply (lin_bind (fun E => pad_cropf E (o_pad o) (o_pad o)) _ (lin_pad_crop _ _) HS).
Qed.

(* operators of two fields, jointly linear *)
Definition lin2 (g : field C -> field C -> res (field C)) : Prop := forall r1 c1 r2 c2,
  (exists e, forall E F, shape E r1 c1 -> shape F r2 c2 -> g E F = Raise e) \/
  exists r' c' K L, forall E F, shape E r1 c1 -> shape F r2 c2 -> exists O, g E F = Ok O /\ shape O r' c' /\
    forall k l, (k < r')%nat -> (l < c')%nat -> fpx O k l = Cplus (apply_kernel r1 c1 K (fpx E) k l) (apply_kernel r2 c2 L (fpx F) k l).
Lemma apply_kernel_plus r c K L E k l : apply_kernel r c (fun k l i j => Cplus (K k l i j) (L k l i j)) E k l = Cplus (apply_kernel r c K E k l) (apply_kernel r c L E k l).
Proof. unfold apply_kernel. rewrite <- csum_plus. apply csum_ext. intros i _. rewrite <- csum_plus. apply csum_ext. intros j _. ring. Qed.
Lemma lin2_diag g : lin2 g -> lin (fun E => g E E).
Proof.
  intros H r c. destruct (H r c r c) as [[e He]|(r' & c' & K & L & HK)]; [left; exists e; auto|].
  right. exists r', c', (fun k l i j => Cplus (K k l i j) (L k l i j)). intros E S. destruct (HK E E S S) as (O & EO & SO & V). exists O. split; [auto|]. split; [auto|].
  intros k l Hk Hl. rewrite V by auto. symmetry. apply apply_kernel_plus.
Qed.
Lemma apply_kernel_comp r c r1 c1 K2 K1 E F k l : (forall p q, (p < r1)%nat -> (q < c1)%nat -> F p q = apply_kernel r c K1 E p q) ->
  apply_kernel r1 c1 K2 F k l = apply_kernel r c (fun k l i j => csum r1 (fun p => csum c1 (fun q => Cmult (K2 k l p q) (K1 p q i j)))) E k l.
Proof.
  intros H. assert (HK : has_kernel (fun A => Ok (mkf r1 c1 (apply_kernel r c K1 (fpx A)))) r c r1 c1 K1) by (intros A _; eexists; split; [reflexivity|]; split; [split; reflexivity|reflexivity]).
  assert (HL : has_kernel (fun A => Ok (mkf (S k) (S l) (apply_kernel r1 c1 K2 (fpx A)))) r1 c1 (S k) (S l) K2) by (intros A _; eexists; split; [reflexivity|]; split; [split; reflexivity|reflexivity]).
  destruct (kernel_bind _ _ _ _ _ _ _ _ _ _ HK HL (mkf r c E) (conj eq_refl eq_refl)) as (O & EO & _ & V). cbn [rbind] in EO. injection EO as <-. cbn [fpx] in V. rewrite <- V by lia.
  apply csum2_ext. intros i j Hi Hj. now rewrite H.
Qed.
Lemma lin2_bind1 f h : lin f -> lin2 h -> lin2 (fun E F => do A <- f E; h A F).
Proof.
  intros Hf Hh r1 c1 r2 c2. destruct (Hf r1 c1) as [[e He]|(ra & ca & KA & HA)]; [left; exists e; intros E F S _; now rewrite He|].
  destruct (Hh ra ca r2 c2) as [[e He]|(r' & c' & K & L & HK)]; [left; exists e; intros E F S T; destruct (HA E S) as (A & -> & SA & _); cbn [rbind]; auto|].
  right. do 3 eexists. exists L. intros E F S T. destruct (HA E S) as (A & -> & SA & VA). cbn [rbind]. destruct (HK A F SA T) as (O & EO & SO & V). exists O. split; [exact EO|]. split; [exact SO|].
  intros k l Hk Hl. rewrite V by auto. f_equal. apply apply_kernel_comp. exact VA.
Qed.
Lemma lin2_bind2 f h : lin f -> lin2 h -> lin2 (fun E F => do B <- f F; h E B).
Proof.
  intros Hf Hh r1 c1 r2 c2. destruct (Hf r2 c2) as [[e He]|(ra & ca & KA & HA)]; [left; exists e; intros E F _ S; now rewrite He|].
  destruct (Hh r1 c1 ra ca) as [[e He]|(r' & c' & K & L & HK)]; [left; exists e; intros E F T S; destruct (HA F S) as (A & -> & SA & _); cbn [rbind]; auto|].
  right. do 2 eexists. exists K. eexists. intros E F T S. destruct (HA F S) as (A & -> & SA & VA). cbn [rbind]. destruct (HK E A T SA) as (O & EO & SO & V). exists O. split; [exact EO|]. split; [exact SO|].
  intros k l Hk Hl. rewrite V by auto. f_equal. apply apply_kernel_comp. exact VA.
Qed.
Lemma lin2_swap g : lin2 g -> lin2 (fun E F => g F E).
Proof.
  intros H r1 c1 r2 c2. destruct (H r2 c2 r1 c1) as [[e He]|(r' & c' & K & L & HK)]; [left; exists e; auto|]. right. exists r', c', L, K.
  intros E F S T. destruct (HK F E T S) as (O & EO & SO & V). exists O. split; [auto|]. split; [auto|]. intros k l Hk Hl. rewrite V by auto. ring.
Qed.
Lemma lin2_minus : lin2 (fun A B => bop Cminus B A).
Proof.
  intros r1 c1 r2 c2. unfold bop. destruct (bdim r2 r1) as [r'|] eqn:Br; [|left; exists ValueError; intros A B [A1 A2] [B1 B2]; now rewrite A1, B1, Br].
  destruct (bdim c2 c1) as [c'|] eqn:Bc; [|left; exists ValueError; intros A B [A1 A2] [B1 B2]; now rewrite A1, B1, A2, B2, Br, Bc].
  right. exists r', c'. do 2 eexists. intros A B [A1 A2] [B1 B2]. rewrite A1, B1, A2, B2, Br, Bc. eexists. split; [reflexivity|]. split; [split; reflexivity|]. cbn [fpx]. intros k l Hk Hl.
  destruct (bdim_ix _ _ _ _ Br Hk) as [P1 P2]. destruct (bdim_ix _ _ _ _ Bc Hl) as [Q1 Q2].
  rewrite (gather_kernel r1 c1 (fun _ _ => Copp (RtoC 1)) (fun k _ => bix r1 k) (fun _ l => bix c1 l)) by auto.
  rewrite (gather_kernel r2 c2 (fun _ _ => RtoC 1) (fun k _ => bix r2 k) (fun _ l => bix c2 l)) by auto. ring.
Qed.
Lemma lin2_scal t h : lin2 h -> lin2 (fun A B => h A (scal t B)).
Proof.
  intros H. generalize (lin2_bind2 _ _ (lin_scal t) H). auto.
Qed.

Lemma lin2_only1 f : lin f -> lin2 (fun A _ => f A).
Proof.
  intros H r1 c1 r2 c2. destruct (H r1 c1) as [[e He]|(r' & c' & K & HK)]; [left; exists e; auto|]. right. exists r', c', K, (fun _ _ _ _ => RtoC 0). intros E F S T.
  destruct (HK E S) as (O & EO & SO & V). exists O. split; [auto|]. split; [auto|]. intros k l Hk Hl. rewrite V by auto.
  assert (Z : apply_kernel r2 c2 (fun _ _ _ _ => RtoC 0) (fpx F) k l = RtoC 0).
  { unfold apply_kernel. apply csum_zero. intros i _. apply csum_zero. intros j _. ring. } rewrite Z. ring.
Qed.
Lemma lin_fpm o w s : lin (p2f_f3 o w s).
Proof. apply lin_p2f. Qed.
Lemma lin_fpm_back o w s : lin (f2p_f3 o w s).
Proof. apply lin_f2p. Qed.
Lemma lin_vprop o : lin (vortex_prop o).
Proof. unfold vortex_prop. apply (lin_const_bind (get_charge (o_charge o)) (fun q E => mft_p2v2p E q (o_nbeam1 o / 2) 0.3 5 false)). intros q. apply lin_vortex. Qed.
Lemma lin_full_P3_P4 o w s : lin (full_P3_to_P4 o w s).
Proof.
  unfold full_P3_to_P4. set (cn := o_cen o). set (n := nrel o (o_n34 o)). set (N := o_narr4 o). set (m := o_fpm o).
  destruct (str_in _ _).
  { apply (lin2_diag (fun A B => do inc <- p2f_f3 o w s A; do EF3 <- bop Cmult (fmap (fun z => Cminus (RtoC 1) z) m) inc;
      do sub <- mft_f2p EF3 (o_fl o) w (s * g_dxi (o_f3 o)) (g_deta (o_f3 o)) (s * o_dx4 o) N cn; do no <- relay B n cn; do sub' <- relay sub (n - 1) cn; do no' <- pad_cropf no N N; bop Cminus no' sub')).
    apply lin2_bind1; [apply lin_fpm|]. apply lin2_bind1; [lstep|]. apply lin2_bind1; [lstep|]. apply lin2_bind2; [lstep|]. apply lin2_bind1; [lstep|]. apply lin2_bind2; [lstep|]. apply lin2_minus. }
  destruct (str_in _ _).
  { apply lin_const_bind. intros t.
    apply (lin2_diag (fun A B => do inc <- p2f_f3 o w s A; do EF3 <- bop Cmult (fmap (fun z => Cminus t z) m) inc; do no <- relay B n cn; do no' <- pad_cropf no N N;
      do sub <- f2p_f3 o w s EF3; do sub' <- relay sub (n - 1) cn; bop Cminus (scal t no') sub')).
    apply lin2_bind1; [apply lin_fpm|]. apply lin2_bind1; [lstep|]. apply lin2_bind2; [lstep|]. apply lin2_bind2; [lstep|]. apply lin2_bind1; [apply lin_fpm_back|]. apply lin2_bind1; [lstep|].
    apply (lin2_scal t (fun A B => bop Cminus B A)). apply lin2_minus. }
  destruct (str_in _ _).
  { apply lin_bind; [apply lin_fpm|]. apply lin_bind; [lstep|]. apply lin_bind; [apply lin_fpm_back|]. lstep. }
  destruct (str_in _ _); [|lstep].
  apply lin_bind; [apply lin_vprop|]. apply lin_bind; lstep.
Qed.
Lemma lin_pure_bind (f : field C -> field C) g : lin (fun E => Ok (f E)) -> lin g -> lin (fun E => g (f E)).
Proof. intros H1 H2. apply (lin_bind _ _ H1 H2). Qed.
Definition full_from (o : optics) (w nf s : R) (EP3 : field C) : res (field C) :=
  do EP4 <- full_P3_to_P4 o w s EP3;
  do EP4' <- (if Req_EM_T nf 0 then
                if is_vortex o then do r <- relay EP3 (nrel o (o_n34 o)) (o_cen o); pad_cropf r (o_narr4 o) (o_narr4 o)
                else Ok EP4
              else Ok EP4);
  do EP4'' <- imul EP4' (o_lyot o);
  do F <- to_Fend o w (o_fend o) EP4'';
  Ok (normalise nf F).
Lemma lin_full_from o w nf s : lin (full_from o w nf s).
Proof.
  unfold full_from.
  assert (L : lin (fun EP4 => do EP4'' <- imul EP4 (o_lyot o); do F <- to_Fend o w (o_fend o) EP4''; Ok (normalise nf F))).
  { apply lin_bind; [lstep|]. apply lin_bind; [lstep|]. lstep. }
  destruct (Req_EM_T nf 0); [|apply (lin_bind _ _ (lin_full_P3_P4 o w s) L)].
  destruct (is_vortex o); [|apply (lin_bind _ _ (lin_full_P3_P4 o w s) L)].
  (* the masked field is computed and dropped *)
  assert (D : lin2 (fun A B => do _ <- full_P3_to_P4 o w s A; do E' <- (do r <- relay B (nrel o (o_n34 o)) (o_cen o); pad_cropf r (o_narr4 o) (o_narr4 o)); do EP4'' <- imul E' (o_lyot o); do F <- to_Fend o w (o_fend o) EP4''; Ok (normalise nf F))).
  { apply (lin2_bind1 (full_P3_to_P4 o w s) (fun _ B => do E' <- (do r <- relay B (nrel o (o_n34 o)) (o_cen o); pad_cropf r (o_narr4 o) (o_narr4 o)); do EP4'' <- imul E' (o_lyot o); do F <- to_Fend o w (o_fend o) EP4''; Ok (normalise nf F))).
    - apply lin_full_P3_P4.
    - apply (lin2_swap (fun B _ => _)). apply lin2_only1. apply (lin_bind (fun B => do r <- relay B (nrel o (o_n34 o)) (o_cen o); pad_cropf r (o_narr4 o) (o_narr4 o)) _); [|exact L]. apply lin_bind; lstep. }
  exact (lin2_diag _ D).
Qed.
Lemma lin_full o w nf sc : lin (full_Fourier o w nf sc).
Proof.
  unfold full_Fourier. apply (lin_const_bind (fpm_scale o w sc)). intros s. apply lin_bind; [apply lin_full_to_P3|]. apply (lin_full_from o w nf s).
Qed.

Definition compact_EP3 (o : optics) (w : R) (E : field C) : res (field C) := do m <- compact_to_P3 o w E; Ok (m_EP3 m).
Definition compact_tail o w E := do EP2eff <- (if Req_EM_T (o_d1 o + o_d12 o) 0 then Ok E else ptp E (o_dx2 o * INR (o_pad o)) w (- (o_d1 o + o_d12 o)));
  do EP3 <- relay EP2eff (nrel o (o_n23 o)) (o_cen o); match o_apod o with None => Ok EP3 | Some (m, na) => do p <- pad_cropf EP3 na na; bop Cmult m p end.
Definition compact_DM2 o w st2 E := do p12 <- ptp E (o_dx2 o * INR (o_pad o)) w (o_d12 o); do e2 <- bop Cmult st2 p12; do b1 <- bop Cmult (ones (o_pad o)) e2;
  do Edm2 <- bop Cmult b1 (phasor w (surf_or_zero (o_use2 o) (o_pad o) (o_surf2 o))); compact_tail o w Edm2.
Definition compact_flat o w E := do pup <- pad_cropf (o_pupil o) (o_pad o) (o_pad o); do E <- pad_cropf E (o_pad o) (o_pad o); do st1 <- stop_or_ones (o_pad o) (o_stop1 o); do st2 <- stop_or_ones (o_pad o) (o_stop2 o);
    if o_wfe o && (o_use1 o || o_use2 o) then Raise TypeError else do EP1 <- bop Cmult pup E; do EP2 <- relay EP1 (nrel o (o_n12 o)) (o_cen o);
    do pre <- (if Req_EM_T (o_d1 o) 0 then Ok EP2 else ptp EP2 (o_dx2 o * INR (o_pad o)) w (o_d1 o));
    do pre' <- imul pre st1; do a1 <- bop Cmult pre' (ones (o_pad o)); do p <- bop Cmult a1 (phasor w (surf_or_zero (o_use1 o) (o_pad o) (o_surf1 o))); compact_DM2 o w st2 p.
Lemma compact_EP3_eq o w E : compact_EP3 o w E = compact_flat o w E.
Proof.
  unfold compact_EP3, compact_flat, compact_DM2, compact_tail, compact_to_P3. repeat (match goal with |- _ = rbind ?x _ => destruct x as [?|?]; cbn [rbind]; [|reflexivity] end).
  destruct (o_wfe o && (o_use1 o || o_use2 o)); [reflexivity|]. repeat (match goal with |- _ = rbind ?x _ => destruct x as [?|?]; cbn [rbind]; [|reflexivity] end).
  destruct (match o_apod o with None => _ | Some _ => _ end); reflexivity.
Qed.
Lemma lin_compact_tail o w : lin (compact_tail o w).
Proof. unfold compact_tail. apply lin_bind; [destruct (Req_EM_T (o_d1 o + o_d12 o) 0); lstep|]. apply lin_bind; lstep. Qed.
Lemma lin_compact_DM2 o w st2 : lin (compact_DM2 o w st2).
Proof. unfold compact_DM2. do 4 (apply lin_bind; [lstep|]). apply lin_compact_tail. Qed.
Lemma lin_compact_EP3 o w : lin (compact_EP3 o w).
Proof.
  apply (lin_ext (compact_flat o w)); [intros; symmetry; apply compact_EP3_eq|]. unfold compact_flat.
  apply lin_const_bind. intros pup. apply lin_bind; [lstep|]. apply lin_const_bind. intros st1. apply lin_const_bind. intros st2. destruct (o_wfe o && (o_use1 o || o_use2 o)); [lstep|].
  apply lin_bind; [lstep|]. apply lin_bind; [lstep|]. apply lin_bind; [destruct (Req_EM_T (o_d1 o) 0); lstep|]. do 3 (apply lin_bind; [lstep|]). apply lin_compact_DM2.
Qed.
Lemma lin_compact_P3_P4 o w s t fpm : lin (o_downsample o) -> lin (compact_P3_to_P4 o w s t fpm).
Proof.
  intros HD. unfold compact_P3_to_P4. set (cn := o_cen o). set (n := nrel o (o_n34 o)). set (N := o_narr4 o). set (m := o_fpm o). destruct fpm.
  - destruct (is_vortex o); [apply lin_bind; [apply lin_vprop|]; apply lin_bind; lstep|].
    destruct (str_in _ _); [apply lin_bind; [apply lin_fpm|]; apply lin_bind; [lstep|]; apply lin_bind; [apply lin_fpm_back|]; lstep|].
    destruct (str_in _ _); [|lstep].
    apply (lin2_diag (fun A B => do inc <- p2f_f3 o w s A; do EF3 <- bop Cmult (fmap (fun z => Cminus t z) m) inc; do no <- relay B n cn; do no' <- pad_cropf no N N;
      do sub <- f2p_f3 o w s EF3; do sub' <- relay sub (n - 1) cn; bop Cminus (scal t no') sub')).
    apply lin2_bind1; [apply lin_fpm|]. apply lin2_bind1; [lstep|]. apply lin2_bind2; [lstep|]. apply lin2_bind2; [lstep|]. apply lin2_bind1; [apply lin_fpm_back|]. apply lin2_bind1; [lstep|].
    apply (lin2_scal t (fun A B => bop Cminus B A)). apply lin2_minus.
  - apply lin_bind; [lstep|]. apply (lin_pure_bind (scal t) (fun EP4 => do E <- (if Req_EM_T (o_nbeam4 o) (o_nbeam1 o) then Ok EP4 else o_downsample o EP4); pad_cropf E N N)); [lstep|].
    apply lin_bind; [destruct (Req_EM_T (o_nbeam4 o) (o_nbeam1 o)); [lstep|exact HD]|lstep].
Qed.
Definition compact_from (o : optics) (w nf : R) (ev fpm : bool) (t : C) (s : R) (EP3 : field C) : res (field C) :=
  do EP4 <- compact_P3_to_P4 o w s t (if Req_EM_T nf 0 then (if is_vortex o then false else fpm) else fpm) EP3;
  do EP4' <- bop Cmult (o_lyot o) EP4;
  do F <- to_Fend o w (if ev then o_eval o else o_fend o) EP4'; Ok (normalise nf F).
Lemma compact_field_eq o w nf ev sc fpm E : compact_field o w nf ev sc fpm E =
  do t <- compact_trans o; do s <- fpm_scale o w sc; do P3 <- compact_EP3 o w E; compact_from o w nf ev fpm t s P3.
Proof.
  unfold compact_field, compact_general, compact_EP3. destruct (compact_trans o); cbn [rbind]; [|reflexivity]. destruct (fpm_scale o w sc); cbn [rbind]; [|reflexivity].
  destruct (compact_to_P3 o w E); cbn [rbind]; [|reflexivity]. unfold compact_from.
  repeat (match goal with |- _ = rbind ?x _ => destruct x as [?|?]; cbn [rbind]; [|reflexivity] end). reflexivity.
Qed.
Lemma lin_compact_from o w nf ev fpm t s : lin (o_downsample o) -> lin (compact_from o w nf ev fpm t s).
Proof. intros HD. unfold compact_from. apply lin_bind; [apply lin_compact_P3_P4; auto|]. do 2 (apply lin_bind; [lstep|]). lstep. Qed.
Lemma lin_compact o w nf ev sc fpm : lin (o_downsample o) -> lin (compact_field o w nf ev sc fpm).
Proof.
  intros HD. apply (lin_ext (fun E => do t <- compact_trans o; do s <- fpm_scale o w sc; do P3 <- compact_EP3 o w E; compact_from o w nf ev fpm t s P3)); [intros; symmetry; apply compact_field_eq|].
  apply lin_const_bind. intros t. apply lin_const_bind. intros s. apply lin_bind; [apply lin_compact_EP3|]. now apply lin_compact_from.
Qed.
