(* Proofs for C82 *)
From Coquelicot Require Import Coquelicot.
From Verif Require Import Base RBase StrBase CBase PropModel EllModel EllSpec.
Open Scope R_scope.
Lemma axis_pos e k : ell_axis e k = px_pos e k.
Proof. unfold ell_axis, px_pos. destruct (String.eqb (e_centering e) "pixel"); f_equal; ring. Qed.
Lemma dx_eq e : 0 < e_nbeam e -> ell_dx e = / e_nbeam e.
Proof. intros H. unfold ell_dx, ell_x, ell_axis. cbn [INR]. destruct (String.eqb (e_centering e) "pixel"); field; lra. Qed.
Lemma up_pos e s : 0 < e_nbeam e -> ell_up e s = sub_pos e s.
Proof. intros H. unfold ell_up, sub_pos. rewrite dx_eq by auto. field. lra. Qed.
(* the linear map whose norm is twice the radial coordinate *)
Definition mm (e : ell) (x y : R) : C :=
  ((cos (ell_rad e) * x + sin (ell_rad e) * y) / e_rx e, (sin (ell_rad e) * x - cos (ell_rad e) * y) / e_ry e).
Lemma rhoup_mod e x y : 0 < e_rx e -> 0 < e_ry e -> ell_rhoup e x y = 1/2 * Cmod (mm e x y).
Proof. intros H1 H2. unfold ell_rhoup, Cmod, mm. cbn [fst snd]. do 2 f_equal. field. split; lra. Qed.
Lemma mm_add e x y x' y' : mm e (x + x') (y + y') = Cplus (mm e x y) (mm e x' y').
Proof. unfold mm, Cplus. cbn [fst snd]. f_equal; unfold Rdiv; ring. Qed.
Lemma mod_lip (a b : C) : Rabs (Cmod (Cplus a b) - Cmod a) <= Cmod b.
Proof.
  apply Rabs_le. split.
  - assert (H := Cmod_triangle (Cplus a b) (Copp b)). replace (Cplus (Cplus a b) (Copp b)) with a in H by ring. rewrite Cmod_opp in H. lra.
  - pose proof (Cmod_triangle a b). lra.
Qed.
Lemma sq_le_1 (q : R) : 0 <= q -> (1/2 * sqrt q <= 1/2 <-> q <= 1).
Proof.
  intros H. split; intros K.
  - rewrite <- (sqrt_sqrt q) by auto. pose proof (sqrt_pos q). nra.
  - assert (sqrt q <= sqrt 1) by now apply sqrt_le_1_alt. rewrite sqrt_1 in *. lra.
Qed.
Lemma rhoup_in e m x y : 0 < e_rx e -> 0 < e_ry e -> 0 < m -> (ell_rhoup e (x - e_xs e) (y - e_ys e) / m <= 1/2 <-> in_ellipse e m x y).
Proof.
  intros H1 H2 H3. unfold in_ellipse. cbv zeta. replace (PI * e_clock e / 180) with (ell_rad e) by (unfold ell_rad; field).
  rewrite rhoup_mod by auto. set (z := mm e (x - e_xs e) (y - e_ys e)).
  replace (1/2 * Cmod z / m) with (1/2 * sqrt ((fst z / m) ^ 2 + (snd z / m) ^ 2)).
  2:{ unfold Cmod. replace ((fst z / m) ^ 2 + (snd z / m) ^ 2) with ((fst z ^ 2 + snd z ^ 2) * (/ m) ^ 2) by (field; lra).
      rewrite sqrt_mult_alt by nra. rewrite sqrt_pow2 by (left; now apply Rinv_0_lt_compat). unfold Rdiv. ring. }
  rewrite sq_le_1 by nra.
  match goal with |- ?a <= 1 <-> ?b <= 1 => replace a with b; [tauto|] end. unfold z, mm. cbn [fst snd]. field. lra.
Qed.
(* counting *)
Lemma len_filter_prod {A B} (f : A * B -> bool) (l : list A) (r : list B) :
  INR (length (filter f (list_prod l r))) = rsuml (map (fun a => rsuml (map (fun b => if f (a, b) then 1 else 0) r)) l).
Proof.
  assert (L : forall a, INR (length (filter f (map (fun y => (a, y)) r))) = rsuml (map (fun b => if f (a, b) then 1 else 0) r)).
  { intros a. induction r as [|b r IH]; [reflexivity|]. cbn [map filter rsuml]. destruct (f (a, b)); cbn [length]; [rewrite S_INR, IH; ring|rewrite IH; ring]. }
  induction l as [|a l IH]; [reflexivity|]. cbn [list_prod map rsuml]. now rewrite filter_app, app_length, plus_INR, IH, L.
Qed.
Lemma hits_sum e P dec i j :
  INR (hits e P dec i j) = rsum 101 (fun t => rsum 101 (fun s => if dec (px_pos e j + sub_pos e s) (px_pos e i + sub_pos e t) then 1 else 0)).
Proof.
  unfold hits. rewrite len_filter_prod, rsum_swap. rewrite rsuml_map_seq. apply rsum_ext. intros s _. rewrite rsuml_map_seq. apply rsum_ext. intros t _. cbn [fst snd].
  now destruct (dec (px_pos e j + sub_pos e s) (px_pos e i + sub_pos e t)).
Qed.
Lemma gray_coverage e i j : 0 < e_nbeam e -> 0 < e_rx e -> 0 < e_ry e -> ell_gray e i j = coverage e 1 i j.
Proof.
  intros Hb H1 H2. unfold ell_gray, coverage. rewrite hits_sum. replace (101 ^ 2) with 10201 by ring. f_equal.
  apply rsum_ext. intros t _. apply rsum_ext. intros s _. unfold ell_x, ell_y. rewrite !axis_pos, !up_pos by auto.
  replace (sub_pos e s + (px_pos e j - e_xs e)) with (px_pos e j + sub_pos e s - e_xs e) by ring. replace (sub_pos e t + (px_pos e i - e_ys e)) with (px_pos e i + sub_pos e t - e_ys e) by ring.
  pose proof (rhoup_in e 1 (px_pos e j + sub_pos e s) (px_pos e i + sub_pos e t) H1 H2 Rlt_0_1) as K. unfold Rdiv at 1 in K. rewrite Rinv_1, Rmult_1_r in K.
  destruct (Rle_dec _ _) as [a|a], (in_ellipse_dec _ _ _ _) as [b|b]; tauto || auto.
Qed.
Lemma flen {A} (f : A -> bool) l : (length (filter f l) <= length l)%nat.
Proof. induction l as [|a l IH]; cbn; [lia|]. destruct (f a); cbn; lia. Qed.
Lemma prod_len : length (list_prod (seq 0 101) (seq 0 101)) = (101 * 101)%nat.
Proof. now rewrite prod_length, !seq_length. Qed.
Lemma INR_pp : INR (101 * 101) = 10201.
Proof. rewrite mult_INR. replace (INR 101) with 101 by (rewrite INR_IZR_INZ; reflexivity). ring. Qed.
Lemma hits_le e P dec i j : (hits e P dec i j <= 101 * 101)%nat.
Proof.
  unfold hits. rewrite <- prod_len. apply flen.
Qed.
Lemma coverage_range e m i j : 0 <= coverage e m i j <= 1.
Proof.
  unfold coverage. pose proof (pos_INR (hits e (in_ellipse e m) (in_ellipse_dec e m) i j)). pose proof (hits_le e (in_ellipse e m) (in_ellipse_dec e m) i j) as L. apply le_INR in L. rewrite INR_pp in L.
  split; [apply Rle_mult_inv_pos; lra|]. apply (Rmult_le_reg_r 10201); [lra|]. unfold Rdiv. rewrite Rmult_assoc, Rinv_l by lra. lra.
Qed.
Lemma filter_all {A} (f : A -> bool) l : (forall x, In x l -> f x = true) -> filter f l = l.
Proof. induction l as [|a l IH]; cbn; auto. intros H. rewrite H by auto. f_equal. auto. Qed.
Lemma filter_none {A} (f : A -> bool) l : (forall x, In x l -> f x = false) -> filter f l = [].
Proof. induction l as [|a l IH]; cbn; auto. intros H. rewrite H by auto. auto. Qed.
Lemma filter_some_lt {A} (f : A -> bool) l x : In x l -> f x = false -> (length (filter f l) < length l)%nat.
Proof.
  induction l as [|a l IH]; cbn; [tauto|]. intros [->|H] E.
  - rewrite E. pose proof (flen f l). lia.
  - specialize (IH H E). destruct (f a); cbn; lia.
Qed.
Lemma coverage_full e m i j : (forall s t, (s < 101)%nat -> (t < 101)%nat -> in_ellipse e m (px_pos e j + sub_pos e s) (px_pos e i + sub_pos e t)) -> coverage e m i j = 1.
Proof.
  intros H. unfold coverage, hits. rewrite filter_all.
  - rewrite prod_len, INR_pp. field.
  - intros [s t] I. apply in_prod_iff in I. destruct I as [I1 I2]. apply in_seq in I1, I2. cbn [fst snd]. destruct (in_ellipse_dec _ _ _ _) as [|N]; auto. exfalso. apply N, H; lia.
Qed.
Lemma coverage_empty e m i j : (forall s t, (s < 101)%nat -> (t < 101)%nat -> ~ in_ellipse e m (px_pos e j + sub_pos e s) (px_pos e i + sub_pos e t)) -> coverage e m i j = 0.
Proof.
  intros H. unfold coverage, hits. rewrite filter_none.
  - cbn. field.
  - intros [s t] I. apply in_prod_iff in I. destruct I as [I1 I2]. apply in_seq in I1, I2. cbn [fst snd]. destruct (in_ellipse_dec _ _ _ _) as [Y|]; auto. exfalso. eapply H; [| |exact Y]; lia.
Qed.
Lemma coverage_lt e m i j s t : (s < 101)%nat -> (t < 101)%nat -> ~ in_ellipse e m (px_pos e j + sub_pos e s) (px_pos e i + sub_pos e t) -> coverage e m i j < 1.
Proof.
  intros Hs Ht N. unfold coverage. assert (L : (hits e (in_ellipse e m) (in_ellipse_dec e m) i j < 101 * 101)%nat).
  { unfold hits. rewrite <- prod_len. apply (filter_some_lt _ _ (s, t)); [apply in_prod; apply in_seq; lia|]. cbn [fst snd]. destruct (in_ellipse_dec _ _ _ _); tauto. }
  apply lt_INR in L. rewrite INR_pp in L. apply (Rmult_lt_reg_r 10201); [lra|]. unfold Rdiv. rewrite Rmult_assoc, Rinv_l by lra. lra.
Qed.
Lemma coverage_gt e m i j s t : (s < 101)%nat -> (t < 101)%nat -> in_ellipse e m (px_pos e j + sub_pos e s) (px_pos e i + sub_pos e t) -> 0 < coverage e m i j.
Proof.
  intros Hs Ht N. unfold coverage. apply Rdiv_lt_0_compat; [|lra]. apply (lt_INR 0). unfold hits.
  match goal with |- (0 < length (filter ?f ?l))%nat => assert (I : In (s, t) (filter f l)); [|destruct (filter f l); cbn in *; [tauto|lia]] end.
  apply filter_In. split; [apply in_prod; apply in_seq; lia|]. cbn [fst snd]. destruct (in_ellipse_dec _ _ _ _); tauto.
Qed.
Lemma sub_bound e s : 0 < e_nbeam e -> (s < 101)%nat -> Rabs (sub_pos e s) <= 50/101 / e_nbeam e.
Proof.
  intros H L. unfold sub_pos. replace (50/101 / e_nbeam e) with (50 / (101 * e_nbeam e)) by (field; lra). unfold Rdiv.
  assert (0 < / (101 * e_nbeam e)) by (apply Rinv_0_lt_compat; lra). rewrite Rabs_mult, (Rabs_right (/ _)) by lra. apply Rmult_le_compat_r; [lra|].
  apply Rabs_le. assert (INR s <= 100). { assert (L' : (s <= 100)%nat) by lia. apply le_INR in L'. rewrite (INR_IZR_INZ 100) in L'. exact L'. } pose proof (pos_INR s). lra.
Qed.
(* when the half window covers half a pixel, every value is the coverage *)
Definition window_covers (e : ell) : Prop := forall dx dy, Rabs dx <= 50/101 / e_nbeam e -> Rabs dy <= 50/101 / e_nbeam e -> 1/2 * Cmod (mm e dx dy) <= ell_half_window e.
Lemma px_coverage e i j : proper_ell e -> e_mag e = 1 -> window_covers e -> ell_px e i j = coverage e 1 i j.
Proof.
  intros P M W. destruct P as [Pc Pn Pb Px Py Pm]. assert (RH : ell_rho e i j = ell_rhoup e (ell_x e j) (ell_y e i)) by (unfold ell_rho; rewrite M; field).
  assert (NN : 0 <= ell_rho e i j) by (rewrite RH, rhoup_mod by auto; pose proof (Cmod_ge_0 (mm e (ell_x e j) (ell_y e i))); lra).
  assert (D : forall s t, (s < 101)%nat -> (t < 101)%nat -> Rabs (ell_rhoup e (px_pos e j + sub_pos e s - e_xs e) (px_pos e i + sub_pos e t - e_ys e) - ell_rho e i j) <= ell_half_window e).
  { intros s t Hs Ht. rewrite RH, !rhoup_mod by auto. unfold ell_x, ell_y. rewrite !axis_pos.
    replace (px_pos e j + sub_pos e s - e_xs e) with (px_pos e j - e_xs e + sub_pos e s) by ring. replace (px_pos e i + sub_pos e t - e_ys e) with (px_pos e i - e_ys e + sub_pos e t) by ring. rewrite mm_add.
    pose proof (mod_lip (mm e (px_pos e j - e_xs e) (px_pos e i - e_ys e)) (mm e (sub_pos e s) (sub_pos e t))) as L.
    specialize (W (sub_pos e s) (sub_pos e t) (sub_bound e s Pb Hs) (sub_bound e t Pb Ht)). rewrite <- Rmult_minus_distr_l, Rabs_mult, (Rabs_right (1/2)) by lra. lra. }
  assert (IN : forall x y, in_ellipse e 1 x y <-> ell_rhoup e (x - e_xs e) (y - e_ys e) <= 1/2).
  { intros x y. rewrite <- rhoup_in by (auto; lra). unfold Rdiv at 1. rewrite Rinv_1, Rmult_1_r. tauto. }
  unfold ell_px. cbv zeta. rewrite (Rabs_right (ell_rho e i j)) by lra. destruct (Rlt_dec _ _) as [L|_]; [|destruct (Rlt_dec _ _) as [L|_]].
  - symmetry. apply coverage_empty. intros s t Hs Ht Y. apply IN in Y. specialize (D s t Hs Ht). apply Rabs_le_between in D. lra.
  - symmetry. apply coverage_full. intros s t Hs Ht. apply IN. specialize (D s t Hs Ht). apply Rabs_le_between in D. lra.
  - now apply gray_coverage.
Qed.
