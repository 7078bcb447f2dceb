(* Lemmas for the discs of pupils (C103) *)
From Verif Require Import Base StrBase RBase CBase PropModel PropProofs EllModel EllSpec EllProofs EllProps RectModel RectSpec RectProps SimpModel SimpSpec SimpProofs.
Open Scope R_scope.
Lemma disc_pos p d k : px_pos (disc p d) k = pos p (INR k).
Proof. reflexivity. Qed.
Lemma disc_sample p d k s : 0 < s_nbeam p -> px_pos (disc p d) k + sub_pos (disc p d) s = pos p (sample k s).
Proof. intros B. unfold px_pos, sub_pos, pos, sample. cbn [e_centering e_narray e_nbeam disc]. destruct (String.eqb _ _); field; lra. Qed.
Lemma disc_in p d x y : in_ellipse (disc p d) 1 x y <-> in_disc p d x y.
Proof.
  unfold in_ellipse, in_disc. cbv zeta. cbn [e_clock e_xs e_ys e_rx e_ry disc]. replace (1 * (s_xst p * (5 / 10) * d)) with (s_xst p * d / 2) by field. replace (1 * (5 / 10 * d)) with (d / 2) by field. tauto.
Qed.
Lemma disc_coverage p d i j : 0 < s_nbeam p -> coverage (disc p d) 1 i j = disc_cover p d i j.
Proof.
  intros B. unfold coverage, disc_cover, hits. f_equal. f_equal. f_equal. apply filter_ext. intros [s t]. cbn [fst snd].
  destruct (in_ellipse_dec _ _ _ _) as [H|H]; destruct (in_disc_dec _ _ _ _) as [K|K]; auto; rewrite !disc_sample, disc_in in H by auto; contradiction.
Qed.
Lemma disc_proper p d : usual p -> 0 < d -> proper_ell (disc p d).
Proof. intros [C N B O I0 X W] D. constructor; cbn; auto; try lra. assert (0 < s_xst p * d) by now apply Rmult_lt_0_compat. lra. Qed.
Lemma disc_framed p d : 0 < d -> 0 < s_nbeam p -> framed p -> well_framed (disc p d).
Proof.
  intros D B F. unfold well_framed, framed in *. cbv zeta in *. cbn [e_clock e_xs e_ys e_rx e_ry e_nbeam disc]. rewrite disc_pos. change (INR 0) with 0. unfold Rdiv in *. set (h := 101 * / 2 * / s_nbeam p) in *.
  destruct F as [[E H]|[[E [L H]]|[E [L H]]]].
  - left. split; auto. rewrite E. ring.
  - right. left. split; auto. split; auto. assert (s_xst p * d <= 1 * d) by (apply Rmult_le_compat_r; lra). lra.
  - right. right. split; auto. split; auto. assert (1 * d <= s_xst p * d) by (apply Rmult_le_compat_r; lra). lra.
Qed.
Lemma ell_gen_ok p d : usual p -> 0 < d -> exists f, falco_gen_ellipse (disc p d) = Ok f /\ (forall i j, (i < s_npad p)%nat -> (j < s_npad p)%nat -> 0 <= fpx f i j <= 1) /\
  (framed p -> forall i j, (i < s_npad p)%nat -> (j < s_npad p)%nat -> fpx f i j = disc_cover p d i j).
Proof.
  intros U D. pose proof (disc_proper p d U D) as P. destruct (proj2 (C82_fails (disc p d))) as (f & E & R1 & R2).
  { destruct P as [Pc Pn Pb Px Py Pm]. split; [exact Pc|]. split; [exact Pn|]. split; [lra|]. split; lra. }
  exists f. split; auto. split.
  - intros i j Hi Hj. apply (C82_range _ f i j E); [rewrite R1|rewrite R2]; auto.
  - intros F i j Hi Hj. destruct (C82_coverage (disc p d) P eq_refl) as (f' & E' & _ & _ & V); [apply disc_framed; auto; apply U|]. rewrite E in E'. injection E' as <-. rewrite V by auto. apply disc_coverage, U.
Qed.
Lemma sample_in k s : (s < 101)%nat -> INR k - 1 / 2 <= sample k s <= INR k + 1 / 2.
Proof. intros H. unfold sample. assert (A : INR s <= 100) by (replace 100 with (INR 100) by (rewrite INR_IZR_INZ; reflexivity); apply le_INR; lia). pose proof (pos_INR s). lra. Qed.
Lemma disc_cover_01 p d i j : 0 < s_nbeam p -> 0 <= disc_cover p d i j <= 1.
Proof. intros B. rewrite <- disc_coverage by auto. apply coverage_range. Qed.
Lemma disc_full p d i j : 0 < s_nbeam p -> all_square p (in_disc p d) i j -> disc_cover p d i j = 1.
Proof. intros B H. rewrite <- disc_coverage by auto. apply coverage_full. intros s t Hs Ht. rewrite !disc_sample, disc_in by auto. apply H; now apply sample_in. Qed.
Lemma disc_empty p d i j : 0 < s_nbeam p -> all_square p (fun x y => ~ in_disc p d x y) i j -> disc_cover p d i j = 0.
Proof. intros B H. rewrite <- disc_coverage by auto. apply coverage_empty. intros s t Hs Ht. rewrite !disc_sample, disc_in by auto. apply H; now apply sample_in. Qed.
Lemma cover_full p a i j v : cpos p -> 0 < s_nbeam p -> strut_cover p a i j v -> all_square p (blocked p a) i j -> v = 1.
Proof.
  intros C B H A. apply cover_mean in H; auto. apply C102_range in H; [|lia]. apply H. intros u w Hu Hw. apply rect_strut. rewrite !metres_pos by auto. apply A; auto.
Qed.
Lemma cover_none p a i j v : cpos p -> 0 < s_nbeam p -> strut_cover p a i j v -> all_square p (fun x y => ~ blocked p a x y) i j -> v = 0.
Proof.
  intros C B H A. apply cover_mean in H; auto. apply C102_range in H; [|lia]. apply H. intros u w Hu Hw G. apply rect_strut in G. rewrite !metres_pos in G by auto. apply (A u w); auto.
Qed.
(* the pupil *)
Definition hole (p : simple) (i j : nat) : R := if Rlt_dec 0 (s_id p) then 1 - disc_cover p (s_id p) i j else 1.
Lemma gray_ok p : usual p -> s_hg p = false -> exists f, falco_gen_pupil_Simple p = Ok f /\ frows f = s_npad p /\ fcols f = s_npad p /\
  forall i j, (i < s_npad p)%nat -> (j < s_npad p)%nat -> exists o h vs, 0 <= o <= 1 /\ 0 <= h <= 1 /\ (framed p -> o = disc_cover p (s_od p) i j /\ h = hole p i j) /\
    Forall2 (fun a v => strut_cover p a i j v) (s_ang p) vs /\ fpx f i j = o * h * product (map (fun v => 1 - v) vs).
Proof.
  intros U HG. pose proof U as [C N B O I0 X W]. unfold falco_gen_pupil_Simple. destruct (Rlt_dec (s_wstrut p) 0) as [K|_]; [destruct W as [|[_ ?]]; lra|].
  assert (CE : (String.eqb (s_centering p) "pixel" || String.eqb (s_centering p) "interpixel")%bool = true) by (destruct C as [-> | ->]; reflexivity). rewrite CE. cbn [negb]. destruct (Rlt_dec (s_od p) (s_id p)); [lra|]. rewrite HG.
  unfold gray_pupil. destruct (ell_gen_ok p (s_od p) U O) as (fo & Eo & Ro & Vo). rewrite Eo. cbn [rbind].
  destruct (strut_mask_ok p C N B) as (s & Es & Vs); [destruct W as [|[]]; auto|].
  unfold hole. destruct (Rlt_dec 0 (s_id p)) as [I1|I1].
  - destruct (ell_gen_ok p (s_id p) U I1) as (fi & Ei & Ri & Vi). rewrite Ei. cbn [rbind]. rewrite Es. cbn [rbind]. eexists. split; [reflexivity|]. split; [reflexivity|]. split; [reflexivity|]. intros i j Hi Hj. cbn [fpx].
    destruct (Vs i j Hi Hj) as (vs & F & EV). rewrite EV. exists (fpx fo i j), (1 - fpx fi i j), vs. split; [now apply Ro|]. split; [pose proof (Ri i j Hi Hj); lra|]. split; [|split; auto]. intros Fr. rewrite Vo, Vi by auto. auto.
  - cbn [rbind]. rewrite Es. cbn [rbind]. eexists. split; [reflexivity|]. split; [reflexivity|]. split; [reflexivity|]. intros i j Hi Hj. cbn [fpx].
    destruct (Vs i j Hi Hj) as (vs & F & EV). rewrite EV. exists (fpx fo i j), 1, vs. split; [now apply Ro|]. split; [lra|]. split; [|split; auto]. intros Fr. rewrite Vo by auto. auto.
Qed.
