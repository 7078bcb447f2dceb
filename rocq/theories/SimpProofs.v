(* Lemmas for pupils with struts (C103) *)
From Coquelicot Require Import Coquelicot.
From Verif Require Import Base StrBase RBase UtilModel UtilSpec UtilProofs CBase PropModel PropProofs OptModel PrpModel PrpProofs PrpProofs5 DmSurfProofs2 EllModel EllSpec EllProofs EllProps ApModel ApSpec ApProofs ApProofs2 ApProofs3 RectModel RectSpec RectProofs RectProofs2 RectProofs3 RectProofs4 RectProofs5 RectProps SimpModel SimpSpec.
Open Scope R_scope.
Definition cpos (p : simple) : Prop := s_centering p = "pixel"%string \/ s_centering p = "interpixel"%string.
Lemma metres_pos p u : cpos p -> 0 < s_nbeam p -> metres (s_npad p) (1 / s_nbeam p) u - cshift p (1 / s_nbeam p) = pos p u + misplaced p.
Proof.
  intros C B. unfold metres, cshift, pos, misplaced. set (n := s_npad p).
  assert (H : INR (n / 2) = (INR n - (if Nat.even n then 0 else 1)) / 2).
  { destruct (Nat.even n) eqn:E.
    - apply Nat.even_spec in E. destruct E as (k & ->). rewrite (Nat.mul_comm 2), Nat.div_mul by lia. rewrite mult_INR. simpl (INR 2). field.
    - assert (O : Nat.odd n = true) by (rewrite <- Nat.negb_even, E; reflexivity). apply Nat.odd_spec in O. destruct O as (k & ->). rewrite (Nat.mul_comm 2), Nat.div_add_l by lia. replace (1 / 2)%nat with 0%nat by reflexivity. rewrite Nat.add_0_r, plus_INR, mult_INR. simpl (INR 2). simpl (INR 1). field. }
  rewrite H. destruct C as [C|C]; rewrite C; cbn [String.eqb Ascii.eqb Bool.eqb]; destruct (Nat.even n); field; lra.
Qed.
Lemma sq_cs t : cos t * cos t + sin t * sin t = 1.
Proof. pose proof (sin2_cos2 t) as H. unfold Rsqr in H. lra. Qed.
Lemma rect_strut p a X Y : let ang := a + s_clock p in let cs := cshift p (1 / s_nbeam p) in
  in_rectangle (6 / 10) (s_wstrut p) (6 / 10 / 2 * cosd ang + cs + s_xs p) (6 / 10 / 2 * sind ang + cs + s_ys p) ang X Y <->
  in_strut p a (X - cs) (Y - cs).
Proof.
  cbv zeta. unfold in_rectangle, in_strut, along, across, cosd, sind. cbv zeta. set (cs := cshift p _). set (t := PI * (a + s_clock p) / 180).
  replace ((a + s_clock p) * PI / 180) with t by (unfold t; field). replace ((a + s_clock p) * (PI / 180)) with t by (unfold t; field). pose proof (sq_cs t) as Q. set (c := cos t) in *. set (s := sin t) in *.
  replace (c * (X - (6 / 10 / 2 * c + cs + s_xs p)) + s * (Y - (6 / 10 / 2 * s + cs + s_ys p))) with (c * (X - cs - s_xs p) + s * (Y - cs - s_ys p) - 3 / 10 * (c * c + s * s)) by field. rewrite Q.
  replace (c * (Y - (6 / 10 / 2 * s + cs + s_ys p)) - s * (X - (6 / 10 / 2 * c + cs + s_xs p))) with (c * (Y - cs - s_ys p) - s * (X - cs - s_xs p)) by field.
  set (A := c * (X - cs - s_xs p) + s * (Y - cs - s_ys p)). replace (6 / 10 / 2) with (3 / 10) by field. split; intros [G K]; split; auto.
  - unfold Rabs in G. destruct (Rcase_abs _) in G; lra.
  - apply Rabs_le. lra.
Qed.
Lemma has_length_iff (P Q : R -> Prop) l : (forall x, P x <-> Q x) -> has_length P l -> has_length Q l.
Proof.
  intros H [[E ->]|[a [b [L [-> G]]]]].
  - left. split; auto. intros x K. apply (E x). now apply H.
  - right. exists a, b. split; auto. split; auto. intros x. rewrite <- H. apply G.
Qed.
Lemma cover_mean p a i j v : cpos p -> 0 < s_nbeam p -> let ang := a + s_clock p in let cs := cshift p (1 / s_nbeam p) in
  line_mean (s_npad p) 101 (1 / s_nbeam p) (6 / 10) (s_wstrut p) (6 / 10 / 2 * cosd ang + cs + s_xs p) (6 / 10 / 2 * sind ang + cs + s_ys p) ang i j v <-> strut_cover p a i j v.
Proof.
  intros C B. cbv zeta. unfold line_mean, strut_cover.
  assert (E : forall k u, section (s_npad p) (1 / s_nbeam p) (6 / 10) (s_wstrut p) (6 / 10 / 2 * cosd (a + s_clock p) + cshift p (1 / s_nbeam p) + s_xs p) (6 / 10 / 2 * sind (a + s_clock p) + cshift p (1 / s_nbeam p) + s_ys p) (a + s_clock p) i j ((INR k + 1 / 2) / INR 101) u
    <-> INR j - 1 / 2 <= u <= INR j + 1 / 2 /\ blocked p a (pos p u) (pos p (INR i - 1 / 2 + (INR k + 1 / 2) / 101))).
  { intros k u. unfold section, blocked. rewrite rect_strut. rewrite !metres_pos by auto. replace (INR 101) with 101 by (rewrite INR_IZR_INZ; reflexivity). tauto. }
  replace (INR 101) with 101 by (rewrite INR_IZR_INZ; reflexivity).
  split; intros [len [L ->]]; exists len; split; auto; intros k K; (eapply has_length_iff; [|apply (L k K)]); intros u; specialize (E k u); replace (INR 101) with 101 in E by (rewrite INR_IZR_INZ; reflexivity); tauto.
Qed.
Definition back (w : wavefront) (i j : nat) : C := fpx (w_arr w) (roll_ix (w_n w) (- half (w_n w)) i) (roll_ix (w_n w) (- half (w_n w)) j).
Lemma struts_ok p l : cpos p -> 0 < s_nbeam p -> 0 < s_wstrut p -> forall w, square_w w -> w_n w = s_npad p -> w_dx w = 1 / s_nbeam p ->
  exists w', add_struts p (1 / s_nbeam p) l w = Ok w' /\ square_w w' /\ w_n w' = s_npad p /\ w_dx w' = 1 / s_nbeam p /\
    forall i j, (i < s_npad p)%nat -> (j < s_npad p)%nat -> exists vs, Forall2 (fun a v => strut_cover p a i j v) l vs /\
      back w' i j = Cmult (back w i j) (RtoC (product (map (fun v => 1 - v) vs))).
Proof.
  intros C B W. induction l as [|a l IH]; intros w S N D.
  - exists w. cbn [add_struts]. split; auto. split; auto. split; auto. split; auto. intros i j _ _. exists []. split; [constructor|]. cbn. now rewrite Cmult_1_r.
  - cbn [add_struts]. cbv zeta. set (xc := 6 / 10 / 2 * cosd (a + s_clock p) + cshift p (1 / s_nbeam p) + s_xs p). set (yc := 6 / 10 / 2 * sind (a + s_clock p) + cshift p (1 / s_nbeam p) + s_ys p).
    assert (D0 : 0 < w_dx w) by (rewrite D; unfold Rdiv; rewrite Rmult_1_l; now apply Rinv_0_lt_compat).
    destruct (rectangle_ok 101 w (mkrp (6 / 10) (s_wstrut p) (Some xc) (Some yc) (a + s_clock p) false true) ltac:(lia) D0) as (m & E & M1 & M2 & V); [cbn; lra|cbn; lra|].
    cbn [r_dark r_norm r_xc r_yc r_xsize r_ysize r_rot place len] in V. unfold rectangular_obscuration. rewrite E. cbn [rbind].
    destruct (times_ok w m S M1 M2) as (F & T & T1 & T2 & TV). rewrite T. cbn [rbind]. destruct (IH (set_arr w F)) as (w' & E' & S' & N' & D' & V'); [split; auto|auto|auto|].
    exists w'. split; auto. split; auto. split; auto. split; auto. intros i j Hi Hj. destruct (V' i j Hi Hj) as (vs & L & EV). rewrite N in V, TV. destruct (V i j Hi Hj) as (v & Lv & Ev).
    exists (v :: vs). split.
    + constructor; auto. rewrite D in Lv. apply cover_mean in Lv; auto.
    + rewrite EV. cbn [map product]. rewrite RtoC_mult. rewrite Cmult_assoc. f_equal. unfold back. cbn [set_arr w_arr w_n]. rewrite N. rewrite TV by (apply roll_lt; lia). rewrite !roll_back by auto. rewrite Ev. reflexivity.
Qed.
Lemma cover_01 p a i j v : cpos p -> 0 < s_nbeam p -> strut_cover p a i j v -> 0 <= v <= 1.
Proof. intros C B H. apply cover_mean in H; auto. apply C102_range in H; [apply H|lia]. Qed.
Lemma product_01 l : (forall x, In x l -> 0 <= x <= 1) -> 0 <= product l <= 1.
Proof.
  induction l as [|x l IH]; intros H; cbn; [lra|]. assert (0 <= x <= 1) by (apply H; now left). assert (0 <= product l <= 1) by (apply IH; intros y Y; apply H; now right). nra.
Qed.
Lemma clear_01 p i j l vs : cpos p -> 0 < s_nbeam p -> Forall2 (fun a v => strut_cover p a i j v) l vs -> 0 <= product (map (fun v => 1 - v) vs) <= 1.
Proof.
  intros C B F. apply product_01. intros x X. apply in_map_iff in X. destruct X as (v & <- & X). induction F as [|a u l us H F IH]; [destruct X|]. destruct X as [<-|X]; auto. pose proof (cover_01 p a i j u C B H). lra.
Qed.
(* the mask of the struts *)
Lemma strut_mask_ok p : cpos p -> (2 <= s_npad p)%nat -> 0 < s_nbeam p -> 0 < s_wstrut p \/ s_ang p = [] ->
  exists o, strut_mask p = Ok o /\ forall i j, (i < s_npad p)%nat -> (j < s_npad p)%nat -> exists vs, Forall2 (fun a v => strut_cover p a i j v) (s_ang p) vs /\
    match o with Some f => fpx f i j | None => 1 end = product (map (fun v => 1 - v) vs).
Proof.
  intros C N B W. unfold strut_mask. destruct (s_ang p) as [|a l] eqn:A.
  - exists None. split; auto. intros i j _ _. exists []. split; [constructor|reflexivity].
  - destruct W as [W|W]; [|discriminate]. rewrite <- A. clear A a l. destruct (Req_EM_T (s_nbeam p) 0); [lra|]. cbv zeta. assert (NP : 2 <= INR (s_npad p)) by (apply le_INR in N; simpl (INR 2) in N; lra).
    assert (E1 : INR (s_npad p) * (1 / (INR (s_npad p) * (1 / s_nbeam p))) = s_nbeam p) by (field; lra).
    unfold prop_begin. cbv zeta. rewrite E1. destruct (Req_EM_T (1 / 10 ^ 6) 0) as [Z|Z]; [lra|]. destruct (Req_EM_T (s_nbeam p) 0); [lra|]. cbn [rbind].
    match goal with |- context [add_struts p _ _ ?w] => destruct (struts_ok p (s_ang p) C B W w) as (w' & E & [S1 S2] & N' & D' & V); [split; reflexivity|reflexivity|reflexivity|] end.
    rewrite E. cbn [rbind]. eexists. split; [reflexivity|]. intros i j Hi Hj. destruct (V i j Hi Hj) as (vs & F & EV). exists vs. split; auto. unfold amplitude. cbn [roll2 frows fcols fpx]. rewrite S1, S2.
    change (Cmod (back w' i j) = product (map (fun v => 1 - v) vs)). rewrite EV. unfold back at 1. cbn [w_arr w_n fpx]. rewrite Cmult_1_l, Cmod_R. apply Rabs_pos_eq. apply (clear_01 p i j _ _ C B F).
Qed.
