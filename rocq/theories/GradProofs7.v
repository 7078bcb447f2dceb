(* The gradient of the sum of all modes. *)
From Coquelicot Require Import Coquelicot.
From Verif Require Import Base RBase StrBase UtilModel CBase PropModel PropSpec PropProofs PropProofs2 OptModel OptSpec LinBase OptProofs OptProofs2 OptProofs3 OptProofs4 OptProofs7 GradModel GradSpec GradAdj GradAdj2 GradProofs GradProofs2 GradProofs3 GradProofs4 GradProofs5 GradProofs6.
Open Scope R_scope.

Definition tot_sq (n : nat) (tot : option (field R * field R)) : Prop := match tot with None => True | Some (a, b) => square n a /\ square n b end.
Definition tot_dot (n : nat) (tot : option (field R * field R)) (d1 d2 : field R) : R := match tot with None => 0 | Some (a, b) => dot2 n a d1 + dot2 n b d2 end.
Lemma dot2_add n a b c d : (forall i j, (i < n)%nat -> (j < n)%nat -> fpx c i j = fpx a i j + fpx b i j) -> dot2 n c d = dot2 n a d + dot2 n b d.
Proof. intros H. unfold dot2. rewrite <- rsum_plus. apply rsum_ext. intros i Hi. rewrite <- rsum_plus. apply rsum_ext. intros j Hj. rewrite H by auto. ring. Qed.
Lemma dot2_ext n a b d : (forall i j, (i < n)%nat -> (j < n)%nat -> fpx a i j = fpx b i j) -> dot2 n a d = dot2 n b d.
Proof. intros H. unfold dot2. apply rsum2_ext. intros i j Hi Hj. now rewrite H. Qed.
Lemma radd_spec n a b : square n a -> square n b -> exists c, radd a b = Ok c /\ square n c /\ forall i j, fpx c i j = fpx a i j + fpx b i j.
Proof. intros [A1 A2] [B1 B2]. unfold radd. rewrite A1, A2, B1, B2, !Nat.eqb_refl. cbn [andb]. eexists. split; [reflexivity|]. split; [split; reflexivity|reflexivity]. Qed.
Lemma acc_spec n tot g1 g2 : tot_sq n tot -> square n g1 -> square n g2 -> exists t1 t2, acc_bars tot (g1, g2) = Ok (Some (t1, t2)) /\ square n t1 /\ square n t2 /\
  forall d1 d2, dot2 n t1 d1 + dot2 n t2 d2 = tot_dot n tot d1 d2 + (dot2 n g1 d1 + dot2 n g2 d2).
Proof.
  intros HT G1 G2. destruct tot as [[a b]|]; cbn [acc_bars fst snd tot_sq tot_dot] in *.
  - destruct HT as [Ha Hb]. destruct (radd_spec n b g2 Hb G2) as (x2 & -> & S2 & V2). cbn [rbind]. destruct (radd_spec n a g1 Ha G1) as (x1 & -> & S1 & V1). cbn [rbind]. exists x1, x2. split; [reflexivity|]. split; [auto|]. split; [auto|].
    intros d1 d2. rewrite (dot2_add n a g1 x1 d1), (dot2_add n b g2 x2 d2) by auto. ring.
  - eexists _, _. split; [reflexivity|]. destruct G1, G2. split; [split; auto|]. split; [split; auto|]. intros d1 d2. rewrite (dot2_ext n _ g1 d1), (dot2_ext n _ g2 d2) by (intros; cbn; ring). ring.
Qed.
Definition pred_energy M m (ch : nat -> nat -> C) : R := md_w m * msum M (fun i j => abs2 (Cplus (estimate M m i j) (ch i j))).
Lemma loop_gradient o M b1 b2 : gradient_ready o -> square (o_pad o) b1 -> square (o_pad o) b2 -> frows M = g_Neta (o_fend o) -> fcols M = g_Nxi (o_fend o) ->
  forall ms cost tot, Forall (mode_ready M) ms -> tot_sq (o_pad o) tot -> exists c' tot', rev_loop o (with_surfs o b1 b2) M (RtoC 1) ms cost tot = Ok (c', tot') /\ tot_sq (o_pad o) tot' /\ (ms <> [] -> tot' <> None) /\ (tot <> None -> tot' <> None) /\
    c' = cost + energy_after M ms (change o (with_surfs o b1 b2)) /\
    forall d1 d2, square (o_pad o) d1 -> square (o_pad o) d2 ->
      is_derive (fun t => energy_after M ms (fun m i j => Cplus (change o (with_surfs o b1 b2) m i j) (change o (moved o d1 d2 t) m i j))) 0 (tot_dot (o_pad o) tot' d1 d2 - tot_dot (o_pad o) tot d1 d2).
Proof.
  intros G B1 B2 M1 M2. induction ms as [|m r IH]; intros cost tot HF HT.
  - exists cost, tot. cbn [rev_loop]. split; [reflexivity|]. split; [auto|]. split; [congruence|]. split; [auto|]. split; [unfold energy_after; cbn; ring|]. intros. unfold energy_after; cbn [map rsuml]. eapply is_derive_eq; [apply @is_derive_const|]. cbn. ring.
  - inversion HF as [|? ? Hm Hr]; subst. destruct (mode_gradient o M m b1 b2 G B1 B2 M1 M2 Hm) as (en & g1 & g2 & E & S1 & S2 & Een & D). cbn [rev_loop]. rewrite E. cbn [rbind fst snd].
    destruct (acc_spec (o_pad o) tot g1 g2 HT S1 S2) as (t1 & t2 & -> & T1 & T2 & VT). cbn [rbind].
    destruct (IH (cost + md_w m * en) (Some (t1, t2)) Hr (conj T1 T2)) as (c' & tot' & EL & HT' & _ & Hn & Ec & D'). exists c', tot'. split; [exact EL|]. split; [auto|]. split; [intros _; apply Hn; discriminate|]. split; [intros _; apply Hn; discriminate|].
    split; [rewrite Ec, Een; unfold energy_after, change; cbn [map rsuml]; ring|].
    intros d1 d2 Q1 Q2. specialize (D d1 d2 Q1 Q2). specialize (D' d1 d2 Q1 Q2). unfold energy_after in *. cbn [map rsuml].
    eapply is_derive_eq; [apply dR_plus; [|exact D']|].
    + eapply is_derive_ext; [|exact D]. intros t. cbv beta. f_equal. unfold msum. apply rsum2_ext. intros i j Hi Hj. destruct (fpx M i j); [|reflexivity]. f_equal. unfold change. ring.
    + cbn [tot_dot]. rewrite VT. ring.
Qed.
Lemma rev_surf_gradient o M b1 b2 ms : gradient_ready o -> square (o_pad o) b1 -> square (o_pad o) b2 -> frows M = g_Neta (o_fend o) -> fcols M = g_Nxi (o_fend o) -> ms <> [] -> Forall (mode_ready M) ms ->
  exists g1 g2, rev_surf o (with_surfs o b1 b2) M ms = Ok (energy_after M ms (change o (with_surfs o b1 b2)), Some (g1, g2)) /\ square (o_pad o) g1 /\ square (o_pad o) g2 /\
    forall d1 d2, square (o_pad o) d1 -> square (o_pad o) d2 ->
      is_derive (fun t => energy_after M ms (fun m i j => Cplus (change o (with_surfs o b1 b2) m i j) (change o (moved o d1 d2 t) m i j))) 0 (dot2 (o_pad o) g1 d1 + dot2 (o_pad o) g2 d2).
Proof.
  intros G B1 B2 M1 M2 Hms HF. destruct (loop_gradient o M b1 b2 G B1 B2 M1 M2 ms 0 None HF I) as (c' & tot' & EL & HT & Hn & _ & Ec & D).
  specialize (Hn Hms). destruct tot' as [[g1 g2]|]; [|congruence]. exists g1, g2. unfold rev_surf. rewrite (ready_trans o G). cbn [rbind]. rewrite EL, Ec. split; [f_equal; f_equal; ring|]. destruct HT. split; [auto|]. split; [auto|].
  intros d1 d2 Q1 Q2. eapply is_derive_eq; [apply D; auto|]. cbn [tot_dot]. ring.
Qed.
Lemma change_self o m i j : change o o m i j = RtoC 0. Proof. unfold change. ring. Qed.
Lemma rev_surf_at_zero o M ms : gradient_ready o -> frows M = g_Neta (o_fend o) -> fcols M = g_Nxi (o_fend o) -> ms <> [] -> Forall (mode_ready M) ms ->
  exists c g1 g2, rev_surf o o M ms = Ok (c, Some (g1, g2)) /\ square (o_pad o) g1 /\ square (o_pad o) g2 /\
    forall d1 d2, square (o_pad o) d1 -> square (o_pad o) d2 -> is_derive (fun t => cost_of (rev_surf o (moved o d1 d2 t) M ms)) 0 (dot2 (o_pad o) g1 d1 + dot2 (o_pad o) g2 d2).
Proof.
  intros G M1 M2 Hms HF. destruct (ready_squares o G) as [S1 S2]. destruct (rev_surf_gradient o M _ _ ms G S1 S2 M1 M2 Hms HF) as (g1 & g2 & E & Q1 & Q2 & D). rewrite with_self in E, D.
  eexists _, g1, g2. split; [exact E|]. split; [auto|]. split; [auto|]. intros d1 d2 X1 X2. specialize (D d1 d2 X1 X2). eapply is_derive_ext; [|exact D]. intros t. cbv beta.
  destruct (rev_surf_gradient o M (along (o_surf1 o) d1 t) (along (o_surf2 o) d2 t) ms G (square_along _ _ _ _ S1) (square_along _ _ _ _ S2) M1 M2 Hms HF) as (h1 & h2 & E' & _). unfold moved. rewrite E'. cbn [cost_of].
  unfold energy_after. f_equal. apply map_ext. intros m. f_equal. unfold msum. apply rsum2_ext. intros i j Hi Hj. destruct (fpx M i j); [|reflexivity]. f_equal. f_equal. rewrite change_self. ring.
Qed.
