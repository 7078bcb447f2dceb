From Verif Require Import Base RBase StrBase CBase PropModel OptModel ThinModel ThinSpec ThinProofs ThinProofs2 ThinProofs5 ThinProofs6 ThinProps FilmModel FilmSpec FilmProofs.
Open Scope R_scope.
Lemma mapr_len {A B} (f : A -> res B) l r : mapr f l = Ok r -> length r = length l.
Proof. revert r. induction l as [|a l IH]; intros r H; cbn in H; [injection H as <-; reflexivity|]. destruct (f a); [|discriminate]. cbn in H. destruct (mapr f l); [|discriminate]. injection H as <-. cbn. f_equal. now apply IH. Qed.
Lemma mapr_nth {A B} (f : A -> res B) l r da db i : mapr f l = Ok r -> (i < length l)%nat -> f (nth i l da) = Ok (nth i r db).
Proof.
  revert r i. induction l as [|a l IH]; intros r i H Hi; cbn in H; [cbn in Hi; lia|]. destruct (f a) as [b|] eqn:E; [|discriminate]. cbn in H. destruct (mapr f l) as [s|] eqn:E2; [|discriminate]. injection H as <-. destruct i; [exact E|]. cbn [nth]. apply IH; auto. cbn in Hi. lia.
Qed.
Lemma mapr_all {A B} (f : A -> res B) l : (forall a, In a l -> exists b, f a = Ok b) -> exists r, mapr f l = Ok r.
Proof. induction l as [|a l IH]; intros H; cbn; [eauto|]. destruct (H a (or_introl eq_refl)) as (b & ->). destruct IH as (r & ->); [intros; apply H; now right|]. cbn. eauto. Qed.
Lemma mapr_in {A B} (f : A -> res B) l r b : mapr f l = Ok r -> In b r -> exists a, In a l /\ f a = Ok b.
Proof.
  revert r. induction l as [|a l IH]; intros r H Hb; cbn in H; [injection H as <-; contradiction|]. destruct (f a) as [b'|] eqn:E; [|discriminate]. cbn in H. destruct (mapr f l) as [s|] eqn:E2; [|discriminate]. injection H as <-. destruct Hb as [->|Hb]; [exists a; split; [now left|exact E]|]. destruct (IH s eq_refl Hb) as (x & Hx & E'). exists x. split; [now right|exact E'].
Qed.
Lemma mapr_in_f {A B} (f : A -> res B) l r a : mapr f l = Ok r -> In a l -> exists b, f a = Ok b.
Proof.
  revert r. induction l as [|x l IH]; intros r H Ha; cbn in H; [contradiction|]. destruct (f x) as [b'|] eqn:E; [|discriminate]. cbn in H. destruct (mapr f l) as [s|] eqn:E2; [|discriminate]. destruct Ha as [->|Ha]; [eauto|]. exact (IH s eq_refl Ha).
Qed.
Lemma mapr_ext {A B} (f g : A -> res B) l : (forall a, In a l -> f a = g a) -> mapr f l = mapr g l.
Proof. induction l as [|a l IH]; intros H; cbn; [reflexivity|]. rewrite (H a (or_introl eq_refl)), IH; [reflexivity|]. intros; apply H; now right. Qed.
Lemma conj_abs2 z : abs2 (Cconj z) = abs2 z. Proof. unfold abs2, Cconj. cbn. ring. Qed.
Lemma conj_cis x z : Cconj (Cmult (cis x) z) = Cmult (cis (- x)) (Cconj z). Proof. rewrite Cconj_mult, <- cis_neg. reflexivity. Qed.
Lemma mean_abs2 a b : abs2 (Cdiv (Cplus a b) (RtoC 2)) <= (abs2 a + abs2 b) / 2.
Proof.
  assert (E : Cdiv (Cplus a b) (RtoC 2) = ((fst a + fst b) / 2, (snd a + snd b) / 2)). { unfold Cdiv. rewrite <- RtoC_inv by lra. apply C_eq; cbn; field. }
  rewrite E. unfold abs2. cbn [fst snd]. destruct a as [x y], b as [z w]. cbn [fst snd]. pose proof (Rle_0_sqr (x - z)). pose proof (Rle_0_sqr (y - w)). unfold Rsqr in *. lra.
Qed.
(* amplitudes and intensities of the solver *)
Lemma sol_ok n d0 theta lam tm : length n = S (S (length d0)) -> 0 <= theta -> 0 < lam -> exists o, solver n d0 theta lam tm = Ok o.
Proof. intros HL Ht Hlam. destruct (solver n d0 theta lam tm) as [o|e] eqn:H; [eauto|]. destruct (solver_raise _ _ _ _ _ _ H) as [[A _]|(_ & [A|A] & _)]; [lia|lra|lra]. Qed.
Lemma amp_int n d0 theta lam tm o : solver n d0 theta lam tm = Ok o -> passive (medium n) (thick d0) (bottom n) theta lam -> tf_R o = abs2 (tf_rr o) /\ tf_T o = abs2 (tf_tt o).
Proof.
  intros H HP. destruct (solver_ok _ _ _ _ _ _ H) as (L & Ht & Hl & _). destruct (C73_solution_exists n d0 theta lam tm) as (o' & u & v & t & H' & HR); auto; [lia|]. rewrite H in H'. injection H' as <-.
  destruct (C73_agrees_with_maxwell n d0 theta lam tm o u v (tf_rr o) t H HP HR) as (_ & A & _ & _ & B). auto.
Qed.
Lemma stack_bound rest g ds theta lam tm o : Rabs (sin theta) < 1 -> Forall good rest -> Forall (fun x => 0 <= x) ds ->
  solver (RtoC 1 :: RtoC 1 :: rest) (g :: ds) theta lam tm = Ok o -> rest <> nil -> abs2 (tf_tt o) + abs2 (tf_rr o) <= 1.
Proof.
  intros Hs G D H N. destruct (solver_ok _ _ _ _ _ _ H) as (L & Ht & Hl & _). destruct rest as [|b post]; [congruence|]. pose proof (stack_passive (b :: post) ds theta lam Hl Hs G N D) as HP.
  destruct (C73_reference_height (RtoC 1) b post g ds theta lam tm o H HP) as (o' & H' & ER & ET & Err & Ett).
  destruct (amp_int _ _ _ _ _ _ H' HP) as [A B]. destruct (C73_energy _ _ _ _ _ _ H' HP) as (_ & _ & E & _). rewrite Err, Ett, !abs2_mult, !abs2_cis, !Rmult_1_l, <- A, <- B. lra.
Qed.
(* one entry of the table *)
Section Entry.
  Variables (ns : R) (nd nm nt : C) (lam theta : R).
  Hypothesis Gs : 1 < ns. Hypothesis Gd : good nd. Hypothesis Gm : good nm. Hypothesis Gt : good nt.
  Hypothesis Hlam : 0 < lam. Hypothesis Ht : 0 <= theta. Hypothesis Hs : Rabs (sin theta) < 1.
  Lemma rest_good : Forall good (nd :: nm :: nt :: RtoC ns :: nil).
  Proof. assert (good (RtoC ns)) by (unfold good; cbn; lra). repeat (apply Forall_cons; [assumption|]). apply Forall_nil. Qed.
  Lemma entry_bound tTi d0 pol opd dpm dni t r : 0 <= tTi -> 0 <= dpm -> 0 <= dni -> trans_entry ns nd nm nt lam theta tTi d0 pol opd dpm dni = Ok (t, r) -> abs2 t + abs2 r <= 1.
  Proof.
    intros T1 T2 T3 H. unfold trans_entry in H. set (dti := ti_under tTi dni) in *. assert (T4 : 0 <= dti) by (unfold dti, ti_under; destruct (Rlt_dec dni _); lra).
    set (nv := RtoC 1 :: _) in *. set (dv := _ :: dpm :: dni :: dti :: nil) in *.
    assert (B : forall tm o, solver nv dv theta lam tm = Ok o -> abs2 (tf_tt o) + abs2 (tf_rr o) <= 1). { intros tm o Ho. refine (stack_bound (nd :: nm :: nt :: RtoC ns :: nil) (d0 - dpm - dni - dti) (dpm :: dni :: dti :: nil) theta lam tm o Hs rest_good _ Ho _); [|discriminate]. repeat (apply Forall_cons; [assumption|]). apply Forall_nil. }
    assert (F : exists tt rr, abs2 tt + abs2 rr <= 1 /\ (t, r) = if opd then (tt, rr) else (Cconj tt, Cconj rr)).
    { destruct (Z.eqb pol 2).
      - destruct (solver nv dv theta lam false) as [o0|] eqn:H0; [|discriminate]. cbn [rbind] in H. destruct (solver nv dv theta lam true) as [o1|] eqn:H1; [|discriminate]. cbn [rbind] in H. injection H as H.
        exists (Cdiv (Cplus (tf_tt o0) (tf_tt o1)) (RtoC 2)), (Cdiv (Cplus (tf_rr o0) (tf_rr o1)) (RtoC 2)). split; [|now symmetry]. pose proof (B _ _ H0). pose proof (B _ _ H1). pose proof (mean_abs2 (tf_tt o0) (tf_tt o1)). pose proof (mean_abs2 (tf_rr o0) (tf_rr o1)). lra.
      - destruct (Z.eqb pol 0 || Z.eqb pol 1); [|discriminate]. destruct (solver nv dv theta lam (Z.eqb pol 1)) as [o|] eqn:H0; [|discriminate]. cbn [rbind] in H. injection H as H.
        exists (tf_tt o), (tf_rr o). split; [exact (B _ _ H0)|now symmetry]. }
    destruct F as (tt & rr & L & E). destruct opd; injection E as -> ->; rewrite ?conj_abs2; exact L.
  Qed.
  Lemma entry_ok tTi d0 pol opd dpm dni : (pol = 0 \/ pol = 1 \/ pol = 2)%Z -> exists e, trans_entry ns nd nm nt lam theta tTi d0 pol opd dpm dni = Ok e.
  Proof.
    intros P. unfold trans_entry. set (nv := RtoC 1 :: _). set (dv := _ :: dpm :: dni :: _). assert (B : forall tm, exists o, solver nv dv theta lam tm = Ok o) by (intros; apply sol_ok; auto).
    destruct P as [->|[->| ->]]; cbn [Z.eqb orb Pos.eqb].
    - destruct (B false) as (o & ->). cbn. eauto.
    - destruct (B true) as (o & ->). cbn. eauto.
    - destruct (B false) as (o & ->). destruct (B true) as (o' & ->). cbn. eauto.
  Qed.
  (* moving the reference plane *)
  Lemma entry_ref tTi d0 dl pol opd dpm dni t r : 0 <= tTi -> 0 <= dpm -> 0 <= dni -> trans_entry ns nd nm nt lam theta tTi d0 pol opd dpm dni = Ok (t, r) ->
    let k := 2 * PI / lam * Rabs (cos theta) in let s := if opd then - 1 else 1 in
    trans_entry ns nd nm nt lam theta tTi (d0 + dl) pol opd dpm dni = Ok (Cmult (cis (s * (k * dl))) t, Cmult (cis (s * (2 * k * dl))) r).
  Proof.
    intros T1 T2 T3 H k s. unfold trans_entry in *. set (dti := ti_under tTi dni) in *. assert (T4 : 0 <= dti) by (unfold dti, ti_under; destruct (Rlt_dec dni _); lra).
    set (nv := RtoC 1 :: _) in *. set (g := d0 - dpm - dni - dti) in *. replace (d0 + dl - dpm - dni - dti) with (g + dl) by (unfold g; ring).
    assert (HP : passive (medium (RtoC 1 :: nd :: nm :: nt :: RtoC ns :: nil)) (thick (dpm :: dni :: dti :: nil)) (bottom (RtoC 1 :: nd :: nm :: nt :: RtoC ns :: nil)) theta lam).
    { apply stack_passive; [exact Hlam|exact Hs|apply rest_good|discriminate|repeat (apply Forall_cons; [assumption|]); apply Forall_nil]. }
    assert (B : forall tm o, solver nv (g :: dpm :: dni :: dti :: nil) theta lam tm = Ok o -> exists o', solver nv ((g + dl) :: dpm :: dni :: dti :: nil) theta lam tm = Ok o' /\ tf_tt o' = Cmult (cis (- (k * dl))) (tf_tt o) /\ tf_rr o' = Cmult (cis (- (2 * k * dl))) (tf_rr o)).
    { intros tm o Ho. destruct (sol_ok nv ((g + dl) :: dpm :: dni :: dti :: nil) theta lam tm) as (o' & Ho'); auto. exists o'. split; [exact Ho'|].
      destruct (C73_reference_height (RtoC 1) nd (nm :: nt :: RtoC ns :: nil) g (dpm :: dni :: dti :: nil) theta lam tm o Ho HP) as (p & Hp & _ & _ & E1 & E2).
      destruct (C73_reference_height (RtoC 1) nd (nm :: nt :: RtoC ns :: nil) (g + dl) (dpm :: dni :: dti :: nil) theta lam tm o' Ho' HP) as (p' & Hp' & _ & _ & E1' & E2').
      rewrite Hp in Hp'. injection Hp' as <-. cbn [fst RtoC] in *. rewrite Rmult_1_l in *. fold k in E1, E2, E1', E2'. rewrite E1', E2', E1, E2, !Cmult_assoc, <- !cis_add. split; f_equal; f_equal; ring. }
    assert (M : forall x a b, Cdiv (Cplus (Cmult x a) (Cmult x b)) (RtoC 2) = Cmult x (Cdiv (Cplus a b) (RtoC 2))) by (intros; unfold Cdiv; ring).
    assert (F : forall T1 T2, (if opd then (Cmult (cis (- (k * dl))) T1, Cmult (cis (- (2 * k * dl))) T2) else (Cconj (Cmult (cis (- (k * dl))) T1), Cconj (Cmult (cis (- (2 * k * dl))) T2))) = (Cmult (cis (s * (k * dl))) (fst (if opd then (T1, T2) else (Cconj T1, Cconj T2))), Cmult (cis (s * (2 * k * dl))) (snd (if opd then (T1, T2) else (Cconj T1, Cconj T2))))).
    { intros T5 T6. unfold s. destruct opd; cbn [fst snd]; [|rewrite !conj_cis]; f_equal; f_equal; f_equal; ring. }
    destruct (Z.eqb pol 2).
    - destruct (solver nv (g :: dpm :: dni :: dti :: nil) theta lam false) as [o0|] eqn:H0; [|discriminate]. destruct (solver nv (g :: dpm :: dni :: dti :: nil) theta lam true) as [o1|] eqn:H1; [|discriminate]. cbn [rbind] in H. injection H as H.
      destruct (B _ _ H0) as (p0 & -> & A1 & A2). destruct (B _ _ H1) as (p1 & -> & A3 & A4). cbn [rbind]. rewrite A1, A2, A3, A4, !M, F, H. reflexivity.
    - destruct (Z.eqb pol 0 || Z.eqb pol 1); [|discriminate]. destruct (solver nv (g :: dpm :: dni :: dti :: nil) theta lam (Z.eqb pol 1)) as [o|] eqn:H0; [|discriminate]. cbn [rbind] in H. injection H as H.
      destruct (B _ _ H0) as (p & -> & A1 & A2). cbn [rbind]. rewrite A1, A2, F, H. reflexivity.
  Qed.
  (* no metal: neither metal nor titanium matter *)
  Lemma stack_no_metal g dpm tm : 0 <= dpm -> 
    solver (RtoC 1 :: RtoC 1 :: nd :: nm :: nt :: RtoC ns :: nil) (g :: dpm :: 0 :: 0 :: nil) theta lam tm = solver (RtoC 1 :: RtoC 1 :: nd :: RtoC ns :: nil) (g :: dpm :: nil) theta lam tm.
  Proof.
    intros Hd. pose proof rest_good as G. assert (G1 : good (RtoC ns)) by (cbn; unfold good; cbn; lra).
    assert (KL : forall l d0, Forall (fun x => 0 <= x) d0 -> Forall good l -> l <> nil -> forall c, In c (RtoC 1 :: l) -> low (kzzf (RtoC 1) theta lam tm c)).
    { intros l dd D Gl Nl c Hc. exact (passive_low (RtoC 1 :: l) dd theta lam tm Hlam (stack_passive l dd theta lam Hlam Hs Gl Nl D) c Hc). }
    assert (KA : forall c, In c (RtoC 1 :: RtoC 1 :: nd :: nm :: nt :: RtoC ns :: nil) -> low (kzzf (RtoC 1) theta lam tm c)). { intros c [<-|Hc]; [|revert Hc]; [|apply (KL _ nil)]; [apply (KL (nd :: nil) nil); [constructor|apply Forall_cons; [exact Gd|apply Forall_nil]|discriminate|now left]|constructor|exact G|discriminate]. }
    transitivity (solver (RtoC 1 :: RtoC 1 :: nd :: nt :: RtoC ns :: nil) (g :: dpm :: 0 :: nil) theta lam tm).
    - exact (zero_prod theta lam tm (RtoC 1 :: nd :: nil) (RtoC ns :: nil) (g :: dpm :: nil) (0 :: nil) (RtoC 1) nt eq_refl eq_refl nm KA).
    - apply (zero_prod theta lam tm (RtoC 1 :: nd :: nil) nil (g :: dpm :: nil) nil (RtoC 1) (RtoC ns) eq_refl eq_refl nt). intros c Hc. apply KA. cbn in Hc |- *. tauto.
  Qed.
  Lemma stack_bare g tm : solver (RtoC 1 :: RtoC 1 :: nd :: RtoC ns :: nil) (g :: 0 :: nil) theta lam tm = solver (RtoC 1 :: RtoC 1 :: RtoC ns :: nil) (g :: nil) theta lam tm.
  Proof.
    apply (zero_prod theta lam tm (RtoC 1 :: nil) nil (g :: nil) nil (RtoC 1) (RtoC ns) eq_refl eq_refl nd). intros c Hc.
    assert (H2 : In c (RtoC 1 :: nd :: RtoC ns :: nil)) by (cbn in Hc |- *; tauto). refine (passive_low (RtoC 1 :: nd :: RtoC ns :: nil) (0 :: nil) theta lam tm Hlam (stack_passive _ _ theta lam Hlam Hs _ _ _) c H2); [|discriminate|].
    - assert (good (RtoC ns)) by (unfold good; cbn; lra). repeat (apply Forall_cons; [assumption|]). apply Forall_nil.
    - apply Forall_cons; [lra|apply Forall_nil].
  Qed.
End Entry.
