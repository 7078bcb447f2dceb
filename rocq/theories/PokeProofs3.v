(* The box in pupil P2, propagated to the last focal plane, agrees with the whole array. *)
From Verif Require Import Base RBase StrBase UtilModel CBase PropModel PropSpec PropProofs PropProofs2 OptModel OptSpec LinBase OptProofs OptProofs2 OptProofs3 OptProofs4 DiffModel DiffProofs2 SrcModel PokeModel PokeProofs PokeProofs2 GradModel GradSpec PokeSpec.
Open Scope R_scope.

Definition tail1 (o : optics) (E : field C) : res (field C) :=
  do EP3 <- relay E (nrel o (o_n23 o)) (o_cen o); match o_apod o with None => Ok EP3 | Some (m, na) => do p <- pad_cropf EP3 na na; bop Cmult m p end.
Definition tail2 (o : optics) (w s : R) (t : C) (EP3 : field C) : res (field C) :=
  do EP4 <- compact_P3_to_P4 o w s t true EP3; do E <- bop Cmult (o_lyot o) EP4; to_Fend o w (o_fend o) E.
(* apodizer in centred coordinates *)
Definition mk (o : optics) (u v : Z) : C :=
  match o_apod o with None => RtoC 1 | Some (m, na) => boxf (- hf na) (- hf na) na (fpx m) u v end.
Definition od (o : optics) (k : Z) : bool := (nrel o k mod 2 =? 1)%Z.
Lemma od_edge o k : (nrel o k mod 2 = 1)%Z -> o_cen o <> OtherCentering -> forall h, lo_of (o_cen o) h = (edge o - h)%Z.
Proof. intros H Hc h. unfold nrel in H. unfold edge. destruct (o_rot o); [|discriminate H]. destruct (o_cen o); cbn; try lia; congruence. Qed.
Lemma supp_sg o k h G : o_cen o <> OtherCentering -> supp (edge o - h) h G -> supp (edge o - h) h (fun u v => G (sg (od o k) (o_cen o) u) (sg (od o k) (o_cen o) v)).
Proof.
  intros Hc H u v N. apply H. intros [A B]. apply N. clear N. unfold od in *. destruct (nrel o k mod 2 =? 1)%Z eqn:Q; cbn [sg] in *; auto.
  apply Z.eqb_eq in Q. pose proof (od_edge o k Q Hc h) as L. destruct (o_cen o); cbn [refl lo_of] in *; [lia|lia|congruence].
Qed.
Lemma supp_wide lo hi lo' hi' G : supp lo hi G -> (lo' <= lo)%Z -> (hi <= hi')%Z -> supp lo' hi' G.
Proof. intros H A B u v N. apply H. lia. Qed.
Lemma edge_01 o : (0 <= edge o <= 1)%Z. Proof. unfold edge. destruct (_ && _)%bool; lia. Qed.
Lemma hf_le n m : (n <= m)%nat -> (hf n <= hf m)%Z. Proof. intros. unfold hf. apply Z.div_le_mono; lia. Qed.
Lemma relay_supp o k n E G : o_cen o <> OtherCentering -> rep n E G -> (1 <= n)%nat -> Nat.even n = true -> supp (edge o - hf n) (hf n) G ->
  exists O, relay E (nrel o k) (o_cen o) = Ok O /\ rep n O (fun u v => G (sg (od o k) (o_cen o) u) (sg (od o k) (o_cen o) v)).
Proof. intros Hc R Hn He H. apply rep_relay; auto. intros Q. now rewrite (od_edge o k Q Hc). Qed.

Section Core.
Variables (o : optics) (nd : nat).
Hypotheses (W : well_formed o) (Cn : even_size (o_pad o)) (Cd : even_size nd) (C4 : even_size (o_narr4 o)) (Hnd : (1 <= nd <= o_pad o)%nat)
  (Ha : match o_apod o with None => True | Some (m, na) => even_size na /\ (na <= o_pad o)%nat /\
              (edge o = 1%Z -> forall k, (k < na)%nat -> fpx m 0%nat k = RtoC 0 /\ fpx m k 0%nat = RtoC 0) end).
Let b := od o (o_n23 o).
Let c := o_cen o.
Lemma mk_supp m na : o_apod o = Some (m, na) -> supp (edge o - hf na) (hf na) (mk o).
Proof.
  intros E u v N. unfold mk. rewrite E. rewrite E in Ha. destruct Ha as (He & Hl & Hz). pose proof (wf_apod o W) as WA. rewrite E in WA. destruct WA as (Hna & _ & _). apply even_hf in He. unfold boxf. destruct (_ && _)%bool eqn:B; [|reflexivity].
  repeat (apply andb_prop in B; destruct B as [B ?]). repeat match goal with H : (_ && _)%bool = true |- _ => apply andb_prop in H; destruct H end.
  pose proof (edge_01 o). assert (Q : edge o = 1%Z) by lia. specialize (Hz Q).
  assert (u = - hf na \/ v = - hf na)%Z as [->| ->] by lia.
  - replace (Z.to_nat (- hf na - - hf na)) with 0%nat by lia. apply Hz. lia.
  - replace (Z.to_nat (- hf na - - hf na)) with 0%nat by lia. apply Hz. lia.
Qed.
Lemma jac_apod_rep : exists ap, jac_apod o nd = Ok ap /\ rep nd ap (fun u v => mk o (sg b c u) (sg b c v)).
Proof.
  unfold jac_apod. pose proof (mk_supp) as MS. pose proof (wf_apod o W) as WA. pose proof (wf_cen o W) as Hc. pose proof (wf_pad o W) as Hp. destruct (o_apod o) as [[m na]|] eqn:EA.
  - specialize (MS m na eq_refl). destruct Ha as (He & Hl & Hz). destruct WA as (Hna & R1 & R2). pose proof (edge_01 o) as E1.
    assert (R : rep na m (mk o)). { split; [split; auto|]. intros i j Hi Hj. unfold mk. rewrite EA. pose proof (even_hf na He). unfold boxf. destruct (_ && _)%bool eqn:B.
      - f_equal; lia. - exfalso. repeat (apply andb_false_iff in B; destruct B as [B|B]); lia. }
    destruct (rep_pad na m (mk o) (o_pad o) R Hna He) as (p & Ep & Rp); [left; eapply supp_wide; [exact MS|lia|lia]|lia|]. rewrite Ep. cbn [rbind].
    pose proof (hf_le na (o_pad o) Hl).
    destruct (relay_supp o (o_n23 o) (o_pad o) p (mk o) Hc Rp Hp Cn) as (r & Er & Rr); [eapply supp_wide; [exact MS|lia|lia]|]. rewrite Er. cbn [rbind].
    destruct (rep_pad (o_pad o) r _ nd Rr Hp Cn) as (q & Eq & Rq); [right; split; [lia|exact Cd]|lia|]. exists q. split; auto.
  - cbn [rbind]. assert (R : rep (o_pad o) (ones (o_pad o)) (fun u v => mk o (sg b c u) (sg b c v))). { split; [split; reflexivity|]. intros. unfold mk. now rewrite EA. }
    destruct (rep_pad (o_pad o) _ _ nd R Hp Cn) as (q & Eq & Rq); [right; split; [lia|exact Cd]|lia|]. exists q. auto.
Qed.
Lemma p3_even : even_size (p3_size o). Proof. unfold p3_size. destruct (o_apod o) as [[? ?]|]; tauto. Qed.
Variables (D0 : Z -> Z -> C) (E : field C).
Hypotheses (RE : rep (o_pad o) E D0) (SD : supp (edge o - hf nd) (hf nd) D0).
Definition g3 (u v : Z) : C := Cmult (mk o u v) (D0 (sg b c u) (sg b c v)).
Lemma tail1_rep : exists P3, tail1 o E = Ok P3 /\ rep (p3_size o) P3 g3.
Proof.
  pose proof (wf_cen o W) as Hc. pose proof (wf_pad o W) as Hp. pose proof (edge_01 o) as E1. pose proof (hf_le nd (o_pad o) (proj2 Hnd)).
  destruct (relay_supp o (o_n23 o) (o_pad o) E D0 Hc RE Hp Cn) as (r & Er & Rr); [eapply supp_wide; [exact SD|lia|lia]|]. unfold tail1. rewrite Er. cbn [rbind].
  pose proof (wf_apod o W) as WA. unfold p3_size. destruct (o_apod o) as [[m na]|] eqn:EA.
  - destruct Ha as (He & Hl & Hz). destruct WA as (Hna & R1 & R2). destruct (rep_pad (o_pad o) r _ na Rr Hp Cn) as (q & Eq & Sq & Vq); [right; split; [lia|exact He]|lia|].
    rewrite Eq. cbn [rbind]. destruct (bop_sq Cmult m q na na (conj R1 R2) Sq) as (O & EO & SO & VO). exists O. split; auto. split; auto. intros i j Hi Hj. rewrite VO, Vq by auto.
    unfold g3, mk. rewrite EA. pose proof (even_hf na He). unfold boxf. destruct (_ && _)%bool eqn:B.
    + f_equal. f_equal; lia.
    + exfalso. repeat (apply andb_false_iff in B; destruct B as [B|B]); lia.
  - exists r. split; auto. eapply rep_ext; [|exact Rr]. intros u v. unfold g3, mk. rewrite EA. cbn beta. fold b c. ring.
Qed.
Lemma g3_supp : supp (edge o - hf (p3_size o)) (hf (p3_size o)) g3.
Proof.
  intros u v N. unfold g3. unfold p3_size in N. pose proof mk_supp as MS. destruct (o_apod o) as [[m na]|] eqn:EA.
  - rewrite (MS m na eq_refl u v N). ring.
  - pose proof (supp_sg o (o_n23 o) (hf nd) D0 (wf_cen o W) SD u v) as X. cbn beta in X. fold b c in X. rewrite X; [ring|]. pose proof (hf_le nd (o_pad o) (proj2 Hnd)). lia.
Qed.
Definition hh (u v : Z) : C := Cmult (mk o (sg b c u) (sg b c v)) (D0 u v).
Lemma hh_g3 u v : hh u v = g3 (sg b c u) (sg b c v). Proof. unfold hh, g3. now rewrite !sg_sg. Qed.
End Core.
