From Verif Require Import Base RBase EstModel EstSpec EstProofs2.
Open Scope R_scope.

Definition dat := ((R * R) * R)%type.
Definition SA (l : list dat) := sum2 (fun '((h1, h2), z) => h1 * h1) l.
Definition SB (l : list dat) := sum2 (fun '((h1, h2), z) => h1 * h2) l.
Definition SC (l : list dat) := sum2 (fun '((h1, h2), z) => h2 * h2) l.
Definition SP (l : list dat) := sum2 (fun '((h1, h2), z) => h1 * z) l.
Definition SQ (l : list dat) := sum2 (fun '((h1, h2), z) => h2 * z) l.
Definition SZ (l : list dat) := sum2 (fun '((h1, h2), z) => z * z) l.
Ltac sums := unfold SA, SB, SC, SP, SQ, SZ, sum2, residual in *.

Lemma residual_quad l x y :
  residual l (x, y) = SA l * x ^ 2 + 2 * SB l * x * y + SC l * y ^ 2 - 2 * SP l * x - 2 * SQ l * y + SZ l.
Proof. sums. induction l as [|[[h1 h2] z] l IH]; cbn [map rsuml fst snd]; [ring|]. cbn [fst snd] in IH. rewrite IH. ring. Qed.
Lemma residual_nonneg l x : 0 <= residual l x.
Proof.
  unfold residual. induction l as [|[[a b] c] l IH]; cbn [map rsuml fst snd]; [lra|].
  pose proof (pow2_ge_0 (a * fst x + b * snd x - c)). lra.
Qed.
(* the quadratic form as a sum of squares *)
Definition form (l : list dat) (u v : R) : R := sum2 (fun '((h1, h2), z) => (h1 * u + h2 * v) ^ 2) l.
Lemma form_eq l u v : form l u v = SA l * u ^ 2 + 2 * SB l * u * v + SC l * v ^ 2.
Proof. unfold form. sums. induction l as [|[[h1 h2] z] l IH]; cbn [map rsuml]; [ring|]. rewrite IH. ring. Qed.
Lemma form_nonneg l u v : 0 <= form l u v.
Proof. unfold form, sum2. induction l as [|[[h1 h2] z] l IH]; cbn [map rsuml]; [lra|]. pose proof (pow2_ge_0 (h1 * u + h2 * v)). lra. Qed.
Lemma form_zero l u v : form l u v = 0 -> forall h1 h2 z, In ((h1, h2), z) l -> h1 * u + h2 * v = 0.
Proof.
  induction l as [|[[a b] c] l IH]; intros H h1 h2 z Hi; [contradiction|].
  change ((a * u + b * v) ^ 2 + form l u v = 0) in H.
  pose proof (pow2_ge_0 (a * u + b * v)). pose proof (form_nonneg l u v).
  destruct Hi as [[= <- <- <-]|Hi].
  - assert (E0 : (a * u + b * v) ^ 2 = 0) by lra. apply Rsqr_0_uniq. unfold Rsqr. rewrite <- E0. ring.
  - eapply IH; [lra|exact Hi].
Qed.
Lemma lin_zero l u v : (forall h1 h2 z, In ((h1, h2), z) l -> h1 * u + h2 * v = 0) -> SP l * u + SQ l * v = 0.
Proof.
  sums. induction l as [|[[a b] c] l IH]; intros H; cbn [map rsuml]; [ring|].
  assert (E : a * u + b * v = 0) by (eapply H; now left).
  assert (IH' := IH (fun h1 h2 z Hi => H h1 h2 z (or_intror Hi))).
  transitivity (c * (a * u + b * v) + (rsuml (map (fun '(h1, _, z) => h1 * z) l) * u + rsuml (map (fun '(_, h2, z) => h2 * z) l) * v)); [ring|].
  rewrite E, IH'. ring.
Qed.
Lemma SA_nonneg l : 0 <= SA l. Proof. pose proof (form_nonneg l 1 0) as H. rewrite form_eq in H. lra. Qed.
Lemma SC_nonneg l : 0 <= SC l. Proof. pose proof (form_nonneg l 0 1) as H. rewrite form_eq in H. lra. Qed.

(* rank one: the normal equations are consistent along (p, q) *)
Lemma rank1_pq l : SA l * SC l - SB l * SB l = 0 -> SB l * SP l = SA l * SQ l /\ SB l * SQ l = SC l * SP l.
Proof.
  intros D. split.
  - assert (F : form l (SB l) (- SA l) = 0) by (rewrite form_eq; transitivity (SA l * (SA l * SC l - SB l * SB l)); [ring|rewrite D; ring]).
    pose proof (lin_zero l _ _ (form_zero l _ _ F)). lra.
  - assert (F : form l (SC l) (- SB l) = 0) by (rewrite form_eq; transitivity (SC l * (SA l * SC l - SB l * SB l)); [ring|rewrite D; ring]).
    pose proof (lin_zero l _ _ (form_zero l _ _ F)). lra.
Qed.

Definition normal_eq (l : list dat) (x y : R) : Prop := SA l * x + SB l * y = SP l /\ SB l * x + SC l * y = SQ l.
Lemma pinv_normal l : let x := pinv_apply l in normal_eq l (fst x) (snd x).
Proof.
  cbn zeta. unfold pinv_apply, normal_eq. fold (SA l) (SB l) (SC l) (SP l) (SQ l).
  destruct (Req_EM_T (SA l * SC l - SB l * SB l) 0) as [D|D]; [destruct (Req_EM_T (SA l + SC l) 0) as [T|T]|]; cbn [fst snd].
  - pose proof (SA_nonneg l). pose proof (SC_nonneg l). assert (A0 : SA l = 0) by lra. assert (C0 : SC l = 0) by lra.
    assert (F1 : form l 1 0 = 0) by (rewrite form_eq, A0, C0; ring).
    assert (F2 : form l 0 1 = 0) by (rewrite form_eq, A0, C0; ring).
    pose proof (lin_zero l _ _ (form_zero l _ _ F1)). pose proof (lin_zero l _ _ (form_zero l _ _ F2)). lra.
  - destruct (rank1_pq l D) as [E1 E2]. split.
    + apply Rmult_eq_reg_r with (SA l + SC l); [|exact T].
      transitivity (SA l * SP l + SB l * SQ l); [field; exact T|]. rewrite E2. ring.
    + apply Rmult_eq_reg_r with (SA l + SC l); [|exact T].
      transitivity (SB l * SP l + SC l * SQ l); [field; exact T|]. rewrite E1. ring.
  - split; field; exact D.
Qed.
Lemma residual_gap l x y u v : normal_eq l x y -> residual l (u, v) = residual l (x, y) + form l (u - x) (v - y).
Proof. intros [E1 E2]. rewrite !residual_quad, form_eq, <- E1, <- E2. ring. Qed.

Lemma pinv_least_squares l : least_squares_min_norm l (pinv_apply l).
Proof.
  pose proof (pinv_normal l) as N. cbn zeta in N.
  assert (E : pinv_apply l = (fst (pinv_apply l), snd (pinv_apply l))) by (destruct (pinv_apply l); reflexivity).
  split.
  - intros [u v]. rewrite E. rewrite (residual_gap l _ _ u v N). pose proof (form_nonneg l (u - fst (pinv_apply l)) (v - snd (pinv_apply l))). lra.
  - intros [u v] Hm. pose proof (Hm (pinv_apply l)) as H. rewrite E in H. rewrite (residual_gap l _ _ u v N) in H.
    pose proof (form_nonneg l (u - fst (pinv_apply l)) (v - snd (pinv_apply l))) as P.
    assert (F : form l (u - fst (pinv_apply l)) (v - snd (pinv_apply l)) = 0) by lra.
    clear H P Hm. unfold norm2. cbn [fst snd].
    revert F. unfold pinv_apply. fold (SA l) (SB l) (SC l) (SP l) (SQ l).
    destruct (Req_EM_T (SA l * SC l - SB l * SB l) 0) as [D|D]; [destruct (Req_EM_T (SA l + SC l) 0) as [T|T]|]; cbn [fst snd]; intros F.
    + pose proof (pow2_ge_0 u). pose proof (pow2_ge_0 v). nra.
    + pose proof (lin_zero l _ _ (form_zero l _ _ F)) as L.
      set (p := SP l) in *. set (q := SQ l) in *. set (t := SA l + SC l) in *.
      set (x := p / t) in *. set (y := q / t) in *.
      assert (L2 : x * (u - x) + y * (v - y) = 0).
      { unfold x at 1, y at 1. apply Rmult_eq_reg_r with t; [|exact T]. transitivity (p * (u - x) + q * (v - y)); [field; exact T|]. rewrite L. ring. }
      pose proof (pow2_ge_0 (u - x)). pose proof (pow2_ge_0 (v - y)). nra.
    + set (x := (SC l * SP l - SB l * SQ l) / (SA l * SC l - SB l * SB l)) in *. set (y := (SA l * SQ l - SB l * SP l) / (SA l * SC l - SB l * SB l)) in *.
      rewrite form_eq in F. pose proof (SA_nonneg l). pose proof (SC_nonneg l).
      set (du := u - x) in *. set (dv := v - y) in *.
      assert (Z : du = 0 /\ dv = 0).
      { assert (DP : 0 <= SA l * SC l - SB l * SB l).
        { destruct (Req_EM_T (SA l) 0) as [A0|A0].
          - exfalso. assert (F1 : form l 1 0 = 0) by (rewrite form_eq, A0; ring).
            assert (SB l = 0); [|apply D; rewrite A0, H1; ring].
            assert (Fz := form_zero l _ _ F1). clear -Fz. sums. induction l as [|[[a b] c] l IH]; cbn [map rsuml]; [reflexivity|].
            rewrite IH by (intros; eapply Fz; right; eassumption). assert (a * 1 + b * 0 = 0) by (eapply Fz; now left). replace a with 0 by lra. ring.
          - pose proof (form_nonneg l (SB l) (- SA l)) as FN. rewrite form_eq in FN. nra. }
        assert (D1 : 0 < SA l * SC l - SB l * SB l) by lra.
        assert (G1 : (SA l * SC l - SB l * SB l) * dv ^ 2 = - (SA l * du + SB l * dv) ^ 2).
        { transitivity (SA l * (SA l * du ^ 2 + 2 * SB l * du * dv + SC l * dv ^ 2) - (SA l * du + SB l * dv) ^ 2); [ring|rewrite F; ring]. }
        assert (G2 : (SA l * SC l - SB l * SB l) * du ^ 2 = - (SB l * du + SC l * dv) ^ 2).
        { transitivity (SC l * (SA l * du ^ 2 + 2 * SB l * du * dv + SC l * dv ^ 2) - (SB l * du + SC l * dv) ^ 2); [ring|rewrite F; ring]. }
        pose proof (pow2_ge_0 (SA l * du + SB l * dv)). pose proof (pow2_ge_0 (SB l * du + SC l * dv)).
        pose proof (pow2_ge_0 du). pose proof (pow2_ge_0 dv).
        split; apply Rsqr_0_uniq; unfold Rsqr; nra. }
      unfold du, dv in Z. replace u with x by lra. replace v with y by lra. lra.
Qed.

(* consistent data with two independent rows: the answer is the solution *)
Lemma pinv_exact l E1 E2 : (forall h1 h2 z, In ((h1, h2), z) l -> z = h1 * E1 + h2 * E2) ->
  (exists h1 h2 z k1 k2 w, In ((h1, h2), z) l /\ In ((k1, k2), w) l /\ h1 * k2 - h2 * k1 <> 0) ->
  pinv_apply l = (E1, E2).
Proof.
  intros Hz (h1 & h2 & z & k1 & k2 & w & I1 & I2 & Hi).
  assert (R0 : residual l (E1, E2) = 0).
  { clear -Hz. sums. induction l as [|[[a b] c] l IH]; cbn [map rsuml fst snd]; [reflexivity|]. cbn [fst snd] in IH.
    rewrite IH by (intros; eapply Hz; right; eassumption). rewrite (Hz a b c (or_introl eq_refl)). ring. }
  pose proof (pinv_normal l) as N. cbn zeta in N.
  assert (E : pinv_apply l = (fst (pinv_apply l), snd (pinv_apply l))) by (destruct (pinv_apply l); reflexivity).
  pose proof (residual_gap l _ _ E1 E2 N) as G. rewrite R0 in G.
  set (x := fst (pinv_apply l)) in *. set (y := snd (pinv_apply l)) in *. rewrite E.
  assert (RN : 0 <= residual l (x, y)).
  { apply residual_nonneg. }
  pose proof (form_nonneg l (E1 - x) (E2 - y)) as FN.
  assert (F : form l (E1 - x) (E2 - y) = 0) by lra.
  pose proof (form_zero l _ _ F h1 h2 z I1) as A1. pose proof (form_zero l _ _ F k1 k2 w I2) as A2.
  assert (E1 - x = 0).
  { apply Rmult_eq_reg_l with (h1 * k2 - h2 * k1); [|exact Hi]. rewrite Rmult_0_r.
    transitivity (k2 * (h1 * (E1 - x) + h2 * (E2 - y)) - h2 * (k1 * (E1 - x) + k2 * (E2 - y))); [ring|]. rewrite A1, A2. ring. }
  assert (E2 - y = 0).
  { apply Rmult_eq_reg_l with (h1 * k2 - h2 * k1); [|exact Hi]. rewrite Rmult_0_r.
    transitivity (h1 * (k1 * (E1 - x) + k2 * (E2 - y)) - k1 * (h1 * (E1 - x) + h2 * (E2 - y))); [ring|]. rewrite A1, A2. ring. }
  f_equal; lra.
Qed.

(* ---- noiseless pairs ---- *)
Definition I0_of (E : R * R) (Iinc : R) : R := intensity_with E (0, 0) 0 + Iinc.
Lemma exact_ampSq E Iinc d p : exact_pair E Iinc d p -> ampSq (I0_of E Iinc) p = norm2 d.
Proof.
  intros (A & B & _). unfold ampSq, I0_of, intensity_with, norm2. rewrite A, B. unfold intensity_with. cbn [fst snd].
  destruct (Rlt_dec _ 0) as [H|H]; [|field].
  exfalso. revert H. destruct E as [e1 e2], d as [d1 d2]. cbn [fst snd]. intros H.
  pose proof (pow2_ge_0 d1). pose proof (pow2_ge_0 d2). nra.
Qed.
Lemma exact_z E Iinc d p : exact_pair E Iinc d p -> zmeas p = fst d * fst E + snd d * snd E.
Proof. intros (A & B & _). unfold zmeas. rewrite A, B. unfold intensity_with. field. Qed.
Lemma atan2_scale g x y : 0 < g -> atan2 (g * y) (g * x) = atan2 y x.
Proof.
  intros Hg. assert (D : x <> 0 -> g * y / (g * x) = y / x) by (intros; field; split; lra).
  unfold atan2.
  destruct (Rlt_dec 0 (g * x)) as [A|A]; destruct (Rlt_dec 0 x) as [B|B]; try (exfalso; nra); [rewrite D by lra; reflexivity|].
  destruct (Rlt_dec (g * x) 0) as [A1|A1]; destruct (Rlt_dec x 0) as [B1|B1]; try (exfalso; nra).
  - rewrite D by lra. destruct (Rle_dec 0 (g * y)); destruct (Rle_dec 0 y); try (exfalso; nra); reflexivity.
  - destruct (Rlt_dec 0 (g * y)) as [A2|A2]; destruct (Rlt_dec 0 y) as [B2|B2]; try (exfalso; nra); [reflexivity|].
    destruct (Rlt_dec (g * y) 0) as [A3|A3]; destruct (Rlt_dec y 0) as [B3|B3]; try (exfalso; nra); reflexivity.
Qed.
Lemma exact_row E Iinc d p : exact_pair E Iinc d p -> d <> (0, 0) -> hrow (I0_of E Iinc) p = d.
Proof.
  intros H Hd. pose proof (exact_ampSq _ _ _ _ H) as Ha. destruct H as (_ & _ & dEp & dEm & g & Hp & Hg & G1 & G2).
  unfold hrow, amp. rewrite Ha, Hp. unfold model_phase. rewrite G1, G2, atan2_scale by exact Hg.
  destruct d as [d1 d2]. cbn [fst snd] in *. unfold norm2. cbn [fst snd]. replace (d1 ^ 2 + d2 ^ 2) with (d1 * d1 + d2 * d2) by ring.
  destruct (atan2_polar d1 d2) as [A B].
  - destruct (Req_EM_T d1 0) as [->|]; [right|now left]. intros ->. now apply Hd.
  - now rewrite A, B.
Qed.
Lemma exact_good E Iinc d p : exact_pair E Iinc d p -> good (I0_of E Iinc) p = true <-> d <> (0, 0).
Proof.
  intros H. pose proof (exact_ampSq _ _ _ _ H) as Ha. unfold good, amp. rewrite Ha. destruct d as [d1 d2]. unfold norm2. cbn [fst snd].
  destruct (Rlt_dec 0 (sqrt (d1 ^ 2 + d2 ^ 2))) as [P|P]; split; intros Q; try discriminate; try reflexivity.
  - intros [= -> ->]. replace (0 ^ 2 + 0 ^ 2) with 0 in P by ring. rewrite sqrt_0 in P. lra.
  - exfalso. apply P. apply sqrt_lt_R0. destruct (Req_EM_T d1 0) as [->|N1].
    + destruct (Req_EM_T d2 0) as [->|N2]; [now contradiction Q|]. apply Rsqr_pos_lt in N2. unfold Rsqr in N2. nra.
    + apply Rsqr_pos_lt in N1. unfold Rsqr in N1. pose proof (pow2_ge_0 d2). nra.
Qed.

Lemma epix_exact E Iinc (l : list ((R * R) * pairm)) :
  (forall d p, In (d, p) l -> exact_pair E Iinc d p) ->
  (exists d p e q, In (d, p) l /\ In (e, q) l /\ ~ collinear d e) ->
  Epix (I0_of E Iinc) (map snd l) = E.
Proof.
  intros Hx (d & p & e & q & I1 & I2 & Hc).
  assert (Nd : d <> (0, 0)) by (intros ->; apply Hc; unfold collinear; cbn; ring).
  assert (Ne : e <> (0, 0)) by (intros ->; apply Hc; unfold collinear; cbn; ring).
  pose proof (proj2 (exact_good _ _ _ _ (Hx _ _ I1)) Nd) as Gp. pose proof (proj2 (exact_good _ _ _ _ (Hx _ _ I2)) Ne) as Gq.
  assert (Hne : p <> q).
  { intros <-. apply Hc. pose proof (exact_row _ _ _ _ (Hx _ _ I1) Nd) as R1. pose proof (exact_row _ _ _ _ (Hx _ _ I2) Ne) as R2.
    rewrite R1 in R2. subst e. unfold collinear. ring. }
  set (g := filter (good (I0_of E Iinc)) (map snd l)).
  assert (Ip : In p g) by (apply filter_In; split; [apply in_map_iff; exists (d, p); auto|exact Gp]).
  assert (Iq : In q g) by (apply filter_In; split; [apply in_map_iff; exists (e, q); auto|exact Gq]).
  assert (L : (2 <= length g)%nat).
  { destruct g as [|a [|b g']]; cbn in Ip, Iq |- *; [contradiction| |lia].
    destruct Ip as [Ip|[]]. destruct Iq as [Iq|[]]. congruence. }
  unfold Epix. fold g. destruct (Nat.ltb_spec (length g) 2) as [Lt|_]; [exfalso; clear -L Lt; lia|].
  destruct E as [E1 E2]. apply pinv_exact.
  - intros h1 h2 z Hi. apply in_map_iff in Hi. destruct Hi as (r & Er & Ir). apply filter_In in Ir. destruct Ir as [Ir Gr].
    apply in_map_iff in Ir. destruct Ir as ((f & r') & <- & Il). cbn [snd] in *.
    pose proof (proj1 (exact_good _ _ _ _ (Hx _ _ Il)) Gr) as Nf. pose proof (exact_row _ _ _ _ (Hx _ _ Il) Nf) as Rf.
    rewrite Rf, (exact_z _ _ _ _ (Hx _ _ Il)) in Er. injection Er as -> <-. reflexivity.
  - exists (fst d), (snd d), (zmeas p), (fst e), (snd e), (zmeas q). split; [|split].
    + apply in_map_iff. exists p. split; [|exact Ip]. rewrite (exact_row _ _ _ _ (Hx _ _ I1) Nd). now destruct d.
    + apply in_map_iff. exists q. split; [|exact Iq]. rewrite (exact_row _ _ _ _ (Hx _ _ I2) Ne). now destruct e.
    + exact Hc.
Qed.
