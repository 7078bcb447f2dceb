(* Proofs for C104: the scan of a convex polygon, all lines *)
From Coquelicot Require Import Coquelicot.
From Verif Require Import Base StrBase RBase CBase PropModel PrpModel DmSurfProofs2 EllProofs ApModel ApSpec ApProofs ApProofs2 RectModel RectSpec RectProofs RectProofs2 RectProofs3 RectProofs4 RectProofs5 PolySpec PolyProofs.
Open Scope R_scope.
Lemma hull_segment p xl xr y x : in_hull p xl y -> in_hull p xr y -> xl <= x <= xr -> in_hull p x y.
Proof.
  intros A B H. destruct (Req_dec xl xr) as [E|NE]; [replace x with xl by lra; exact A|].
  pose proof (hull_mix p _ _ _ _ ((x - xl) / (xr - xl)) ltac:(split; [apply Rdiv_le_0_compat; lra|]; apply (Rmult_le_reg_r (xr - xl)); [lra|]; unfold Rdiv; rewrite Rmult_assoc, Rinv_l; lra) A B) as M.
  replace (xl + (x - xl) / (xr - xl) * (xr - xl)) with x in M by (field; lra). replace (y + (x - xl) / (xr - xl) * (y - y)) with y in M by ring. exact M.
Qed.
(* a clockwise polygon with its two sides, in pixels *)
Record cpoly (p : poly) (b l r : nat) (top gap first : R) : Prop := {
  c_gap : 0 < gap; c_lt : v_y p b < top; c_b : (b < v_n p)%nat; c_low : lowest p = b;
  c_max : lmax (v_y p) (v_n p) = top; c_min : lmin (v_y p) (v_n p) = v_y p b;
  c_all : forall k, (k < v_n p)%nat -> v_y p b <= v_y p k <= top;
  c_f : climbs (v_y p) top gap first (forth p b) l; c_k : climbs (v_y p) top gap first (back p b) r;
  c_cw : clockwise p }.
Lemma forth_0 p b : (b < v_n p)%nat -> forth p b 0 = b.
Proof. intros H. unfold forth. rewrite Nat.add_0_r. now apply Nat.mod_small. Qed.
Lemma back_0 p b : (b < v_n p)%nat -> back p b 0 = b.
Proof. intros H. unfold back. rewrite Nat.mul_0_r, Nat.add_0_r. now apply Nat.mod_small. Qed.
Lemma forth_in p b k : (0 < v_n p)%nat -> (forth p b k < v_n p)%nat.
Proof. intros H. apply Nat.mod_upper_bound. lia. Qed.
Lemma back_in p b k : (0 < v_n p)%nat -> (back p b k < v_n p)%nat.
Proof. intros H. apply Nat.mod_upper_bound. lia. Qed.
Lemma vnext_mod nv k : (k < nv)%nat -> vnext nv k = ((k + 1) mod nv)%nat.
Proof. intros H. unfold vnext. destruct (Nat.eqb_spec k (nv - 1)) as [->|NE]; [replace (nv - 1 + 1)%nat with nv by lia; now rewrite Nat.mod_same by lia|]. rewrite Nat.mod_small by lia. reflexivity. Qed.
Lemma vprev_mod nv k : (k < nv)%nat -> vprev nv k = ((k + (nv - 1)) mod nv)%nat.
Proof. intros H. unfold vprev. destruct (Nat.eqb_spec k 0) as [->|NE]; [now rewrite Nat.mod_small by lia|]. replace (k + (nv - 1))%nat with (k - 1 + 1 * nv)%nat by lia. rewrite Nat.mod_add by lia. now rewrite Nat.mod_small by lia. Qed.
Lemma forth_next p b k : (0 < v_n p)%nat -> vnext (v_n p) (forth p b k) = forth p b (S k).
Proof. intros H. rewrite vnext_mod by now apply forth_in. unfold forth. rewrite Nat.add_mod_idemp_l by lia. f_equal. lia. Qed.
Lemma back_next p b k : (0 < v_n p)%nat -> vprev (v_n p) (back p b k) = back p b (S k).
Proof. intros H. rewrite vprev_mod by now apply back_in. unfold back. rewrite Nat.add_mod_idemp_l by lia. f_equal. lia. Qed.
Lemma forth_of_back p b k : (0 < v_n p)%nat -> forth p (back p b (S k)) 1 = back p b k.
Proof.
  intros H. unfold forth, back. rewrite Nat.add_mod_idemp_l by lia. replace (b + (v_n p - 1) * S k + 1)%nat with (b + (v_n p - 1) * k + 1 * v_n p)%nat by nia. now rewrite Nat.mod_add by lia.
Qed.
Lemma forth_of_forth p b k : (0 < v_n p)%nat -> forth p (forth p b k) 1 = forth p b (S k).
Proof. intros H. unfold forth. rewrite Nat.add_mod_idemp_l by lia. f_equal. lia. Qed.
Definition ready (p : poly) (b l r : nat) (top y : R) (s : chains) : Prop :=
  top < y \/ (rdy (v_y p) (forth p b) l y (h_l s) (h_ln s) /\ rdy (v_y p) (back p b) r y (h_r s) (h_rn s)).
Lemma line_poly p b l r top gap first s y y' : cpoly p b l r top gap first -> ready p b l r top y s -> y < y' <= y + gap ->
  ready p b l r top y' (fst (scan_line p y s)) /\
  (v_y p b <= y <= top -> exists xl xr, snd (scan_line p y s) = Some (xl, xr) /\ xl <= xr /\ forall x, in_hull p x y <-> xl <= x <= xr) /\
  (~ v_y p b <= y <= top -> snd (scan_line p y s) = None).
Proof.
  intros C HR HY. pose proof (c_b _ _ _ _ _ _ _ C) as HB. assert (NV : (0 < v_n p)%nat) by lia. pose proof (forth_0 p b HB) as F0. pose proof (back_0 p b HB) as B0.
  pose proof (c_f _ _ _ _ _ _ _ C) as CF. pose proof (c_k _ _ _ _ _ _ _ C) as CK. pose proof (c_gap _ _ _ _ _ _ _ C) as G. pose proof (c_lt _ _ _ _ _ _ _ C) as LT.
  unfold scan_line. rewrite (c_max _ _ _ _ _ _ _ C).
  destruct (Rlt_dec top y) as [T|T].
  - assert (E : (if Rlt_dec y (v_y p (h_l s)) then (s, @None (R * R)) else (s, None)) = (s, None)) by (destruct (Rlt_dec y (v_y p (h_l s))); reflexivity). rewrite E. cbn [fst snd].
    split; [left; lra|]. split; [lra|auto].
  - destruct HR as [HR|[RL RR]]; [contradiction|]. destruct (Rlt_dec y (v_y p b)) as [L|L].
    + destruct (rdy_below _ _ _ _ _ _ _ _ _ CF G RL) as [EL EL']; [now rewrite F0|]. destruct (rdy_below _ _ _ _ _ _ _ _ _ CK G RR) as [ER ER']; [now rewrite B0|].
      rewrite EL, F0. destruct (Rlt_dec y (v_y p b)); [|contradiction]. cbn [fst snd]. split; [|split; [lra|auto]].
      right. rewrite EL, EL', ER, ER'. split; [apply (start_rdy _ _ _ _ _ _ _ _ CF (eq_ind_r (fun q => y < v_y p q) L F0))|apply (start_rdy _ _ _ _ _ _ _ _ CK (eq_ind_r (fun q => y < v_y p q) L B0))]; lra.
    + assert (NL : ~ y < v_y p (h_l s)). { destruct RL as [k [_ [-> [_ [[->|Q] _]]]]]; [rewrite F0|]; lra. }
      destruct (Rlt_dec y (v_y p (h_l s))); [contradiction|]. cbn [fst snd].
      pose proof (rdy_onl _ _ _ _ _ _ _ _ _ (vnext (v_n p)) CF RL ltac:(rewrite F0; lra) (fun k => forth_next p b k NV)) as OL.
      pose proof (rdy_onl _ _ _ _ _ _ _ _ _ (vprev (v_n p)) CK RR ltac:(rewrite B0; lra) (fun k => back_next p b k NV)) as OR.
      cbv zeta in OL, OR. change (onl (v_y p) (forth p b) l top y (h_l (advance p y s)) (h_ln (advance p y s))) in OL. change (onl (v_y p) (back p b) r top y (h_r (advance p y s)) (h_rn (advance p y s))) in OR.
      set (s' := advance p y s) in *. split; [|split; [|lra]].
      * destruct (Rlt_dec top y') as [T'|T']; [now left|right]. split; [refine (onl_rdy _ _ _ _ _ _ _ _ _ _ CF _ _ _ OL)|refine (onl_rdy _ _ _ _ _ _ _ _ _ _ CK _ _ _ OR)]; lra.
      * intros _. assert (HL : in_hull p (crossing p (h_l s') (h_ln s') y) y) by (apply (onl_hull p (forth p b) l top); auto; [intros; now apply forth_in|apply CF]).
        assert (HRt : in_hull p (crossing p (h_r s') (h_rn s') y) y) by (apply (onl_hull p (back p b) r top); auto; [intros; now apply back_in|apply CK]).
        assert (BL : forall x, in_hull p x y -> crossing p (h_l s') (h_ln s') y <= x).
        { intros x X. enough (1 * crossing p (h_l s') (h_ln s') y <= 1 * x) by lra. apply (onl_bound p (forth p b) l top gap first y (h_l s') (h_ln s') 1); auto; [now rewrite F0|].
          intros k v K V. pose proof (c_cw _ _ _ _ _ _ _ C (forth p b k) v (forth_in p b k NV) V) as S. unfold side in S. cbv zeta in S. rewrite forth_of_forth in S by auto. lra. }
        assert (BR : forall x, in_hull p x y -> x <= crossing p (h_r s') (h_rn s') y).
        { intros x X. enough (-1 * crossing p (h_r s') (h_rn s') y <= -1 * x) by lra. apply (onl_bound p (back p b) r top gap first y (h_r s') (h_rn s') (-1)); auto; [now rewrite B0|].
          intros k v K V. pose proof (c_cw _ _ _ _ _ _ _ C (back p b (S k)) v (back_in p b (S k) NV) V) as S. unfold side in S. cbv zeta in S. rewrite forth_of_back in S by auto. lra. }
        eexists. eexists. split; [reflexivity|]. split; [now apply BL|]. intros x. split; [intros X; split; auto|]. intros X. now apply (hull_segment p _ _ y x HL HRt).
Qed.
