From Verif Require Import Base RBase StrBase CBase PropModel OptModel WinProofs ThinModel ThinSpec ThinProofs ThinProofs5 ThinProofs6 ThinProps FilmModel FilmSpec.
Open Scope R_scope.
(* ---- materials ---- *)
Lemma interp_pos x : forall xp fp, length xp = length fp -> fp <> nil -> Forall (fun f => 0 < f) fp -> 0 < np_interp x xp fp.
Proof.
  induction xp as [|x0 xt IH]; intros fp E N P; [destruct fp; [congruence|discriminate]|].
  destruct fp as [|f0 ft]; [discriminate|]. inversion P as [|? ? P0 Pt]; subst. destruct xt as [|x1 xt]; [exact P0|]. destruct ft as [|f1 ft]; [discriminate|].
  rewrite interp_cons. destruct (Rlt_dec x x0); [exact P0|]. destruct (Rlt_dec x x1) as [H1|H1].
  - inversion Pt as [|? ? P1 _]; subst. assert (D : 0 < x1 - x0) by lra. replace (f0 + (f1 - f0) / (x1 - x0) * (x - x0)) with ((f0 * (x1 - x) + f1 * (x - x0)) / (x1 - x0)) by (field; lra). apply Rdiv_lt_0_compat; [|exact D]. nra.
  - apply IH; [cbn in *; lia|discriminate|exact Pt].
Qed.
Lemma rows_pos t lam : absorber t -> forall f, 0 < np_interp lam (map f (col1 t)) (col2 t) /\ 0 < np_interp lam (map f (col1 t)) (col3 t).
Proof.
  intros [N P] f. split; apply interp_pos.
  - unfold col1, col2. now rewrite !map_length.
  - destruct t; [congruence|discriminate].
  - apply Forall_forall. intros y Hy. unfold col2 in Hy. apply in_map_iff in Hy. destruct Hy as ([[w n] k] & <- & Hi). exact (proj1 (P w n k Hi)).
  - unfold col1, col3. now rewrite !map_length.
  - destruct t; [congruence|discriminate].
  - apply Forall_forall. intros y Hy. unfold col3 in Hy. apply in_map_iff in Hy. destruct Hy as ([[w n] k] & <- & Hi). exact (proj2 (P w n k Hi)).
Qed.
Lemma ti_absorbs : absorber ti_rows.
Proof. split; [discriminate|]. intros w n k H. unfold ti_rows in H. cbn [In] in H. repeat (destruct H as [H|H]; [injection H as <- <- <-; lra|]). contradiction. Qed.
(* a medium light can enter from air at any angle *)
Definition good (c : C) : Prop := 0 < fst c /\ snd c <= 0 /\ (snd c < 0 \/ 1 < fst c).
Lemma row_good t lam : absorber t -> good (absorbing (row_index t lam)).
Proof. intros H. pose proof (rows_pos t lam H (fun x => x)) as [A B]. rewrite map_id in A, B. unfold good, absorbing, row_index. cbn [fst snd]. lra. Qed.
Lemma diel_good tb s um nm nd : absorber (mgf2_rows tb) -> um <> 0 -> dielectric_index tb s um nm = Ok nd -> good (absorbing nd).
Proof.
  intros H Hu E. unfold dielectric_index in E. destruct (str_in (lower s) _).
  - injection E as <-. unfold good, absorbing. cbn [fst snd]. assert (0 < um * um) by nra. assert (0 < (5176 / 1000000) / (um * um)) by (apply Rdiv_lt_0_compat; lra). assert (0 < um * um * um * um) by nra. assert (0 < (2105 / 10000000) / (um * um * um * um)) by (apply Rdiv_lt_0_compat; lra). lra.
  - destruct (str_in (lower s) _); [|discriminate]. injection E as <-. pose proof (rows_pos (mgf2_rows tb) nm H (fun w => w * 1000)) as [A B]. unfold good, absorbing. cbn [fst snd]. lra.
Qed.
Lemma term_pos A B l : 0 < A -> B < l -> 0 < l -> A <= A * l / (l - B) \/ B < 0.
Proof. intros HA HB Hl. destruct (Rlt_dec B 0); [now right|]. left. assert (0 < l - B) by lra. apply (Rmult_le_reg_r (l - B)); [auto|]. unfold Rdiv. rewrite Rmult_assoc, Rinv_l by lra. nra. Qed.
Lemma term_low A B l c : 0 < A -> l < B -> 0 < l -> l <= c -> c < B -> - (A * c / (B - c)) <= A * l / (l - B).
Proof.
  intros HA HB Hl Hc HcB. replace (A * l / (l - B)) with (- (A * l / (B - l))) by (field; split; lra). apply Ropp_le_contravar. unfold Rdiv. rewrite !Rmult_assoc. apply Rmult_le_compat_l; [lra|].
  apply Rmult_le_compat; [lra|left; apply Rinv_0_lt_compat; lra|lra|]. apply Rinv_le_contravar; lra.
Qed.
Lemma sub_good s um n : 2 / 10 <= um <= 2 -> substrate_index s um = Ok n -> 1 < n.
Proof.
  intros H E. unfold substrate_index in E. set (l := um * um) in *. assert (L : 4 / 100 <= l <= 4) by (unfold l; nra).
  assert (S1 : forall x, 0 < x -> 1 < sqrt (1 + x)) by (intros x Hx; rewrite <- sqrt_1 at 1; apply sqrt_lt_1; lra).
  destruct (str_in (upper s) _).
  - injection E as <-. rewrite !Rplus_assoc. apply S1.
    destruct (term_pos (683740494 / 1000000000) (460352869 / 100000000000) l) as [T1|?]; try lra. destruct (term_pos (420323613 / 1000000000) (133968856 / 10000000000) l) as [T2|?]; try lra.
    pose proof (term_low (58502748 / 100000000) (644932732 / 10000000) l 4) as T3. lra.
  - destruct (str_in (upper s) _); [|discriminate]. injection E as <-. rewrite !Rplus_assoc. apply S1.
    destruct (term_pos (103961212 / 100000000) (600069867 / 100000000000) l) as [T1|?]; try lra. destruct (term_pos (231792344 / 1000000000) (200179144 / 10000000000) l) as [T2|?]; try lra.
    pose proof (term_low (101046945 / 100000000) (103560653 / 1000000) l 4) as T3. lra.
Qed.
(* ---- a stack of good media under air is passive ---- *)
Lemma stack_passive rest d0 theta lam : 0 < lam -> Rabs (sin theta) < 1 -> Forall good rest -> rest <> nil -> Forall (fun x => 0 <= x) d0 ->
  passive (medium (RtoC 1 :: rest)) (thick d0) (bottom (RtoC 1 :: rest)) theta lam.
Proof.
  intros Hlam Hs G N D. assert (K : 0 < k0 lam * k0 lam) by (unfold k0; pose proof PI_RGT_0; assert (0 < 2 * PI / lam) by (apply Rdiv_lt_0_compat; lra); nra).
  assert (SS : 0 <= sin theta * sin theta < 1). { assert (E : Rabs (sin theta) * Rabs (sin theta) = sin theta * sin theta) by (rewrite <- Rabs_mult; apply Rabs_right; nra). rewrite <- E. pose proof (Rabs_pos (sin theta)). nra. }
  set (n := RtoC 1 :: rest). assert (B : bottom n = length rest) by (unfold bottom, n; cbn [length]; lia). rewrite B.
  assert (Q : forall j, fst (q2 (medium n) theta lam j) = k0 lam * k0 lam * (fst (medium n j) * fst (medium n j) - snd (medium n j) * snd (medium n j) - sin theta * sin theta) /\ snd (q2 (medium n) theta lam j) = k0 lam * k0 lam * (2 * fst (medium n j) * snd (medium n j))).
  { intros j. unfold q2. change (medium n 0) with (RtoC 1). destruct (medium n j) as [a b]. cbn. split; ring. }
  assert (GJ : forall j, (S j <= length rest)%nat -> good (medium n (S j))). { intros j Hj. unfold medium, n. cbn [nth]. rewrite Forall_forall in G. apply G. apply nth_In. lia. }
  split; [|split; [|split; [|split]]].
  - intros [|j] Hj; [cbn; lra|]. destruct (GJ j Hj) as (A1 & A2 & _). auto.
  - reflexivity.
  - intros [|j] Hj E; destruct (Q 0%nat) as [E1 E2].
    + rewrite E in E1. change (medium n 0) with (RtoC 1) in E1. cbn [fst snd RtoC] in E1. assert (0 < k0 lam * k0 lam * (1 * 1 - 0 * 0 - sin theta * sin theta)) by (apply Rmult_lt_0_compat; lra). lra.
    + destruct (Q (S j)) as [F1 F2]. rewrite E in F1, F2. cbn [fst snd RtoC] in F1, F2. destruct (GJ j Hj) as (A1 & A2 & [A3|A3]); destruct (medium n (S j)) as [a b]; cbn [fst snd] in *; [assert (a * b < 0) by nra; nra|].
      assert (b = 0) by (assert (a * b = 0) as Z by nra; apply Rmult_integral in Z; lra). subst b. assert (0 < k0 lam * k0 lam * (a * a - 0 * 0 - sin theta * sin theta)) by (apply Rmult_lt_0_compat; nra). lra.
  - destruct rest as [|c rest]; [congruence|]. cbn [length]. destruct (GJ (length rest) ltac:(cbn; lia)) as (A1 & A2 & [A3|A3]); destruct (Q (S (length rest))) as [F1 F2]; rewrite F1, F2; destruct (medium n (S (length rest))) as [a b]; cbn [fst snd] in *.
    + right. assert (a * b < 0) by nra. nra.
    + destruct (Rlt_dec b 0); [right; assert (a * b < 0) by nra; nra|]. assert (b = 0) by lra. subst b. left. apply Rmult_lt_0_compat; nra.
  - intros j _. unfold thick. rewrite Forall_forall in D. destruct (nth_in_or_default j ((0 :: d0) ++ 0 :: nil) 0) as [I| ->]; [|lra]. apply in_app_or in I. destruct I as [[<-|I]|[<-|[]]]; [lra|auto|lra].
Qed.
