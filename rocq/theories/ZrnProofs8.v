(* Proofs for C84 and C85: no obscuration; sums of modes; maps *)
From Coq Require Import Factorial.
From Coquelicot Require Import Coquelicot.
From Verif Require Import Base RBase StrBase CBase UtilModel PropModel OptModel EstModel PrpModel ZrnModel ZrnSpec ZrnProofs ZrnProofs2 ZrnProofs3 ZrnProofs4 ZrnProofs5 ZrnProofs6 ZrnProofs7.
From Verif Require PrpProofs5 MaskProofs.
Open Scope R_scope.
Definition tab_n (k : nat) : nat := nth k [0; 0; 1; 1; 2; 2; 2; 3; 3; 3; 3; 4; 4; 4; 4; 4; 5; 5; 5; 5; 5; 5; 6]%nat 0%nat.
Lemma noll_tab k : (1 <= k <= 22)%nat -> noll k (tab_n k) (fst (oang k)).
Proof.
  intros K. exists (k - 1 - tab_n k * (tab_n k + 1) / 2)%nat.
  do 23 (destruct k as [|k]; [try lia; vm_compute; repeat split; lia|]). lia.
Qed.
Lemma sqrt_4 : sqrt 4 = 2. Proof. replace 4 with (2 * 2) by ring. apply sqrt_square. lra. Qed.
Lemma sqrt_8 : sqrt 8 = 2 * sqrt 2. Proof. replace 8 with (2 * 2 * 2) by ring. rewrite sqrt_mult, sqrt_square by lra. reflexivity. Qed.
Lemma sqrt_12 : sqrt 12 = 2 * sqrt 3. Proof. replace 12 with (2 * 2 * 3) by ring. rewrite sqrt_mult, sqrt_square by lra. reflexivity. Qed.
Ltac onum x v := assert_succeeds (assert (x = v) by ring); replace x with v by ring.
Ltac is_lit x := match x with IZR _ => idtac end.
Ltac osqrt := repeat match goal with |- context [sqrt ?x] => tryif is_lit x then fail else first [onum x 1 | onum x 3 | onum x 4 | onum x 5 | onum x 6 | onum x 7 | onum x 8 | onum x 10 | onum x 12] end.
Lemma zobs_0 k r t : (1 <= k <= 22)%nat -> zobs k 0 r t = Some (zernike (tab_n k) (fst (oang k)) (Nat.even k) r t).
Proof.
  intros K. rewrite zobs_split by auto. f_equal. rewrite zernike_split. f_equal.
  assert (P : forall n, (1 <= n)%nat -> 0 ^ n = 0) by (intros; now apply pow_i).
  do 23 (destruct k as [|k]; [try lia; unfold oscale, opoly, oang, tab_n, znorm, pval; cbv zeta; rewrite ?P by lia; cbn [nth fst Nat.eqb Nat.add map rsuml snd];
    unfold radial; cbn [Nat.sub Nat.add Nat.div Nat.divmod fst rsum Nat.mul fact]; simpl INR; osqrt; rewrite ?sqrt_1, ?sqrt_4, ?sqrt_8, ?sqrt_12; field|]). lia.
Qed.
(* sums of obscured modes *)
Lemma zobs_sum_all eps r t Z : forall ks vs ab, (forall k, In k ks -> zobs k eps r t = Some (Z k)) -> length vs = length ks ->
  zobs_sum true eps ks vs ab r t = Ok (combo Z ks vs).
Proof.
  induction ks as [|k ks IH]; intros [|v vs] ab H L; try discriminate L; cbn [zobs_sum combo orb]; auto.
  rewrite (H k (or_introl eq_refl)). rewrite IH; auto. intros; apply H; right; auto.
Qed.
Lemma zobs_sum_last eps r t Z : forall ks k vs v ab, zobs k eps r t = Some Z -> length vs = length ks ->
  zobs_sum false eps (ks ++ [k]) (vs ++ [v]) ab r t = Ok (v * Z).
Proof.
  induction ks as [|k0 ks IH]; intros k [|v0 vs] v ab H L; try discriminate L; cbn [zobs_sum app orb].
  - rewrite H. cbn [rbind]. f_equal. ring.
  - destruct (ks ++ [k])%list eqn:E; [destruct ks; discriminate|]. rewrite <- E. cbn [tl]. apply IH; auto.
Qed.
(* maps *)
Lemma zmap_ok n f g : (1 <= n)%nat -> (forall i j, f i j = Ok (g i j)) -> exists d, zmap n f = Ok d /\ frows d = n /\ fcols d = n /\ forall i j, fpx d i j = g i j.
Proof.
  intros N H. unfold zmap. destruct (Nat.eqb_spec n 0); [lia|]. rewrite H. eexists. split; [reflexivity|]. cbn [frows fcols fpx]. repeat split; auto. intros i j. now rewrite H.
Qed.
Lemma polar_of x y : exists r t, 0 <= r /\ x = r * cos t /\ y = r * sin t.
Proof.
  exists (sqrt (x * x + y * y)), (atan2 y x). destruct (MaskProofs.atan2_polar0 x y) as (A & B). split; [apply sqrt_pos|]. split; symmetry; auto.
Qed.
Definition pixval (Z : nat -> R -> R -> R) ks vs (x y : R) : R := combo (fun k => Z k (sqrt (x ^ 2 + y ^ 2)) (atan2 y x)) ks vs.
Lemma combo_ext f g ks : (forall k, In k ks -> f k = g k) -> forall vs, combo f ks vs = combo g ks vs.
Proof. induction ks as [|k ks IH]; intros H [|v vs]; cbn [combo]; auto. rewrite H by (left; auto). f_equal. apply IH. intros; apply H; right; auto. Qed.
Lemma pix_clear Z every ks vs x y : zref Z -> (forall k, In k ks -> 1 <= k <= 276)%nat -> length vs = length ks -> zpixel every 0 ks vs x y = Ok (pixval Z ks vs x y).
Proof.
  intros HZ K L. unfold zpixel, pixval. destruct (Req_EM_T 0 0) as [_|X]; [|destruct X; auto]. erewrite (zsum_ok Z) by (auto; intros; now apply list_max_in). reflexivity.
Qed.
Lemma pixval_clear Z ks vs r t : zref Z -> (forall k, In k ks -> 1 <= k <= 276)%nat -> 0 <= r -> pixval Z ks vs (r * cos t) (r * sin t) = combo (fun k => Z k r t) ks vs.
Proof.
  intros HZ K P. unfold pixval. apply combo_ext. intros k I. destruct (noll_ex k) as (n & m & N); [apply K; auto|]. rewrite !(HZ k n m) by auto. apply zernike_pixel; auto. eapply noll_half; eauto.
Qed.
Definition zoref (eps : R) (Z : nat -> R -> R -> R) : Prop := forall k r t, (1 <= k <= 22)%nat -> zobs k eps r t = Some (Z k r t).
Lemma pix_obs Z eps ks vs x y : zoref eps Z -> eps <> 0 -> (forall k, In k ks -> 1 <= k <= 22)%nat -> length vs = length ks -> zpixel true eps ks vs x y = Ok (pixval Z ks vs x y).
Proof.
  intros HZ N K L. unfold zpixel, pixval. destruct (Req_EM_T eps 0) as [|_]; [contradiction|]. apply zobs_sum_all; auto.
Qed.
Lemma pix_last Z eps ks k vs v x y : zoref eps Z -> eps <> 0 -> (1 <= k <= 22)%nat -> length vs = length ks -> zpixel false eps (ks ++ [k]) (vs ++ [v]) x y = Ok (pixval Z [k] [v] x y).
Proof.
  intros HZ N K L. unfold zpixel, pixval. destruct (Req_EM_T eps 0) as [|_]; [contradiction|]. rewrite (zobs_sum_last eps _ _ (Z k (sqrt (x ^ 2 + y ^ 2)) (atan2 y x))); auto. f_equal. cbn [combo]. ring.
Qed.
Lemma pixval_obs Z eps ks vs r t : zoref eps Z -> (forall k, In k ks -> 1 <= k <= 22)%nat -> 0 <= r -> pixval Z ks vs (r * cos t) (r * sin t) = combo (fun k => Z k r t) ks vs.
Proof.
  intros HZ K P. unfold pixval. apply combo_ext. intros k I. pose proof (zobs_pixel k eps r t P) as E. cbv zeta in E. rewrite !HZ in E by auto. congruence.
Qed.
(* checks *)
Lemma check_clear n ks : ks <> [] -> zcheck 0 (Array ks) n = None.
Proof. intros N. unfold zcheck. destruct ks; [now destruct N|]. destruct (Req_EM_T 0 0) as [_|X]; [|destruct X; auto]. reflexivity. Qed.
Lemma check_obs n eps ks : ks <> [] -> (forall k, In k ks -> k <= 22)%nat -> zcheck eps (Array ks) n = None.
Proof.
  intros N K. unfold zcheck. destruct ks as [|k ks]; [now destruct N|]. destruct (Req_EM_T eps 0); auto. cbn [zlist]. destruct (Nat.ltb_spec 22 (list_max (k :: ks))) as [L|]; auto. exfalso.
  assert (X : (list_max (k :: ks) <= 22)%nat); [|lia]. apply list_max_le. apply Forall_forall. auto.
Qed.
(* applying a map *)
Lemma apply_ok w na amp d n : (1 <= n)%nat -> frows (w_arr w) = n -> fcols (w_arr w) = n -> frows d = n -> fcols d = n ->
  exists w', zapply w na amp d = Ok w' /\ (na = true -> w' = w) /\
    (na = false -> w' = set_arr w (w_arr w') /\ frows (w_arr w') = n /\ fcols (w_arr w') = n /\
      forall i j, (i < n)%nat -> (j < n)%nat -> fpx (w_arr w') i j = Cmult (fpx (w_arr w) i j) (let v := fpx d (roll_ix n (half n) i) (roll_ix n (half n) j) in if amp then RtoC v else cis (2 * PI / w_lam w * v))).
Proof.
  intros N A1 A2 D1 D2. unfold zapply. destruct na; [exists w; split; auto; split; auto; discriminate|].
  assert (S1 : frows (shift_center d) = n) by auto. assert (S2 : fcols (shift_center d) = n) by auto.
  match goal with |- context [imul _ ?B] => destruct (PrpProofs5.imul_sq n (w_arr w) B) as (P & HP & (P1 & P2) & HV); [split; auto|split; cbn [frows fcols]; auto|] end.
  rewrite HP. cbn [rbind]. eexists. split; [reflexivity|]. split; [discriminate|]. intros _. cbn [set_arr w_arr]. split; [reflexivity|]. split; auto. split; auto. intros i j I J. rewrite HV by auto. cbn [fpx]. unfold shift_center, roll2. cbn [fpx]. rewrite D1, D2. reflexivity.
Qed.
