(* Proofs for C101: masks multiplied on *)
From Coquelicot Require Import Coquelicot.
From Verif Require Import Base StrBase RBase UtilModel UtilSpec UtilProofs CBase PropModel PropProofs OptModel PrpModel PrpProofs PrpProofs5 DmSurfProofs2 EllProofs ApModel ApSpec ApProofs ApProofs2.
Open Scope R_scope.
Lemma times_ok w m : square_w w -> frows m = w_n w -> fcols m = w_n w -> exists E, times_mask w m = Ok (set_arr w E) /\ frows E = w_n w /\ fcols E = w_n w /\
  forall i j, (i < w_n w)%nat -> (j < w_n w)%nat -> fpx E i j = Cmult (fpx (w_arr w) i j) (RtoC (fpx m (roll_ix (w_n w) (half (w_n w)) i) (roll_ix (w_n w) (half (w_n w)) j))).
Proof.
  intros [S1 S2] M1 M2. destruct (PrpProofs5.imul_sq (w_n w) (w_arr w) (shift_center (fmap RtoC m))) as (P & E & [Q1 Q2] & V).
  - split; auto.
  - split; cbn; auto.
  - exists P. unfold times_mask. rewrite E. cbn [rbind]. split; [reflexivity|]. split; [auto|]. split; [auto|]. intros i j Hi Hj. rewrite V by auto. cbn [shift_center roll2 fmap frows fcols fpx]. now rewrite M1, M2.
Qed.
Lemma half2_even n : Nat.even n = true -> (half n + half n = Z.of_nat n)%Z.
Proof. intros H. apply Nat.even_spec in H. destruct H as (k & ->). unfold half. rewrite (Nat.mul_comm 2 k), Nat.div_mul by lia. lia. Qed.
Lemma roll_twice_even n i : Nat.even n = true -> (i < n)%nat -> roll_ix n (half n) (roll_ix n (half n) i) = i.
Proof. intros E H. rewrite roll_roll by lia. apply roll_id; auto. rewrite half2_even by auto. apply Z_mod_same_full. Qed.
Lemma roll_twice_odd n i : Nat.odd n = true -> (i < n)%nat -> roll_ix n (half n) (roll_ix n (half n) i) = ((i + 1) mod n)%nat.
Proof.
  intros E H. rewrite roll_roll by lia. apply Nat.odd_spec in E. destruct E as (k & ->). unfold roll_ix, half. replace ((2 * k + 1) / 2)%nat with k by (rewrite Nat.mul_comm, Nat.div_add_l by lia; simpl; lia).
  replace (Z.of_nat i - (Z.of_nat k + Z.of_nat k))%Z with (Z.of_nat (i + 1) + (-1) * Z.of_nat (2 * k + 1))%Z by lia. rewrite Z_mod_plus_full, <- Nat2Z.inj_mod. apply Nat2Z.id.
Qed.
Lemma roll_back n i : (i < n)%nat -> roll_ix n (half n) (roll_ix n (- half n) i) = i.
Proof. intros H. rewrite roll_roll by lia. apply roll_id; auto. replace (half n + - half n)%Z with 0%Z by lia. apply Zmod_0_l. Qed.
Lemma covers_01 n nsub dx xr yr xc yc rot v i j : Nat.odd nsub = true -> covers n nsub dx xr yr xc yc rot v i j -> 0 <= v <= 1.
Proof. intros O [A B]. pose proof (cov_01 n nsub dx 1 xr yr xc yc rot i j O). pose proof (cov_01 n nsub dx (1 + / 10 ^ 10) xr yr xc yc rot i j O). lra. Qed.
(* the centre of the ellipse between the outermost pixel centres *)
Lemma centre_meets n dx xr yr xc yc rot : - INR (n / 2) * dx <= xc <= (INR n - 1 - INR (n / 2)) * dx -> - INR (n / 2) * dx <= yc <= (INR n - 1 - INR (n / 2)) * dx -> meets_grid n dx xr yr xc yc rot.
Proof.
  intros A B. exists xc, yc. split; [|auto]. unfold inside. cbv zeta. rewrite !Rminus_eq_0, !Rmult_0_r, Rminus_0_r, Rplus_0_r. unfold Rdiv. rewrite !Rmult_0_l. lra.
Qed.
(* a plane wave of amplitude 1, a circular stop, the amplitude *)
Lemma plane_stop nsub diam lam n frac r xc yc : Nat.odd nsub = true -> (2 <= n)%nat -> lam <> 0 -> 0 < diam / (INR n * frac) -> INR n * frac <> 0 -> 0 < r ->
  let dx := diam / (INR n * frac) in meets_grid n dx r r xc yc 0 ->
  exists w w1, prop_begin diam lam n frac = Ok w /\ w_n w = n /\ w_dx w = dx /\ circular_aperture nsub w r xc yc false = Ok w1 /\ w_n w1 = n /\ w_dx w1 = dx /\
    frows (amplitude w) = n /\ fcols (amplitude w) = n /\ frows (amplitude w1) = n /\ fcols (amplitude w1) = n /\
    (forall i j, (i < n)%nat -> (j < n)%nat -> fpx (amplitude w) i j = 1) /\
    forall i j, (i < n)%nat -> (j < n)%nat -> covers n nsub dx r r xc yc 0 (fpx (amplitude w1) i j) (Z.of_nat i) (Z.of_nat j).
Proof.
  intros O N L D F R dx M. unfold prop_begin. destruct (Req_EM_T lam 0); [contradiction|]. destruct (Req_EM_T (INR n * frac) 0); [contradiction|]. eexists. 
  match goal with |- exists w1, Ok ?w = _ /\ _ => destruct (ellipse_ok nsub w (mkep r r xc yc 0 false false) O N D) as (m & d & E1 & _ & M1 & M2 & _ & _ & V & _) end; [exact R|exact R|exact M|].
  cbn [w_n] in *. match goal with |- exists w1, Ok ?w = _ /\ _ => destruct (times_ok w m (conj eq_refl eq_refl) M1 M2) as (E & T & T1 & T2 & TV) end. cbn [w_n w_arr fpx] in *.
  eexists. split; [reflexivity|]. split; [reflexivity|]. split; [reflexivity|]. unfold par in E1. cbn [a_xr a_yr a_xc a_yc a_rot a_norm] in E1. unfold circular_aperture. rewrite E1. cbn [rbind]. split; [exact T|]. split; [reflexivity|]. split; [reflexivity|].
  cbn [amplitude w_arr set_arr roll2 frows fcols]. do 4 (split; [auto|]). split.
  - intros i j Hi Hj. unfold amplitude. cbn. apply Cmod_1.
  - intros i j Hi Hj. unfold amplitude. cbn [w_arr set_arr roll2 frows fcols fpx]. rewrite ?T1, ?T2. rewrite TV by (apply roll_lt; lia). rewrite !roll_back by auto. rewrite Cmult_1_l, Cmod_R, Rabs_pos_eq; [now apply V|]. apply (covers_01 n nsub dx r r xc yc 0 _ (Z.of_nat i) (Z.of_nat j) O). now apply V.
Qed.
