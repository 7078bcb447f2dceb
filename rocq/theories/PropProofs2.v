(* Proofs for the matrix Fourier transforms and the relay. *)
From Verif Require Import Base RBase UtilModel UtilProofs CBase PropModel PropSpec PropProofs.
Open Scope R_scope.

(* ---- axes ---- *)
Lemma axis_coord n step c : (1 <= n)%nat -> 0 < step -> exists ax, create_axis (Z.of_nat n) step (interp c) = Ok ax /\
  length ax = n /\ forall k, (k < n)%nat -> nth k ax 0 = coord n step c k.
Proof.
  intros Hn Hs. destruct (create_axis_spec (Z.of_nat n) step (interp c)) as (ax & E & L & H); [lia|auto|].
  exists ax. split; [auto|]. split; [lia|]. intros k Hk. specialize (H (Z.of_nat k)). rewrite Nat2Z.id in H. rewrite H by lia. unfold coord.
  replace (Z.of_nat n mod 2 =? 0)%Z with (Nat.even n).
  - rewrite minus_IZR, <- INR_IZR_INZ. replace (IZR (Z.of_nat n / 2)) with (INR (n / 2)) by (rewrite INR_IZR_INZ; f_equal; rewrite Nat2Z.inj_div; reflexivity).
    destruct (interp c && Nat.even n); [replace (1/2) with (/2) by field; ring|ring].
  - destruct (Nat.even n) eqn:E1.
    + apply Nat.even_spec in E1. destruct E1 as [q ->]. symmetry. apply Z.eqb_eq. rewrite Nat2Z.inj_mul, Z.mul_comm. apply Z.mod_mul. lia.
    + symmetry. apply Z.eqb_neq. intros Q. assert (Nat.odd n = true) by (unfold Nat.odd; now rewrite E1). apply Nat.odd_spec in H0. destruct H0 as [q ->]. lia.
Qed.

Lemma mft_core_sum scaling coef lf ra rb rc rd E k l M N y x eta xi : length rb = M -> length rc = N -> coef = - (2 * PI) / lf ->
  (forall i, (i < M)%nat -> nth i rb 0 = y i) -> (forall j, (j < N)%nat -> nth j rc 0 = x j) -> nth k ra 0 = eta -> nth l rd 0 = xi ->
  mft_core scaling coef ra rb rc rd E k l = Cmult (RtoC scaling) (fourier_sum M N E y x lf eta xi).
Proof.
  intros HM HN Hc Hy Hx Hk Hl. unfold mft_core, fourier_sum. rewrite HM, HN. f_equal.
  rewrite (csum_ext N _ (fun j => csum M (fun i => Cmult (E i j) (cis (- (2 * PI) * (eta * y i + xi * x j) / lf))))).
  - apply csum_swap.
  - intros j Hj. rewrite <- csum_scal_r. apply csum_ext. intros i Hi. rewrite Hk, Hl, Hy, Hx by auto.
    transitivity (Cmult (E i j) (Cmult (cis (coef * (eta * y i))) (cis (coef * (x j * xi))))); [ring|]. rewrite <- cis_add. do 2 f_equal.
    rewrite Hc. unfold Rdiv. ring.
Qed.

Lemma p2f_value E fl w dx dxi Nxi deta Neta c : c <> OtherCentering -> 0 < w -> 0 < dx -> 0 < dxi -> (1 <= Nxi)%nat -> 0 < deta -> (1 <= Neta)%nat ->
  frows E = fcols E -> (1 <= fcols E)%nat -> fl <> 0 ->
  exists out, mft_p2f E fl w dx dxi Nxi deta Neta c = Ok out /\ frows out = Neta /\ fcols out = Nxi /\
    forall k l, (k < Neta)%nat -> (l < Nxi)%nat ->
      fpx out k l = Cmult (RtoC (sqrt (dx * dx * dxi * deta) / (w * fl)))
        (fourier_sum (frows E) (fcols E) (fpx E) (coord (frows E) dx c) (coord (fcols E) dx c) (w * fl) (coord Neta deta c k) (coord Nxi dxi c l)).
Proof.
  intros Hc Hw Hdx Hdxi HNxi Hdeta HNeta Hsq HN Hfl. unfold mft_p2f.
  destruct (Rle_dec w 0); [lra|]. destruct (Rle_dec dx 0); [lra|]. destruct (Rle_dec dxi 0); [lra|]. destruct (Nat.eqb_spec Nxi 0); [lia|].
  destruct (Rle_dec deta 0); [lra|]. destruct (Nat.eqb_spec Neta 0); [lia|]. rewrite Hsq, Nat.eqb_refl. cbn [negb].
  destruct (axis_coord (fcols E) dx c HN Hdx) as (ax & Ex & Lx & Vx).
  destruct (axis_coord Nxi dxi c HNxi Hdxi) as (axi & Exi & Lxi & Vxi).
  destruct (axis_coord Neta deta c HNeta Hdeta) as (aeta & Eeta & Leta & Veta).
  rewrite Ex, Exi, Eeta. cbn [rbind]. destruct (Req_EM_T (w * fl) 0) as [Q|_]; [exfalso; apply Rmult_integral in Q; lra|].
  destruct c; [| |congruence]; (eexists; split; [reflexivity|]; cbn [frows fcols fpx]; split; [reflexivity|]; split; [reflexivity|]; intros k l Hk Hl; apply mft_core_sum; auto; unfold Rdiv; ring).
Qed.
Lemma f2p_value E fl w dxi deta dx N c : c <> OtherCentering -> 0 < w -> 0 < dx -> 0 < dxi -> 0 < deta -> (1 <= N)%nat ->
  (1 <= frows E)%nat -> (1 <= fcols E)%nat -> fl <> 0 ->
  exists out, mft_f2p E fl w dxi deta dx N c = Ok out /\ frows out = N /\ fcols out = N /\
    forall k l, (k < N)%nat -> (l < N)%nat ->
      fpx out k l = Cmult (RtoC (sqrt (dx * dx * dxi * deta) / (w * fl)))
        (fourier_sum (frows E) (fcols E) (fpx E) (coord (frows E) dxi c) (coord (fcols E) dxi c) (w * fl) (coord N dx c k) (coord N dx c l)).
Proof.
  intros Hc Hw Hdx Hdxi Hdeta HN HM1 HN1 Hfl. unfold mft_f2p.
  destruct (Rle_dec w 0); [lra|]. destruct (Rle_dec dxi 0); [lra|]. destruct (Rle_dec deta 0); [lra|]. destruct (Rle_dec dx 0); [lra|].
  destruct (Nat.eqb_spec N 0); [lia|].
  destruct (axis_coord (fcols E) dxi c HN1 Hdxi) as (axi & Exi & Lxi & Vxi).
  destruct (axis_coord (frows E) dxi c HM1 Hdxi) as (aeta & Eeta & Leta & Veta).
  destruct (axis_coord N dx c HN Hdx) as (ax & Ex & Lx & Vx).
  rewrite Ex, Exi, Eeta. cbn [rbind]. destruct (Req_EM_T (w * fl) 0) as [Q|_]; [exfalso; apply Rmult_integral in Q; lra|].
  destruct c; [| |congruence]; (eexists; split; [reflexivity|]; cbn [frows fcols fpx]; split; [reflexivity|]; split; [reflexivity|]; intros k l Hk Hl; apply mft_core_sum; auto; unfold Rdiv; ring).
Qed.
Lemma fourier_sum_lin M N a b E F y x lf eta xi :
  fourier_sum M N (fun i j => Cplus (Cmult a (E i j)) (Cmult b (F i j))) y x lf eta xi =
  Cplus (Cmult a (fourier_sum M N E y x lf eta xi)) (Cmult b (fourier_sum M N F y x lf eta xi)).
Proof.
  unfold fourier_sum. rewrite <- !csum_scal, <- csum_plus. apply csum_ext. intros i _. rewrite <- !csum_scal, <- csum_plus. apply csum_ext. intros j _. ring.
Qed.

(* ---- relay ---- *)
(* index whose coordinate is the opposite one *)
Definition mirror (n : nat) (c : centering) (a : nat) : nat :=
  match c with Interpixel => n - 1 - a | _ => if Nat.even n then (n - a) mod n else n - 1 - a end.
Lemma mirror_lt n c a : (a < n)%nat -> (mirror n c a < n)%nat.
Proof. intros H. unfold mirror. destruct c; try destruct (Nat.even n); try lia; apply Nat.mod_upper_bound; lia. Qed.
Lemma relay_pixel_px {A} (E : field A) i j : (i < frows E)%nat -> (j < fcols E)%nat ->
  fpx (roll2 1 1 (flip2 E)) i j = fpx E ((frows E - i) mod frows E)%nat ((fcols E - j) mod fcols E)%nat.
Proof.
  intros Hi Hj. cbn. assert (H : forall n k, (k < n)%nat -> (n - 1 - roll_ix n 1 k = (n - k) mod n)%nat).
  { intros n k Hk. unfold roll_ix. destruct k as [|k].
    - rewrite Nat.sub_0_r, Nat.mod_same by lia. replace ((Z.of_nat 0 - 1) mod Z.of_nat n)%Z with (Z.of_nat n - 1)%Z; [lia|].
      symmetry. replace (Z.of_nat 0 - 1)%Z with (Z.of_nat n - 1 + (-1) * Z.of_nat n)%Z by lia. rewrite Z.mod_add by lia. apply Z.mod_small. lia.
    - rewrite Z.mod_small by lia. rewrite Nat.mod_small by lia. lia. }
  now rewrite !H.
Qed.

(* ---- one-dimensional kernel of a transform followed by another, at critical sampling ---- *)
Definition ecoord (n : nat) (c : centering) : R := if interp c && Nat.even n then 1/2 else 0.
Lemma mod_small_zero m n : (- n < m < n)%Z -> (0 < n)%Z -> (m mod n = 0)%Z -> m = 0%Z.
Proof. intros Hm Hn E. apply Z.mod_divide in E; [|lia]. destruct E as [k Hk]. assert (k = 0)%Z by nia. subst. lia. Qed.
Lemma kernel_sum n c i a : (1 <= n)%nat -> (i < n)%nat -> (a < n)%nat ->
  csum n (fun k => cis (- (2 * PI) * (INR k - INR (n / 2) + ecoord n c) * ((INR i - INR (n / 2) + ecoord n c) + (INR a - INR (n / 2) + ecoord n c)) / INR n))
  = if Nat.eqb i (mirror n c a) then RtoC (INR n) else RtoC 0.
Proof.
  intros Hn Hi Ha. assert (Hn0 : INR n <> 0) by (apply not_0_INR; lia).
  set (odd1 := (if interp c && Nat.even n then 1 else 0)%Z).
  set (m := (Z.of_nat i + Z.of_nat a - 2 * half n + odd1)%Z).
  assert (Hm : (INR i - INR (n / 2) + ecoord n c) + (INR a - INR (n / 2) + ecoord n c) = IZR m).
  { unfold m, odd1, ecoord, half. rewrite plus_IZR, minus_IZR, plus_IZR, mult_IZR, <- !INR_IZR_INZ. destruct (interp c && Nat.even n); lra. }
  rewrite (csum_ext n _ (fun k => Cmult (cis (- (2 * PI) * (ecoord n c - INR (n / 2)) * IZR m / INR n)) (cis (2 * PI * IZR (- m) * INR k / INR n)))).
  2:{ intros k _. rewrite <- cis_add, Hm, opp_IZR. f_equal. field. auto. }
  rewrite csum_scal, root_sum by auto.
  destruct (Z.eqb_spec ((- m) mod Z.of_nat n) 0) as [E|E].
  - assert (E' : (m mod Z.of_nat n = 0)%Z) by (apply Z_mod_zero_opp_full in E; rewrite Z.opp_involutive in E; exact E).
    assert (Hmir : i = mirror n c a /\ cis (- (2 * PI) * (ecoord n c - INR (n / 2)) * IZR m / INR n) = RtoC 1).
    { unfold mirror, ecoord. destruct c; cbn [interp andb] in *.
      - destruct (Nat.even n) eqn:Ev; cbn in odd1.
        + unfold m, odd1 in *. rewrite (half_even n Ev) in *. split.
          * apply Z.mod_divide in E'; [|lia]. destruct E' as [q Hq]. assert (q = -1 \/ q = 0)%Z as [-> | ->] by nia; [assert (i = 0 /\ a = 0)%nat as [-> ->] by lia; rewrite Nat.sub_0_r, Nat.mod_same; lia|].
            rewrite Nat.mod_small by lia. lia.
          * apply Z.mod_divide in E'; [|lia]. destruct E' as [q Hq]. rewrite Hq, mult_IZR, <- INR_IZR_INZ.
            replace (- (2 * PI) * (0 - INR (n / 2)) * (IZR q * INR n) / INR n) with (2 * PI * IZR (Z.of_nat (n / 2) * q)) by (rewrite mult_IZR, <- INR_IZR_INZ; field; auto).
            apply cis_2PI.
        + unfold m, odd1 in *. rewrite (half_odd n Ev) in *. apply mod_small_zero in E'; [|lia|lia]. split; [lia|].
          rewrite E'. replace (- (2 * PI) * (0 - INR (n / 2)) * 0 / INR n) with 0 by (field; auto). apply cis_0.
      - assert (Hz : m = 0%Z).
        { unfold m, odd1 in *. destruct (Nat.even n) eqn:Ev; [rewrite (half_even n Ev) in *|rewrite (half_odd n Ev) in *]; apply mod_small_zero in E'; lia. }
        split.
        + unfold m, odd1 in Hz. destruct (Nat.even n) eqn:Ev; [rewrite (half_even n Ev) in *|rewrite (half_odd n Ev) in *]; lia.
        + rewrite Hz. match goal with |- cis ?t = _ => replace t with 0 by (field; auto) end. apply cis_0.
      - destruct (Nat.even n) eqn:Ev; cbn in odd1.
        + unfold m, odd1 in *. rewrite (half_even n Ev) in *. split.
          * apply Z.mod_divide in E'; [|lia]. destruct E' as [q Hq]. assert (q = -1 \/ q = 0)%Z as [-> | ->] by nia; [assert (i = 0 /\ a = 0)%nat as [-> ->] by lia; rewrite Nat.sub_0_r, Nat.mod_same; lia|].
            rewrite Nat.mod_small by lia. lia.
          * apply Z.mod_divide in E'; [|lia]. destruct E' as [q Hq]. rewrite Hq, mult_IZR, <- INR_IZR_INZ.
            replace (- (2 * PI) * (0 - INR (n / 2)) * (IZR q * INR n) / INR n) with (2 * PI * IZR (Z.of_nat (n / 2) * q)) by (rewrite mult_IZR, <- INR_IZR_INZ; field; auto).
            apply cis_2PI.
        + unfold m, odd1 in *. rewrite (half_odd n Ev) in *. apply mod_small_zero in E'; [|lia|lia]. split; [lia|].
          rewrite E'. replace (- (2 * PI) * (0 - INR (n / 2)) * 0 / INR n) with 0 by (field; auto). apply cis_0. }
    destruct Hmir as [-> Hc1]. rewrite Nat.eqb_refl, Hc1. ring.
  - destruct (Nat.eqb_spec i (mirror n c a)) as [Q|_]; [|ring]. exfalso. apply E. apply Z_mod_zero_opp_full.
    unfold m, odd1, mirror in *. destruct c; cbn [interp andb] in *.
    + destruct (Nat.even n) eqn:Ev; [rewrite (half_even n Ev)|rewrite (half_odd n Ev)].
      * destruct a as [|a]; [rewrite Nat.sub_0_r, Nat.mod_same in Q by lia|rewrite Nat.mod_small in Q by lia]; subst i;
          [replace (Z.of_nat 0 + Z.of_nat 0 - Z.of_nat n + 0)%Z with ((-1) * Z.of_nat n)%Z by lia|replace (Z.of_nat (n - S a) + Z.of_nat (S a) - Z.of_nat n + 0)%Z with (0 * Z.of_nat n)%Z by lia]; apply Z.mod_mul; lia.
      * replace (Z.of_nat i + Z.of_nat a - (Z.of_nat n - 1) + 0)%Z with 0%Z by lia. apply Z.mod_0_l. lia.
    + destruct (Nat.even n) eqn:Ev; [rewrite (half_even n Ev)|rewrite (half_odd n Ev)];
        match goal with |- (?q mod _ = 0)%Z => replace q with 0%Z by lia end; apply Z.mod_0_l; lia.
    + destruct (Nat.even n) eqn:Ev; [rewrite (half_even n Ev)|rewrite (half_odd n Ev)].
      * destruct a as [|a]; [rewrite Nat.sub_0_r, Nat.mod_same in Q by lia|rewrite Nat.mod_small in Q by lia]; subst i;
          [replace (Z.of_nat 0 + Z.of_nat 0 - Z.of_nat n + 0)%Z with ((-1) * Z.of_nat n)%Z by lia|replace (Z.of_nat (n - S a) + Z.of_nat (S a) - Z.of_nat n + 0)%Z with (0 * Z.of_nat n)%Z by lia]; apply Z.mod_mul; lia.
      * replace (Z.of_nat i + Z.of_nat a - (Z.of_nat n - 1) + 0)%Z with 0%Z by lia. apply Z.mod_0_l. lia.
Qed.

(* double transform at critical sampling: every pixel goes to its mirror image *)
Lemma double_fourier n E c dx dxi lf a b : (1 <= n)%nat -> (a < n)%nat -> (b < n)%nat -> lf <> 0 -> dx * dxi * INR n = lf ->
  fourier_sum n n (fun k l => fourier_sum n n E (coord n dx c) (coord n dx c) lf (coord n dxi c k) (coord n dxi c l))
    (coord n dxi c) (coord n dxi c) lf (coord n dx c a) (coord n dx c b) =
  Cmult (RtoC (INR n * INR n)) (E (mirror n c a) (mirror n c b)).
Proof.
  intros Hn Ha Hb Hlf Hcrit. assert (Hn0 : INR n <> 0) by (apply not_0_INR; lia).
  assert (Hd : dx * dxi <> 0) by (intros Q; rewrite Q in Hcrit; lra).
  set (kap := fun i a k => cis (- (2 * PI) * (INR k - INR (n / 2) + ecoord n c) * ((INR i - INR (n / 2) + ecoord n c) + (INR a - INR (n / 2) + ecoord n c)) / INR n)).
  assert (HP : forall i j k l, Cmult (cis (- (2 * PI) * (coord n dxi c k * coord n dx c i + coord n dxi c l * coord n dx c j) / lf))
                (cis (- (2 * PI) * (coord n dx c a * coord n dxi c k + coord n dx c b * coord n dxi c l) / lf)) = Cmult (kap i a k) (kap j b l)).
  { intros i j k l. unfold kap. rewrite <- !cis_add. f_equal. unfold coord, ecoord. rewrite <- Hcrit. field. split; [auto|]. split; intros Q; rewrite Q in Hd; lra. }
  unfold fourier_sum at 1.
  rewrite (csum_ext n _ (fun k => csum n (fun i => Cmult (kap i a k) (csum n (fun l => csum n (fun j => Cmult (E i j) (kap j b l))))))).
  2:{ intros k _. rewrite (csum_ext n _ (fun l => csum n (fun i => csum n (fun j => Cmult (kap i a k) (Cmult (E i j) (kap j b l)))))).
      - rewrite csum_swap. apply csum_ext. intros i _. rewrite <- csum_scal. apply csum_ext. intros l _. now rewrite csum_scal.
      - intros l _. unfold fourier_sum. rewrite <- csum_scal_r. apply csum_ext. intros i _. rewrite <- csum_scal_r. apply csum_ext. intros j _.
        rewrite <- Cmult_assoc, HP. ring. }
  rewrite csum_swap.
  rewrite (csum_ext n _ (fun i => Cmult (if Nat.eqb i (mirror n c a) then RtoC (INR n) else RtoC 0) (Cmult (RtoC (INR n)) (E i (mirror n c b))))).
  2:{ intros i Hi. rewrite csum_scal_r. unfold kap at 1. rewrite kernel_sum by auto. f_equal.
      rewrite csum_swap. rewrite (csum_ext n _ (fun j => Cmult (E i j) (if Nat.eqb j (mirror n c b) then RtoC (INR n) else RtoC 0))).
      - rewrite (csum_single n (mirror n c b)); [rewrite Nat.eqb_refl; ring|now apply mirror_lt|].
        intros j Hj Hne. destruct (Nat.eqb_spec j (mirror n c b)); [congruence|ring].
      - intros j Hj. rewrite csum_scal. unfold kap. rewrite kernel_sum; auto. }
  rewrite (csum_single n (mirror n c a)); [rewrite Nat.eqb_refl, RtoC_mult; ring|now apply mirror_lt|].
  intros i Hi Hne. destruct (Nat.eqb_spec i (mirror n c a)); [congruence|ring].
Qed.
