(* Proofs for C105: the mask *)
From Verif Require Import Base StrBase RBase CBase PropModel OptModel PrpModel ApModel ApSpec ApProofs3 RectModel RectProofs3 OctModel OctSpec OctProofs.
Open Scope R_scope.
Lemma amin_ok n f : (1 <= n)%nat -> exists p q, smallest n f p q /\ amin n f = f p q.
Proof.
  intros N. unfold amin. destruct (lmin_in (fun i => lmin (f i) n) n N) as (p & P & E). destruct (lmin_in (f p) n N) as (q & Q & E2). exists p, q. rewrite <- E, <- E2. split; [|reflexivity].
  split; [auto|]. split; [auto|]. intros i j Hi Hj. rewrite E2, E. pose proof (lmin_le (fun i => lmin (f i) n) n i Hi) as A. pose proof (lmin_le (f i) n j Hj) as B. cbv beta in A. lra.
Qed.
Lemma amax_ok n f : (1 <= n)%nat -> exists p q, largest n f p q /\ amax n f = f p q.
Proof.
  intros N. unfold amax. destruct (lmax_in (fun i => lmax (f i) n) n N) as (p & P & E). destruct (lmax_in (f p) n N) as (q & Q & E2). exists p, q. rewrite <- E, <- E2. split; [|reflexivity].
  split; [auto|]. split; [auto|]. intros i j Hi Hj. rewrite E2, E. pose proof (lmax_ge (fun i => lmax (f i) n) n i Hi) as A. pose proof (lmax_ge (f i) n j Hj) as B. cbv beta in A. lra.
Qed.
Lemma profile_A0 x e : profile x e = A0 (x * (PI * e / 3)).
Proof. unfold profile, A0. change prop_sinc with sinc1. replace (3 * (x * (PI * e / 3))) with (x * (PI * e / 1)) by field. field. Qed.
Lemma profile_abs x e : profile (Rabs x) e = profile x e.
Proof. rewrite !profile_A0. unfold Rabs. destruct (Rcase_abs x); [|reflexivity]. rewrite Ropp_mult_distr_l_reverse. apply A0_neg. Qed.
Lemma width_ok w hwhm k : sound w hwhm k -> exists e, width_e w hwhm (k_meters k) = Ok e /\
  (0 < half_width w hwhm k) /\ forall r, profile (r * (get_sampling w / (w_fratio w * w_lam w))) e = ideal (r * w_dx w / half_width w hwhm k).
Proof.
  intros (D & FL & H & _). assert (FN : w_fratio w <> 0) by (intros Z; rewrite Z in FL; lra). assert (LN : w_lam w <> 0) by (intros Z; rewrite Z in FL; lra). unfold width_e, half_width. destruct (k_meters k).
  - destruct (Req_EM_T _ 0); [lra|]. cbv zeta. pose proof (Rdiv_lt_0_compat _ _ H FL). destruct (Req_EM_T (hwhm / _) 0); [lra|]. eexists. split; [reflexivity|]. split; [exact H|]. intros r. rewrite profile_A0, ideal_A0. unfold kap, get_sampling. f_equal. field. repeat split; (assumption || lra).
  - destruct (Req_EM_T hwhm 0); [lra|]. eexists. split; [reflexivity|]. split; [now apply Rmult_lt_0_compat|]. intros r. rewrite profile_A0, ideal_A0. unfold kap, get_sampling. f_equal. field. repeat split; (assumption || lra).
Qed.
Lemma sq2 a : a ^ 2 = a * a. Proof. ring. Qed.
Lemma amin_ext n f g : (1 <= n)%nat -> (forall i j, f i j = g i j) -> amin n f = amin n g.
Proof. intros N E. destruct (amin_ok n f N) as (p & q & (P & Q & L) & ->). destruct (amin_ok n g N) as (p' & q' & (P' & Q' & L') & ->). pose proof (L p' q' P' Q'). pose proof (L' p q P Q). rewrite !E in *. lra. Qed.
Lemma amax_ext n f g : (1 <= n)%nat -> (forall i j, f i j = g i j) -> amax n f = amax n g.
Proof. intros N E. destruct (amax_ok n f N) as (p & q & (P & Q & L) & ->). destruct (amax_ok n g N) as (p' & q' & (P' & Q' & L') & ->). pose proof (L p' q' P' Q'). pose proof (L' p q P Q). rewrite !E in *. lra. Qed.
Lemma eighth_ok w hwhm tmin tmax k : (1 <= w_n w)%nat -> sound w hwhm k -> exists m p q r s, eighth w hwhm tmin tmax k = Ok m /\ frows m = w_n w /\ fcols m = w_n w /\
  largest (w_n w) (ideal_at w hwhm k) p q /\ smallest (w_n w) (ideal_at w hwhm k) r s /\
  forall i j, fpx m i j = rescale (ideal_at w hwhm k r s) (ideal_at w hwhm k p q) tmin tmax (ideal_at w hwhm k i j).
Proof.
  intros N S. destruct (width_ok w hwhm k S) as (e & E & W & V). unfold eighth. rewrite E. cbn [rbind]. cbv zeta. destruct S as (D & FL & H & Q).
  destruct (Req_EM_T _ 0) as [Z|_]; [lra|]. destruct (Nat.eqb_spec (w_n w) 0) as [Z|_]; [lia|].
  assert (TWO : forall dd : nat -> nat -> R, (forall i j, dd i j = away (w_n w) k i j) ->
    let v i j := profile (dd i j * (get_sampling w / (w_fratio w * w_lam w))) e ^ 2 in
    exists m p q r s, Ok (mkf (w_n w) (w_n w) (fun i j => rescale (amin (w_n w) v) (amax (w_n w) v) tmin tmax (v i j))) = Ok m /\ frows m = w_n w /\ fcols m = w_n w /\
    largest (w_n w) (ideal_at w hwhm k) p q /\ smallest (w_n w) (ideal_at w hwhm k) r s /\
    forall i j, fpx m i j = rescale (ideal_at w hwhm k r s) (ideal_at w hwhm k p q) tmin tmax (ideal_at w hwhm k i j)).
  { intros dd Hd v. assert (Hv : forall i j, v i j = ideal_at w hwhm k i j) by (intros i j; unfold v, ideal_at, rho_at; now rewrite Hd, V, sq2).
    destruct (amin_ok (w_n w) (ideal_at w hwhm k) N) as (r & s & L & E1). destruct (amax_ok (w_n w) (ideal_at w hwhm k) N) as (p & q & G & E2). eexists. exists p, q, r, s. split; [reflexivity|]. do 2 (split; [reflexivity|]). split; [exact G|]. split; [exact L|].
    intros i j. cbn [fpx]. rewrite (amin_ext (w_n w) v _ N Hv), (amax_ext (w_n w) v _ N Hv), Hv, E1, E2. reflexivity. }
  unfold away in TWO. cbv zeta in TWO. destruct (k_circ k) eqn:KC.
  - apply (TWO (fun i j => sqrt ((INR j - INR (w_n w) / 2) ^ 2 + (INR i - INR (w_n w) / 2) ^ 2))). intros. now rewrite !sq2.
  - destruct (k_ell k) as [q|] eqn:KE.
    + destruct (Req_EM_T q 0) as [Z|_]; [subst; exfalso; now apply Q|]. apply (TWO (fun i j => sqrt ((INR j - INR (w_n w) / 2) ^ 2 + ((INR i - INR (w_n w) / 2) / q) ^ 2))). intros. now rewrite !sq2.
    + set (v := fun j => profile ((INR j - INR (w_n w) / 2) * (get_sampling w / (w_fratio w * w_lam w))) e ^ 2).
      assert (Hv : forall i j, v (if k_yaxis k then i else j) = ideal_at w hwhm k i j).
      { intros i j. unfold ideal_at, rho_at, away. rewrite KC, KE. cbv zeta. unfold v. rewrite V, sq2. destruct (k_yaxis k); unfold Rabs; destruct (Rcase_abs _); try reflexivity.
        all: match goal with |- context [- ?x * ?d / ?h] => replace (- x * d / h) with (- (x * d / h)) by (unfold Rdiv; ring); rewrite !ideal_A0, Ropp_mult_distr_r_reverse, A0_neg; reflexivity end. }
      destruct (lmin_in v (w_n w) N) as (r & R1 & E1). destruct (lmax_in v (w_n w) N) as (p & P1 & E2).
      assert (X : forall r, v r = ideal_at w hwhm k r r) by (intros r'; rewrite <- Hv; destruct (k_yaxis k); reflexivity).
      eexists. exists p, p, r, r. split; [reflexivity|]. do 2 (split; [reflexivity|]). cbn [fpx]. split; [|split].
      * split; [auto|]. split; [auto|]. intros i j Hi Hj. rewrite <- X, E2, <- Hv. apply (lmax_ge v). destruct (k_yaxis k); assumption.
      * split; [auto|]. split; [auto|]. intros i j Hi Hj. rewrite <- X, E1, <- Hv. apply (lmin_le v). destruct (k_yaxis k); assumption.
      * intros i j. rewrite <- !X, E1, E2, <- Hv. reflexivity.
Qed.
