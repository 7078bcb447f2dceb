From Verif Require Import Base RBase UtilModel UtilSpec.
Open Scope Z_scope.

Lemma slice_bound_in n k : 0 <= k <= n -> slice_bound n k = k.
Proof. intros H. unfold slice_bound. destruct (Z.ltb_spec k 0); lia. Qed.

Lemma pad_crop_recentred {A} (a : arr A) r c e :
  0 <= nr a -> 0 <= nc a -> 0 < r -> 0 < c ->
  exists out, pad_crop a r c e = Ok out /\ is_recentred a r c e out.
Proof.
  intros Ha Hc Hr Hcc. unfold pad_crop, set_slice2, slice2.
  cbn [nr nc px].
  repeat rewrite slice_bound_in by lia.
  match goal with |- context [if ?b then Ok _ else _] => assert (Hb : b = true) by lia end.
  rewrite Hb. eexists; split; [reflexivity|].
  unfold is_recentred; cbn [nr nc px]. repeat split; auto.
  intros i j Hi Hj. unfold at_offset.
  destruct (((0 <=? nr a / 2 + (i - r / 2)) && (nr a / 2 + (i - r / 2) <? nr a)
            && (0 <=? nc a / 2 + (j - c / 2)) && (nc a / 2 + (j - c / 2) <? nc a))%bool) eqn:E;
    clear Hb.
  - match goal with |- (if ?b then _ else _) = _ => assert (Hb2 : b = true) by lia end.
    rewrite Hb2. cbn [default]. f_equal; clear Hb2;
      match goal with |- context [if ?b then 0 else _] => destruct b eqn:E1 end; lia.
  - match goal with |- (if ?b then _ else _) = _ => assert (Hb2 : b = false) by lia end.
    rewrite Hb2. reflexivity.
Qed.

Lemma is_recentred_unique {A} (a : arr A) r c e o1 o2 :
  is_recentred a r c e o1 -> is_recentred a r c e o2 -> arr_eq o1 o2.
Proof.
  intros (H1 & H2 & H3) (G1 & G2 & G3). repeat split; try congruence.
  intros i j Hi Hj. rewrite H3, G3; congruence.
Qed.

(* offset presence for a 2-D size *)
Definition in_size (rc : Z * Z) (dy dx : Z) : bool :=
  let '(r, c) := rc in
  (0 <=? r / 2 + dy) && (r / 2 + dy <? r) && (0 <=? c / 2 + dx) && (c / 2 + dx <? c).

Lemma at_offset_recentred {A} (a : arr A) r c e out dy dx :
  is_recentred a r c e out ->
  at_offset out dy dx =
  if in_size (r, c) dy dx then Some (default e (at_offset a dy dx)) else None.
Proof.
  intros (H1 & H2 & H3). unfold at_offset at 1. rewrite H1, H2. unfold in_size.
  destruct ((0 <=? r / 2 + dy) && (r / 2 + dy <? r) && (0 <=? c / 2 + dx) && (c / 2 + dx <? c))%bool
    eqn:E; [|reflexivity].
  rewrite H3 by lia. do 3 f_equal; lia.
Qed.


Lemma chain_spec {A} (e : A) (sizes : list (Z * Z)) : forall (a : arr A) r c,
  0 <= nr a -> 0 <= nc a -> Forall pos_size sizes -> 0 < r -> 0 < c ->
  exists out, pad_crop_chain a (sizes ++ [(r, c)]) e = Ok out /\
    nr out = r /\ nc out = c /\
    forall i j, 0 <= i < r -> 0 <= j < c ->
      px out i j =
      if forallb (fun s => in_size s (i - r / 2) (j - c / 2)) sizes
      then default e (at_offset a (i - r / 2) (j - c / 2)) else e.
Proof.
  induction sizes as [|[r0 c0] sizes IH]; intros a r c Ha Hc Hs Hr Hcc.
  - destruct (pad_crop_recentred a r c e Ha Hc Hr Hcc) as (out & E & R1 & R2 & R3).
    exists out. cbn [app pad_crop_chain rbind]. rewrite E. cbn [rbind]. repeat split; auto.
  - apply Forall_cons_iff in Hs. destruct Hs as [[Hr0 Hc0] Hs]. cbn [fst snd] in *.
    destruct (pad_crop_recentred a r0 c0 e Ha Hc Hr0 Hc0) as (b & E & HR).
    destruct (HR) as (R1 & R2 & R3).
    destruct (IH b r c ltac:(lia) ltac:(lia) Hs Hr Hcc) as (out & E2 & O1 & O2 & O3).
    exists out. cbn [app pad_crop_chain]. rewrite E. cbn [rbind]. repeat split; auto.
    intros i j Hi Hj. rewrite O3 by auto. cbn [forallb].
    rewrite (at_offset_recentred _ _ _ _ _ (i - r / 2) (j - c / 2) HR).
    destruct (in_size (r0, c0) (i - r / 2) (j - c / 2)) eqn:E3; cbn [andb default].
    + reflexivity.
    + destruct (forallb _ sizes); reflexivity.
Qed.

Lemma chain_direct {A} (e : A) (a : arr A) sizes r c :
  0 <= nr a -> 0 <= nc a -> Forall pos_size sizes -> 0 < r -> 0 < c ->
  Forall (fun s => Z.min (nr a) r <= fst s /\ Z.min (nc a) c <= snd s) sizes ->
  res_arr_eq (pad_crop_chain a (sizes ++ [(r, c)]) e) (pad_crop a r c e).
Proof.
  intros Ha Hc Hs Hr Hcc Hk.
  destruct (chain_spec e sizes a r c Ha Hc Hs Hr Hcc) as (out & E & O1 & O2 & O3).
  destruct (pad_crop_recentred a r c e Ha Hc Hr Hcc) as (d & Ed & D1 & D2 & D3).
  rewrite E, Ed. cbn [res_arr_eq]. repeat split; try congruence.
  intros i j Hi Hj. rewrite O3, D3 by congruence.
  unfold at_offset.
  destruct (((0 <=? nr a / 2 + (i - r / 2)) && (nr a / 2 + (i - r / 2) <? nr a)
            && (0 <=? nc a / 2 + (j - c / 2)) && (nc a / 2 + (j - c / 2) <? nc a))%bool) eqn:Ein;
   [|destruct (forallb _ _); reflexivity].
  assert (HF : forallb (fun s => in_size s (i - r / 2) (j - c / 2)) sizes = true).
  { apply forallb_forall. intros [r0 c0] Hin.
    rewrite Forall_forall in Hk, Hs. specialize (Hk _ Hin). specialize (Hs _ Hin).
    destruct Hs; cbn [fst snd] in *. unfold in_size. lia. }
  rewrite HF. reflexivity.
Qed.

Lemma chain_perm {A} (e : A) (a : arr A) s1 s2 r c :
  0 <= nr a -> 0 <= nc a -> Forall pos_size s1 -> 0 < r -> 0 < c ->
  (forall x, In x s1 <-> In x s2) ->
  res_arr_eq (pad_crop_chain a (s1 ++ [(r, c)]) e) (pad_crop_chain a (s2 ++ [(r, c)]) e).
Proof.
  intros Ha Hc Hs Hr Hcc Hp.
  assert (Hs2 : Forall pos_size s2).
  { rewrite Forall_forall in *. intros x Hx. apply Hs, Hp, Hx. }
  destruct (chain_spec e s1 a r c Ha Hc Hs Hr Hcc) as (o1 & E1 & P1 & P2 & P3).
  destruct (chain_spec e s2 a r c Ha Hc Hs2 Hr Hcc) as (o2 & E2 & Q1 & Q2 & Q3).
  rewrite E1, E2. cbn [res_arr_eq]. repeat split; try congruence.
  intros i j Hi Hj. rewrite P3, Q3 by congruence.
  replace (forallb (fun s => in_size s (i - r / 2) (j - c / 2)) s2)
    with (forallb (fun s => in_size s (i - r / 2) (j - c / 2)) s1); [reflexivity|].
  apply eq_true_iff_eq. rewrite !forallb_forall.
  split; intros H x Hx; apply H, Hp, Hx.
Qed.

Lemma roundtrip {A} (e : A) (a : arr A) r c :
  0 < nr a -> 0 < nc a -> nr a <= r -> nc a <= c ->
  exists b d, pad_crop a r c e = Ok b /\ pad_crop b (nr a) (nc a) e = Ok d /\ arr_eq d a.
Proof.
  intros Ha Hc Hr Hcc.
  destruct (pad_crop_recentred a r c e ltac:(lia) ltac:(lia) ltac:(lia) ltac:(lia)) as (b & Eb & B1 & B2 & B3).
  destruct (pad_crop_recentred b (nr a) (nc a) e ltac:(lia) ltac:(lia) Ha Hc) as (d & Ed & D1 & D2 & D3).
  exists b, d. repeat split; auto.
  intros i j Hi Hj. rewrite D1, D2 in *. rewrite D3 by auto.
  rewrite (at_offset_recentred a r c e b _ _ (conj B1 (conj B2 B3))).
  assert (H : in_size (r, c) (i - nr a / 2) (j - nc a / 2) = true) by (unfold in_size; lia).
  rewrite H. cbn [default]. unfold at_offset.
  match goal with |- context [if ?b then Some _ else _] => assert (Hb : b = true) by lia end.
  rewrite Hb. cbn [default]. f_equal; lia.
Qed.

(* ---- argument checks ---- *)
Definition valid_size (s : size_arg) (r c : Z) : Prop :=
  0 < r /\ 0 < c /\ (s = SSeq [EInt r; EInt c] \/ (s = SInt r /\ r = c)).

Lemma pad_crop_py_valid {A} (a : arr A) s r c e :
  valid_size s r c -> pad_crop_py (Nd2 a) s (FillReal e) = pad_crop a r c e.
Proof.
  intros (Hr & Hc & [-> | [-> <-]]); cbn -[pad_crop Z.leb];
  match goal with |- context [if ?b then _ else _] => replace b with false by lia end; reflexivity.
Qed.

Lemma pad_crop_py_ok_iff {A} (x : nd_arg A) s f :
  (forall a, x = Nd2 a -> 0 <= nr a /\ 0 <= nc a) ->
  ((exists out, pad_crop_py x s f = Ok out) <->
   (exists a e r c, x = Nd2 a /\ f = FillReal e /\ valid_size s r c)) /\
  (forall ex, pad_crop_py x s f = Raise ex -> ex = TypeError).
Proof.
  intros Hwf.
  assert (Hdec : (exists a e r c, x = Nd2 a /\ f = FillReal e /\ valid_size s r c) \/
                 pad_crop_py x s f = Raise TypeError).
  { destruct x as [a|]; [|right; reflexivity]. destruct f as [e|]; [|right; reflexivity].
    destruct s as [z|z|l|]; try (right; reflexivity).
    - destruct (Z.leb_spec z 0) as [Hz|Hz].
      + right. cbn -[pad_crop Z.leb]. replace (z <=? 0) with true by lia. reflexivity.
      + left. exists a, e, z, z. unfold valid_size. intuition lia.
    - destruct l as [|e1 [|e2 [|]]]; try (right; reflexivity).
      destruct e1 as [z1|z1|], e2 as [z2|z2|]; try (right; reflexivity).
      destruct ((z1 <=? 0) || (z2 <=? 0))%bool eqn:Ez.
      + right. cbn -[pad_crop Z.leb]. rewrite Ez. reflexivity.
      + left. exists a, e, z1, z2. unfold valid_size. intuition lia. }
  assert (Hval : forall a e r c, x = Nd2 a -> f = FillReal e -> valid_size s r c ->
            exists out, pad_crop_py x s f = Ok out).
  { intros a e r c -> -> Hv. rewrite (pad_crop_py_valid a s r c e Hv).
    destruct (Hwf a eq_refl) as [H1 H2]. destruct Hv as (Hr & Hc & _).
    destruct (pad_crop_recentred a r c e H1 H2 Hr Hc) as (o & E & _). eauto. }
  split; [split|].
  - intros [out E]. destruct Hdec as [H|H]; [exact H|congruence].
  - intros (a & e & r & c & H1 & H2 & H3). eauto.
  - intros ex E. destruct Hdec as [(a & e & r & c & H1 & H2 & H3)|H]; [|congruence].
    destruct (Hval a e r c H1 H2 H3) as [o Ho]. congruence.
Qed.

(* ---- offcenter_crop ---- *)
Lemma ceil_half_neg n : ceil_half (- n) = - (n / 2).
Proof. unfold ceil_half. now rewrite Z.opp_involutive. Qed.

Lemma oc_pad_spec n m c : 0 <= n -> 0 < m ->
  let p := oc_pad n m c in
  0 <= p /\ m / 2 <= c + p /\ c + p - m / 2 + m <= n + 2 * p.
Proof.
  intros Hn Hm. unfold oc_pad. rewrite ceil_half_neg. unfold ceil_half.
  destruct (Z.ltb_spec (- (m / 2) + c) 0); destruct (_ >? _) eqn:E; lia.
Qed.

Lemma offcenter_crop_int_spec {A} (zero : A) (a : arr A) cr cc r c :
  0 < nr a -> 0 < nc a -> 0 < r -> 0 < c ->
  exists out, offcenter_crop_int zero a cr cc r c = Ok out /\ nr out = r /\ nc out = c /\
   forall i j, 0 <= i < r -> 0 <= j < c ->
     px out i j = pixel_or zero a (i - r / 2 + cr) (j - c / 2 + cc).
Proof.
  intros Ha Hc Hr Hcc. unfold offcenter_crop_int.
  replace ((r <=? 0) || (c <=? 0))%bool with false by lia.
  pose proof (oc_pad_spec (nr a) r cr ltac:(lia) Hr) as HY.
  pose proof (oc_pad_spec (nc a) c cc ltac:(lia) Hcc) as HX. cbv zeta in HY, HX.
  remember (oc_pad (nr a) r cr) as y eqn:Hey. remember (oc_pad (nc a) c cc) as x eqn:Hex. clear Hey Hex.
  rewrite (pad_crop_py_valid a _ (nr a + 2 * y) (nc a + 2 * x) zero).
  2:{ unfold valid_size. repeat split; try lia. now left. }
  destruct (pad_crop_recentred a (nr a + 2 * y) (nc a + 2 * x) zero) as (p & E & P1 & P2 & P3); try lia.
  rewrite E. eexists; split; [reflexivity|]. unfold slice2. cbn [nr nc px].
  replace (if r mod 2 =? 1 then 1 else 0) with (r - 2 * (r / 2))
    by (destruct (Z.eqb_spec (r mod 2) 1); lia).
  replace (if c mod 2 =? 1 then 1 else 0) with (c - 2 * (c / 2))
    by (destruct (Z.eqb_spec (c mod 2) 1); lia).
  repeat rewrite slice_bound_in by lia.
  repeat split; try lia.
  intros i j Hi Hj. rewrite P3 by lia. unfold at_offset, pixel_or.
  match goal with |- default _ (if ?b then _ else _) = (if ?b2 then _ else _) =>
    destruct b eqn:E1; destruct b2 eqn:E2; try (exfalso; lia); cbn [default]; auto end.
  f_equal; lia.
Qed.

Lemma offcenter_crop_spec {A} (zero : A) (a : arr A) (cr cc : R) r c :
  0 < nr a -> 0 < nc a -> 0 < r -> 0 < c ->
  exists ir ic out, (Rabs (IZR ir - cr) <= / 2)%R /\ (Rabs (IZR ic - cc) <= / 2)%R /\
   offcenter_crop zero a cr cc r c = Ok out /\ nr out = r /\ nc out = c /\
   forall i j, 0 <= i < r -> 0 <= j < c ->
     px out i j = pixel_or zero a (i - r / 2 + ir) (j - c / 2 + ic).
Proof.
  intros Ha Hc Hr Hcc.
  destruct (offcenter_crop_int_spec zero a (ZnearestE cr) (ZnearestE cc) r c Ha Hc Hr Hcc)
    as (out & E & H1 & H2 & H3).
  exists (ZnearestE cr), (ZnearestE cc), out. unfold offcenter_crop.
  repeat split; auto; rewrite Rabs_minus_sym; apply Znearest_half.
Qed.

(* integer-valued centres are used as they are *)
Lemma ZnearestE_IZR k : ZnearestE (IZR k) = k.
Proof. apply Znearest_imp. rewrite Rminus_diag_eq by reflexivity. rewrite Rabs_R0. lra. Qed.

Lemma offcenter_crop_int_centre {A} (zero : A) (a : arr A) cr cc r c :
  offcenter_crop zero a (IZR cr) (IZR cc) r c = offcenter_crop_int zero a cr cc r c.
Proof. unfold offcenter_crop. now rewrite !ZnearestE_IZR. Qed.

(* ---- ceil_even / odd ---- *)
Lemma ceil_even_least x : least_such (fun n => exists k, n = 2 * k) x (ceil_even x).
Proof.
  unfold least_such, ceil_even. split; [eauto|]. split.
  - rewrite mult_IZR. pose proof (Zceil_ub (/ 2 * x)). lra.
  - intros m [k ->] Hm. rewrite mult_IZR in Hm.
    assert (Zceil (/ 2 * x) <= k) by (apply Zceil_glb; lra). lia.
Qed.

Lemma ceil_odd_least x : least_such (fun n => exists k, n = 2 * k + 1) x (ceil_odd x).
Proof.
  unfold least_such, ceil_odd. pose proof (Zceil_ub x) as Hub.
  destruct (Z.eqb_spec (Zceil x mod 2) 0) as [H|H].
  - split; [exists (Zceil x / 2); lia|]. split.
    + rewrite plus_IZR. lra.
    + intros m [k ->] Hm. assert (Zceil x <= 2 * k + 1) by (apply Zceil_glb; lra). lia.
  - split; [exists (Zceil x / 2); lia|]. split; [lra|].
    intros m _ Hm. apply Zceil_glb; lra.
Qed.

Lemma pad_to_even_square_spec {A} (zero : A) (a : arr A) :
  0 <= nr a -> 0 <= nc a -> 0 < Z.max (nr a) (nc a) ->
  exists out n, pad_to_even_square zero a = Ok out /\ n mod 2 = 0 /\
    Z.max (nr a) (nc a) <= n <= Z.max (nr a) (nc a) + 1 /\
    is_recentred a n n zero out /\
    (forall i j, 0 <= i < nr a -> 0 <= j < nc a ->
       px out (i - nr a / 2 + n / 2) (j - nc a / 2 + n / 2) = px a i j).
Proof.
  intros H1 H2 Hm. unfold pad_to_even_square.
  destruct (ceil_even_least (IZR (Z.max (nr a) (nc a)))) as ([k Hk] & Hge & Hle).
  apply le_IZR in Hge.
  set (n := ceil_even (IZR (Z.max (nr a) (nc a)))) in *.
  assert (Hn : n <= Z.max (nr a) (nc a) + 1).
  { set (M := Z.max (nr a) (nc a)) in *.
    assert (n <= 2 * ((M + 1) / 2)). { apply Hle; [eauto|]. apply IZR_le. lia. } lia. }
  rewrite (pad_crop_py_valid a _ n n zero).
  2:{ unfold valid_size. repeat split; try lia. now left. }
  destruct (pad_crop_recentred a n n zero) as (out & E & HR); try lia.
  exists out, n. repeat split; auto; try lia; try apply HR.
  intros i j Hi Hj. destruct HR as (R1 & R2 & R3). rewrite R3 by lia. unfold at_offset.
  match goal with |- context [if ?b then Some _ else _] => replace b with true by lia end.
  cbn [default]. f_equal; lia.
Qed.

(* ---- nextpow2 ---- *)
Lemma nextpow2_spec x : (x <> 0)%R ->
  (Rabs x <= powerRZ 2 (nextpow2 x))%R /\ (powerRZ 2 (nextpow2 x - 1) < Rabs x)%R.
Proof.
  intros Hx. unfold nextpow2. destruct (Req_EM_T x 0) as [E|_]; [contradiction|].
  assert (Hp : (0 < Rabs x)%R) by now apply Rabs_pos_lt.
  assert (Hl2 : (0 < ln 2)%R) by (rewrite <- ln_1; apply ln_increasing; lra).
  rewrite <- !Rpower_powerRZ || idtac.
  assert (HP : forall z, powerRZ 2 z = exp (IZR z * ln 2)).
  { intros z. rewrite powerRZ_Rpower by lra. reflexivity. }
  rewrite !HP.
  assert (Ex : Rabs x = exp (log2 (Rabs x) * ln 2)).
  { unfold log2. replace (ln (Rabs x) / ln 2 * ln 2)%R with (ln (Rabs x)) by (field; lra).
    now rewrite exp_ln. }
  pose proof (Zceil_ub (log2 (Rabs x))) as Hub.
  assert (Hlb : (IZR (Zceil (log2 (Rabs x)) - 1) < log2 (Rabs x))%R).
  { apply Rnot_le_lt. intros Hc. apply Zceil_glb in Hc. lia. }
  remember (log2 (Rabs x)) as L eqn:HL. rewrite Ex. split.
  - destruct (Rle_lt_or_eq_dec _ _ Hub) as [Hlt|Heq].
    + left. apply exp_increasing. apply Rmult_lt_compat_r; auto.
    + right. now rewrite <- Heq.
  - apply exp_increasing. apply Rmult_lt_compat_r; auto.
Qed.

Lemma nextpow2_unique x p q :
  (Rabs x <= powerRZ 2 p)%R -> (powerRZ 2 (p - 1) < Rabs x)%R ->
  (Rabs x <= powerRZ 2 q)%R -> (powerRZ 2 (q - 1) < Rabs x)%R -> p = q.
Proof.
  assert (HP : forall z, powerRZ 2 z = exp (IZR z * ln 2)).
  { intros z. rewrite powerRZ_Rpower by lra. reflexivity. }
  assert (Hl2 : (0 < ln 2)%R) by (rewrite <- ln_1; apply ln_increasing; lra).
  rewrite !HP. intros H1 H2 H3 H4.
  assert (forall a b, (exp (IZR (a - 1) * ln 2) < exp (IZR b * ln 2))%R -> a <= b) as Hm.
  { intros a b H. apply exp_lt_inv in H. apply Rmult_lt_reg_r in H; auto. apply lt_IZR in H. lia. }
  assert (p <= q) by (apply Hm; lra). assert (q <= p) by (apply Hm; lra). lia.
Qed.

(* ---- create_axis ---- *)
Lemma create_axis_spec N step ip : 0 < N -> (0 < step)%R ->
  exists ax, create_axis N step ip = Ok ax /\ length ax = Z.to_nat N /\
    forall k, 0 <= k < N ->
      nth (Z.to_nat k) ax 0%R =
      if (ip && (N mod 2 =? 0))%bool then ((IZR (k - N / 2) + / 2) * step)%R
      else (IZR (k - N / 2) * step)%R.
Proof.
  intros HN Hs. unfold create_axis. replace (N <=? 0) with false by lia.
  destruct (Rle_dec step 0) as [Hc|_]; [lra|].
  rewrite negb_involutive, ceil_half_neg.
  replace (ceil_half N - - (N / 2)) with N by (unfold ceil_half; lia).
  assert (Hnth : forall (f : Z -> R) k, 0 <= k < N ->
    nth (Z.to_nat k) (map f (zrange N)) 0%R = f k).
  { intros f k Hk. rewrite nth_indep with (d' := f 0) by (rewrite map_length, zrange_length; lia).
    rewrite map_nth. now rewrite nth_zrange. }
  rewrite (andb_comm ip). destruct ((N mod 2 =? 0) && ip)%bool eqn:E.
  - eexists; split; [reflexivity|]. rewrite map_map. split.
    + now rewrite map_length, zrange_length.
    + intros k Hk. rewrite (Hnth (fun x => (IZR (- (N / 2) + x) * step + / 2 * step)%R)) by auto.
      replace (- (N / 2) + k) with (k - N / 2) by lia. ring.
  - eexists; split; [reflexivity|]. split.
    + now rewrite map_length, zrange_length.
    + intros k Hk. rewrite (Hnth (fun x => (IZR (- (N / 2) + x) * step)%R)) by auto.
      replace (- (N / 2) + k) with (k - N / 2) by lia. ring.
Qed.

(* ---- bin_downsample ---- *)
Lemma bin_downsample_blocks a k : 0 < k -> 0 <= nr a -> 0 <= nc a ->
  exists out, bin_downsample a k = Ok out /\ nr out = nr a / k /\ nc out = nc a / k /\
  forall iy ix, 0 <= iy < nr a / k -> 0 <= ix < nc a / k ->
    px out iy ix = block_mean a k iy ix.
Proof.
  intros Hk Hr Hc. unfold bin_downsample. replace (k <=? 0) with false by lia.
  eexists; split; [reflexivity|]. cbn [nr nc px]. repeat split; auto.
  intros iy ix Hy Hx. unfold block_mean, arr_sum, slice2. cbn [nr nc px].
  assert (k * (iy + 1) <= nr a).
  { pose proof (Z.mul_div_le (nr a) k Hk). nia. }
  assert (k * (ix + 1) <= nc a).
  { pose proof (Z.mul_div_le (nc a) k Hk). nia. }
  rewrite (slice_bound_in (nr a) (k * iy)) by nia.
  rewrite (slice_bound_in (nr a) (k * (iy + 1))) by nia.
  rewrite (slice_bound_in (nc a) (k * ix)) by nia.
  rewrite (slice_bound_in (nc a) (k * (ix + 1))) by nia.
  replace (Z.max 0 (k * (iy + 1) - k * iy)) with k by lia.
  replace (Z.max 0 (k * (ix + 1) - k * ix)) with k by lia.
  assert (IZR k <> 0)%R by (apply not_0_IZR; lia). field. auto.
Qed.

Lemma bin_downsample_total a k : 0 < k -> 0 <= nr a -> 0 <= nc a ->
  nr a mod k = 0 -> nc a mod k = 0 ->
  exists out, bin_downsample a k = Ok out /\ (total a = IZR (k * k) * total out)%R.
Proof.
  intros Hk Hr Hc Hmr Hmc.
  destruct (bin_downsample_blocks a k Hk Hr Hc) as (out & E & N1 & N2 & HP).
  exists out; split; auto. unfold total. rewrite N1, N2.
  apply Z.mod_divide in Hmr; [|lia]. apply Z.mod_divide in Hmc; [|lia].
  destruct Hmr as [p Hp]. destruct Hmc as [q Hq].
  rewrite Hp, Hq in *. rewrite !Z.div_mul in * by lia.
  assert (0 <= p) by nia. assert (0 <= q) by nia.
  rewrite !Z2Nat.inj_mul by lia.
  set (pn := Z.to_nat p) in *. set (qn := Z.to_nat q) in *. set (kn := Z.to_nat k) in *.
  rewrite rsum_mul_blocks.
  rewrite <- rsum_scal. apply rsum_ext. intros iy Hiy.
  rewrite <- rsum_scal.
  transitivity (rsum qn (fun ix => rsum kn (fun u => rsum kn (fun v =>
     px a (Z.of_nat (iy * kn + u)) (Z.of_nat (ix * kn + v)))))).
  - rewrite rsum_swap with (n := qn). apply rsum_ext. intros u Hu. now rewrite rsum_mul_blocks.
  - apply rsum_ext. intros ix Hix. rewrite HP by (unfold pn, qn in *; lia).
    unfold block_mean. rewrite mult_IZR.
    assert (IZR k <> 0)%R by (apply not_0_IZR; lia).
    fold kn. field_simplify; auto.
    apply rsum_ext. intros u Hu. apply rsum_ext. intros v Hv.
    f_equal; unfold kn; nia.
Qed.

(* ---- allcomb ---- *)
Lemma allcomb_In {A} (args : list (list A)) t :
  In t (allcomb args) <-> Forall2 (fun x l => In x l) t args.
Proof.
  revert t; induction args as [|l args IH]; intros t; cbn [allcomb].
  - split; [intros [<-|[]]; constructor | intros H; inversion H; now left].
  - rewrite in_flat_map. split.
    + intros (x & Hx & Ht). apply in_map_iff in Ht. destruct Ht as (r & <- & Hr).
      constructor; auto. now apply IH.
    + intros H. inversion H as [|x l' r args' Hx Hr]; subst. exists x. split; auto.
      apply in_map. now apply IH.
Qed.

Lemma flat_map_const_length {A B} (f : A -> list B) l n :
  (forall x, In x l -> length (f x) = n) -> length (flat_map f l) = (length l * n)%nat.
Proof.
  induction l as [|x l IH]; intros H; [reflexivity|]. cbn [flat_map length].
  rewrite app_length, IH, H; [lia | now left | intros; apply H; now right].
Qed.

Lemma allcomb_length {A} (args : list (list A)) :
  length (allcomb args) = fold_right (fun l n => (length l * n)%nat) 1%nat args.
Proof.
  induction args as [|l args IH]; [reflexivity|]. cbn [allcomb fold_right].
  rewrite (flat_map_const_length _ _ (length (allcomb args))).
  - now rewrite IH.
  - intros. now rewrite map_length.
Qed.

Lemma nth_error_flat_map {A B} (f : A -> list B) l n i j x :
  (forall y, In y l -> length (f y) = n) -> nth_error l i = Some x -> (j < n)%nat ->
  nth_error (flat_map f l) (i * n + j) = nth_error (f x) j.
Proof.
  revert i; induction l as [|y l IH]; intros i Hl Hi Hj.
  - destruct i; discriminate.
  - cbn [flat_map]. assert (Hy : length (f y) = n) by (apply Hl; now left). destruct i as [|i].
    + cbn in Hi. injection Hi as ->. cbn [Nat.mul Nat.add]. apply nth_error_app1. lia.
    + cbn in Hi. rewrite nth_error_app2 by (rewrite Hy; nia).
      rewrite Hy. replace (S i * n + j - n)%nat with (i * n + j)%nat by nia.
      apply IH; auto. intros; apply Hl; now right.
Qed.

Lemma allcomb_position {A} (args : list (list A)) : forall ix t,
  Forall2 (fun '(i, x) l => nth_error l i = Some x) (combine ix t) args ->
  length ix = length args -> length t = length args ->
  (position args ix < length (allcomb args))%nat /\
  nth_error (allcomb args) (position args ix) = Some t.
Proof.
  induction args as [|l args IH]; intros ix t H Hl1 Hl2.
  - destruct ix, t; try discriminate. cbn. split; auto with arith.
  - destruct ix as [|i ix]; [discriminate|]. destruct t as [|x t]; [discriminate|].
    cbn [combine] in H. inversion H as [|? ? ? ? Hx Hr]; subst.
    cbn in Hl1, Hl2. destruct (IH ix t Hr ltac:(lia) ltac:(lia)) as [Hp Hn].
    cbn [position]. rewrite <- allcomb_length. cbn [allcomb].
    assert (HL : forall y, In y l ->
      length (map (fun r => y :: r) (allcomb args)) = length (allcomb args))
      by (intros; now rewrite map_length).
    split.
    + rewrite (flat_map_const_length _ _ _ HL).
      assert (i < length l)%nat by (apply nth_error_Some; congruence). nia.
    + rewrite (nth_error_flat_map _ _ _ _ _ x HL Hx Hp).
      rewrite nth_error_map, Hn. reflexivity.
Qed.

(* ---- refutation witnesses ---- *)
Definition w_3x3 : arr Z := mkarr 3 3 (fun i j => 10 * i + j + 1).

Lemma chain_refuted :
  exists (a : arr Z) s r c, 0 < nr a /\ 0 < nc a /\ pos_size s /\ 0 < r /\ 0 < c /\
    ~ res_arr_eq (pad_crop_chain a [s; (r, c)] 0) (pad_crop a r c 0).
Proof.
  exists w_3x3, (1, 1), 3, 3. unfold pos_size. cbn [nr nc w_3x3 fst snd]. repeat split; try lia.
  intros H. vm_compute in H. destruct H as (_ & _ & H).
  specialize (H 0 0). vm_compute in H. 
  assert (E : 0 = 1) by (apply H; split; congruence || discriminate). discriminate.
Qed.

Lemma np_int_refuted :
  exists (a : arr Z) s z, (s = SNpInt z \/ s = SSeq [ENpInt z; ENpInt z]) /\ 0 < z /\
    0 < nr a /\ 0 < nc a /\ pad_crop_py (Nd2 a) s (FillReal 0) = Raise TypeError.
Proof. exists w_3x3, (SNpInt 5), 5. cbn. repeat split; auto; lia. Qed.

Lemma bin_nondiv_refuted :
  exists (a : arr R) k out, 0 < k /\ nr a mod k <> 0 /\ bin_downsample a k = Ok out /\
    (total a <> IZR (k * k) * total out)%R.
Proof.
  exists (mkarr 3 2 (fun _ _ => 1%R)), 2.
  eexists. split; [lia|]. split; [vm_compute; discriminate|]. split; [reflexivity|].
  unfold total, arr_sum, slice2. cbn [nr nc px].
  change (3 / 2) with 1. change (2 / 2) with 1.
  change (Z.to_nat 1) with 1%nat. change (Z.to_nat 3) with 3%nat. change (Z.to_nat 2) with 2%nat.
  cbn [rsum]. 
  match goal with |- context [Z.to_nat (Z.max 0 ?x)] =>
    change (Z.to_nat (Z.max 0 x)) with 2%nat end.
  match goal with |- context [Z.to_nat (Z.max 0 ?x)] =>
    change (Z.to_nat (Z.max 0 x)) with 2%nat end.
  cbn [rsum]. change (2 * 2) with 4. lra.
Qed.

(* ---- radial grid on a create_axis axis ---- *)
Lemma radial_grid_axis N step ip ax xs ys : 0 < N -> (0 < step)%R ->
  create_axis N step ip = Ok ax ->
  nr (radial_grid ax xs ys) = N /\ nc (radial_grid ax xs ys) = N /\
  forall i j, 0 <= i < N -> 0 <= j < N ->
    let off := if (ip && (N mod 2 =? 0))%bool then (/ 2)%R else 0%R in
    px (radial_grid ax xs ys) i j =
    sqrt (((IZR (j - N / 2) + off) * step / xs) ^ 2 + ((IZR (i - N / 2) + off) * step / ys) ^ 2)%R.
Proof.
  intros HN Hs E. destruct (create_axis_spec N step ip HN Hs) as (ax' & E' & HL & Hn).
  rewrite E in E'. injection E' as <-. unfold radial_grid, radial_grid_squared. cbn [nr nc px].
  rewrite HL, Z2Nat.id by lia. repeat split; auto.
  intros i j Hi Hj. rewrite !Hn by auto. cbv zeta.
  destruct (ip && (N mod 2 =? 0))%bool; f_equal; cbn [pow]; unfold Rdiv; ring.
Qed.

Lemma create_axis_antisym N step ip ax :
  0 < N -> (0 < step)%R -> (ip = true \/ N mod 2 = 1) -> create_axis N step ip = Ok ax ->
  forall k, 0 <= k < N ->
   (nth (Z.to_nat k) ax 0 = - nth (Z.to_nat (N - 1 - k)) ax 0)%R.
Proof.
  intros HN Hs Hip E k Hk. destruct (create_axis_spec N step ip HN Hs) as (ax' & E' & HL & Hn).
  rewrite E in E'. injection E' as <-. rewrite !Hn by lia.
  destruct (Z.eqb_spec (N mod 2) 0) as [H0|H0].
  - destruct Hip as [->|Hc]; [|lia]. cbn [andb].
    replace (IZR (N - 1 - k - N / 2)) with (- IZR (k - N / 2) - 1)%R; [lra|].
    rewrite <- opp_IZR, <- minus_IZR. f_equal. lia.
  - rewrite andb_false_r. replace (N - 1 - k - N / 2) with (- (k - N / 2)) by lia.
    rewrite opp_IZR. lra.
Qed.

Lemma nextpow2_full x : (x <> 0)%R ->
  (Rabs x <= powerRZ 2 (nextpow2 x))%R /\ (powerRZ 2 (nextpow2 x - 1) < Rabs x)%R /\
  forall q, (Rabs x <= powerRZ 2 q)%R -> (powerRZ 2 (q - 1) < Rabs x)%R -> q = nextpow2 x.
Proof.
  intros Hx. destruct (nextpow2_spec x Hx) as [H1 H2]. repeat split; auto.
  intros q H3 H4. eapply nextpow2_unique; eauto.
Qed.
