From Coq Require Import String QArith.
From Verif Require Import Base CheckModel CheckSpec.
Open Scope Z_scope.

Lemma Qle0_bool_pos q : Qle_bool q 0 = false <-> (0 < q)%Q.
Proof.
  split; intros H.
  - apply Qnot_le_lt. intros Hc. apply Qle_bool_iff in Hc. congruence.
  - destruct (Qle_bool q 0) eqn:E; auto. apply Qle_bool_iff in E. exfalso. now apply (Qle_not_lt _ _ E).
Qed.

Lemma misuse {A} n e (k : res A) : ~ is_text n \/ ~ is_exc e ->
  (do _ <- checkname n; do _ <- checkexc e; k) = Raise CheckException.
Proof.
  intros H. unfold is_text, is_exc in H.
  destruct n; cbn; auto; destruct e; cbn; auto; exfalso;
    destruct H as [H|H]; apply H; eauto.
Qed.

Ltac solve_misuse := intros; apply misuse; assumption.

Lemma denotes_iff v : (exists x, denotes v x) <-> is_number v = true /\ isrealobj v = true.
Proof.
  split.
  - intros [x H]; inversion H; auto.
  - intros [H1 H2]. destruct v; cbn in *; try discriminate; eexists; constructor.
Qed.
Lemma denotes_to_fl v x : denotes v x -> x = to_fl v.
Proof. intros H; inversion H; reflexivity. Qed.
Lemma to_fl_denotes v : is_number v = true -> isrealobj v = true -> denotes v (to_fl v).
Proof. intros H1 H2. destruct v; cbn in *; try discriminate; constructor. Qed.
Lemma fl_le0_spec x : fl_le0 x = false <-> positive x \/ x = NaN.
Proof.
  destruct x as [q| | |]; cbn; rewrite ?Qle0_bool_pos; split; intros H; auto; try discriminate.
  - left; now constructor.
  - destruct H as [H|H]; [now inversion H|discriminate].
  - left; constructor.
  - destruct H as [H|H]; inversion H.
Qed.
Lemma fl_lt0_spec x : fl_lt0 x = false <-> nonnegative x \/ x = NaN.
Proof.
  destruct x as [q| | |]; cbn; split; intros H; auto; try discriminate.
  - left; constructor. apply negb_false_iff in H. now apply Qle_bool_iff.
  - destruct H as [H|H]; [|discriminate]. inversion H; subst.
    apply negb_false_iff. now apply Qle_bool_iff.
  - left; constructor.
  - destruct H as [H|H]; inversion H.
Qed.

Lemma real_scalar_exact : exact_checker real_scalar (fun v => exists x, denotes v x).
Proof.
  split; [|split; [|solve_misuse]]; intros v s e H; unfold real_scalar; cbn [checkname checkexc rbind].
  - apply denotes_iff in H. destruct H as [-> ->]. reflexivity.
  - destruct (is_number v) eqn:E1; cbn [negb]; [|reflexivity].
    destruct (isrealobj v) eqn:E2; cbn [negb]; [|reflexivity].
    exfalso. apply H, denotes_iff; auto.
Qed.

Lemma real_positive_exact :
  exact_checker real_positive_scalar (fun v => exists x, denotes v x /\ (positive x \/ x = NaN)).
Proof.
  split; [|split; [|solve_misuse]]; intros v s e H; unfold real_positive_scalar, le0;
    cbn [checkname checkexc rbind].
  - destruct H as (x & Hx & Hp). pose proof (denotes_to_fl v x Hx) as ->.
    destruct (proj1 (denotes_iff v) (ex_intro _ _ Hx)) as [-> ->]. cbn [negb].
    apply fl_le0_spec in Hp. now rewrite Hp.
  - destruct (is_number v) eqn:E1; cbn [negb]; [|reflexivity].
    destruct (isrealobj v) eqn:E2; cbn [negb]; [|reflexivity].
    destruct (fl_le0 (to_fl v)) eqn:E3; [reflexivity|].
    exfalso. apply H. exists (to_fl v). split; [now apply to_fl_denotes|now apply fl_le0_spec].
Qed.

Lemma real_nonnegative_exact :
  exact_checker real_nonnegative_scalar (fun v => exists x, denotes v x /\ (nonnegative x \/ x = NaN)).
Proof.
  split; [|split; [|solve_misuse]]; intros v s e H; unfold real_nonnegative_scalar, lt0;
    cbn [checkname checkexc rbind].
  - destruct H as (x & Hx & Hp). pose proof (denotes_to_fl v x Hx) as ->.
    destruct (proj1 (denotes_iff v) (ex_intro _ _ Hx)) as [-> ->]. cbn [negb].
    apply fl_lt0_spec in Hp. now rewrite Hp.
  - destruct (is_number v) eqn:E1; cbn [negb]; [|reflexivity].
    destruct (isrealobj v) eqn:E2; cbn [negb]; [|reflexivity].
    destruct (fl_lt0 (to_fl v)) eqn:E3; [reflexivity|].
    exfalso. apply H. exists (to_fl v). split; [now apply to_fl_denotes|now apply fl_lt0_spec].
Qed.

Lemma inject_le0 z : Qle_bool (inject_Z z) 0 = (z <=? 0).
Proof. unfold Qle_bool, inject_Z; cbn. now rewrite Z.mul_1_r. Qed.
Lemma inject_ge0 z : Qle_bool 0 (inject_Z z) = (0 <=? z).
Proof. unfold Qle_bool, inject_Z; cbn. now rewrite Z.mul_1_r. Qed.

Lemma scalar_integer_exact : exact_checker scalar_integer (fun v => exists z, denotes_int v z).
Proof.
  split; [|split; [|solve_misuse]]; intros v s e H.
  - destruct H as [z H]; inversion H; reflexivity.
  - destruct v as [|[]| | | | | | | | | | | | | |]; try reflexivity; exfalso; apply H; eexists; constructor.
Qed.
Lemma positive_integer_exact :
  exact_checker positive_scalar_integer (fun v => exists z, denotes_int v z /\ 0 < z).
Proof.
  split; [|split; [|solve_misuse]]; intros v s e H; unfold positive_scalar_integer, le0;
    cbn [checkname checkexc rbind].
  - destruct H as (z & H & Hz); inversion H; subst; cbn -[Qle_bool]; rewrite ?inject_le0; try lia;
      try reflexivity; (replace (z <=? 0) with false by lia; reflexivity).
  - destruct v as [|[]|z|z| | | | | | | | | | | |]; try reflexivity; cbn -[Qle_bool].
    + exfalso; apply H. exists 1. split; [constructor|lia].
    + rewrite inject_le0. destruct (Z.leb_spec z 0); [reflexivity|].
      exfalso; apply H; exists z; split; [constructor|lia].
    + rewrite inject_le0. destruct (Z.leb_spec z 0); [reflexivity|].
      exfalso; apply H; exists z; split; [constructor|lia].
Qed.
Lemma nonnegative_integer_exact :
  exact_checker nonnegative_scalar_integer (fun v => exists z, denotes_int v z /\ 0 <= z).
Proof.
  split; [|split; [|solve_misuse]]; intros v s e H; unfold nonnegative_scalar_integer, lt0;
    cbn [checkname checkexc rbind].
  - destruct H as (z & H & Hz); inversion H; subst; cbn -[Qle_bool]; rewrite ?inject_ge0; try lia;
      try reflexivity; (replace (0 <=? z) with true by lia; reflexivity).
  - destruct v as [|[]|z|z| | | | | | | | | | | |]; try reflexivity; cbn -[Qle_bool].
    + exfalso; apply H. exists 1. split; [constructor|lia].
    + exfalso; apply H. exists 0. split; [constructor|lia].
    + rewrite inject_ge0. destruct (Z.leb_spec 0 z); [|reflexivity].
      exfalso; apply H; exists z; split; [constructor|lia].
    + rewrite inject_ge0. destruct (Z.leb_spec 0 z); [|reflexivity].
      exfalso; apply H; exists z; split; [constructor|lia].
Qed.

Lemma string_exact : exact_checker string_check is_text.
Proof.
  split; [|split; [|solve_misuse]]; intros v s e H.
  - destruct H as [[t ->]|[t ->]]; reflexivity.
  - destruct v; try reflexivity; exfalso; apply H; [left|right]; eauto.
Qed.
Lemma boolean_exact : exact_checker boolean (fun v => exists b, v = VBool b).
Proof.
  split; [|split; [|solve_misuse]]; intros v s e H.
  - destruct H as [b ->]; reflexivity.
  - destruct v; try reflexivity; exfalso; apply H; eauto.
Qed.
Lemma dictionary_exact : exact_checker dictionary (fun v => v = VDict).
Proof.
  split; [|split; [|solve_misuse]]; intros v s e H.
  - subst; reflexivity.
  - destruct v; try reflexivity; exfalso; apply H; eauto.
Qed.

Lemma negb_real_complex v : (negb (isrealobj v) && negb (iscomplexobj v))%bool = false.
Proof. unfold iscomplexobj. destruct (isrealobj v); reflexivity. Qed.

Lemma nD_exact n : (0 < n)%nat ->
  exact_array_checker (nD_array n) (fun k sh => List.length sh = n).
Proof.
  intros Hn. split; [|split; [|split; [|solve_misuse]]].
  - intros v s e k sh Hs Hg. unfold nD_array. cbn [checkname checkexc rbind].
    inversion Hs; subst; cbn [asarray rbind shape]; rewrite Nat.eqb_refl, negb_real_complex; reflexivity.
  - intros v s e Hr H. unfold nD_array. cbn [checkname checkexc rbind].
    assert (Hz : negb (Nat.eqb 0 n) = true) by (destruct n; [lia|reflexivity]).
    destruct v as [| | | | | | | | | | |k sh|[[k sh]|]| | |];
      cbn [asarray rbind shape List.length]; rewrite ?Hz; try reflexivity; try congruence.
    + specialize (H k sh (s_arr k sh)). destruct (Nat.eqb_spec (List.length sh) n); [contradiction|reflexivity].
    + specialize (H k sh (s_seq k sh)). destruct (Nat.eqb_spec (List.length sh) n); [contradiction|reflexivity].
  - intros s e. reflexivity.
Qed.

Lemma square_exact :
  exact_array_checker twoD_square_array (fun k sh => exists n, sh = [n; n]).
Proof.
  split; [|split; [|split; [|solve_misuse]]].
  - intros v s e k sh Hs [n ->]. unfold twoD_square_array. cbn [checkname checkexc rbind].
    inversion Hs; subst; cbn [asarray rbind shape nth List.length]; rewrite Z.eqb_refl, negb_real_complex; reflexivity.
  - intros v s e Hr H. unfold twoD_square_array. cbn [checkname checkexc rbind].
    assert (HH : forall (k : dkind) (sh : list Z), (forall n, sh <> [n; n]) ->
      Nat.eqb (List.length sh) 2 = false \/ (nth 0 sh 0 =? nth 1 sh 0) = false).
    { intros k sh Hn. destruct sh as [|a [|b [|]]]; auto. right. cbn.
      apply Z.eqb_neq. intros ->. now apply (Hn b). }
    destruct v as [| | | | | | | | | | |k sh|[[k sh]|]| | |];
      cbn [asarray rbind shape List.length]; try reflexivity; try congruence.
    + specialize (H k sh (s_arr k sh)). destruct (HH k sh) as [-> | ->]; auto.
      { intros n En. apply H. eauto. }
      destruct (Nat.eqb (List.length sh) 2); reflexivity.
    + specialize (H k sh (s_seq k sh)). destruct (HH k sh) as [-> | ->]; auto.
      { intros n En. apply H. eauto. }
      destruct (Nat.eqb (List.length sh) 2); reflexivity.
  - intros s e. reflexivity.
Qed.

Lemma real_array_exact :
  exact_array_checker real_array
    (fun k sh => sh <> [] /\ (k = KBool \/ k = KInt \/ k = KUInt \/ k = KFloat)).
Proof.
  split; [|split; [|split; [|solve_misuse]]].
  - intros v s e k sh Hs [Hn Hk]. unfold real_array. cbn [checkname checkexc rbind].
    destruct sh as [|a sh]; [congruence|].
    inversion Hs; subst; cbn [asarray rbind shape List.length Nat.eqb];
      destruct Hk as [-> | [-> | [-> | ->]]]; reflexivity.
  - intros v s e Hr H. unfold real_array. cbn [checkname checkexc rbind].
    destruct v as [| | | | | | | | | | |k sh|[[k sh]|]| | |];
      cbn [asarray rbind shape List.length]; try reflexivity; try congruence.
    + specialize (H k sh (s_arr k sh)). destruct sh as [|a sh]; [reflexivity|]. cbn [List.length Nat.eqb].
      destruct k; cbn; try reflexivity; exfalso; apply H; split; try congruence; tauto.
    + specialize (H k sh (s_seq k sh)). destruct sh as [|a sh]; [reflexivity|]. cbn [List.length Nat.eqb].
      destruct k; cbn; try reflexivity; exfalso; apply H; split; try congruence; tauto.
  - intros s e. reflexivity.
Qed.

Lemma centering_exact v :
  centering v = match v with
                | VStr s => if string_dec s "pixel" then Ok v
                            else if string_dec s "interpixel" then Ok v else Raise ValueError
                | _ => Raise TypeError end.
Proof.
  destruct v; try reflexivity. cbn.
  destruct (string_dec s "pixel") as [->|H1]; [reflexivity|].
  destruct (string_dec s "interpixel") as [->|H2]; [reflexivity|].
  apply String.eqb_neq in H1, H2. now rewrite H1, H2.
Qed.

Lemma is_dict_is_bool v n :
  (is_text n -> is_dict v n = (match v with VDict => Ok v | _ => Raise TypeError end) /\
                is_bool v n = (match v with VBool _ => Ok v | _ => Raise TypeError end)) /\
  (~ is_text n -> is_dict v n = Raise CheckException /\ is_bool v n = Raise CheckException).
Proof.
  split.
  - intros [[s ->]|[s ->]]; split; destruct v; reflexivity.
  - intros H. destruct n; try (split; reflexivity); exfalso; apply H; unfold is_text; eauto.
Qed.

Lemma nan_accepted : exists v s e,
  (forall x, denotes v x -> ~ positive x) /\ real_positive_scalar v (VStr s) (VExcClass e) = Ok v.
Proof.
  exists (VFloat NaN), "x"%string, TypeError. split; [|reflexivity].
  intros x H; inversion H; subst. intros Hp; inversion Hp.
Qed.

Lemma bytes_name_wrong_exc : exists v s e,
  (forall x, ~ denotes v x) /\ e <> TypeError /\
  real_scalar v (VBytes s) (VExcClass e) = Raise TypeError.
Proof.
  exists VNone, "x"%string, ValueError. split; [|split; [discriminate|reflexivity]].
  intros x H; inversion H.
Qed.
