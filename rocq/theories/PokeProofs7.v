(* Selecting the pixels of the mask; the derivative of the model field. *)
From Coquelicot Require Import Coquelicot.
From Verif Require Import Base RBase StrBase UtilModel CBase PropModel PropSpec PropProofs PropProofs2 OptModel OptSpec LinBase OptProofs OptProofs2 OptProofs3 OptProofs4 OptProofs6 OptProofs7 DiffModel DiffSpec DiffProofs2 SrcModel PokeModel PokeProofs PokeProofs2 GradModel GradSpec GradProofs GradProofs3 GradProofs4 GradProofs5 PokeSpec PokeProofs3 PokeProofs4 PokeProofs5 PokeProofs6.
Open Scope R_scope.

Lemma flat_map_len {A} (f : nat -> list A) n : length (flat_map f (seq 0 n)) = nsum n (fun a => length (f a)).
Proof. induction n; [reflexivity|]. rewrite seq_S, flat_map_app, app_length, IHn. cbn [flat_map nsum Nat.add]. rewrite app_nil_r. lia. Qed.
Lemma flat_map_nth {A} (f : nat -> list A) n i k d : (i < n)%nat -> (k < length (f i))%nat -> nth (nsum i (fun a => length (f a)) + k) (flat_map f (seq 0 n)) d = nth k (f i) d.
Proof.
  intros Hi Hk. replace n with (i + (1 + (n - i - 1)))%nat by lia. rewrite seq_app, flat_map_app, app_nth2; rewrite flat_map_len; [|lia]. replace (nsum i (fun a => length (f a)) + k - nsum i (fun a => length (f a)))%nat with k by lia.
  rewrite seq_app, flat_map_app. cbn [Nat.add seq flat_map]. rewrite app_nil_r, app_nth1 by lia. reflexivity.
Qed.
Lemma row_len {A} (M : nat -> bool) (F : nat -> A) n : length (flat_map (fun j => if M j then [F j] else []) (seq 0 n)) = ncount n M.
Proof. rewrite flat_map_len. induction n; [reflexivity|]. cbn [nsum]. rewrite IHn. cbn [ncount]. destruct (M n); cbn; lia. Qed.
Lemma nsum_ext n f g : (forall k, (k < n)%nat -> f k = g k) -> nsum n f = nsum n g.
Proof. induction n; intros H; [reflexivity|]. cbn [nsum]. rewrite IHn, H by auto. reflexivity. Qed.
Lemma gather_ok M F : frows F = frows M -> fcols F = fcols M -> exists g, gather M F = Ok g /\ length g = mask_count M /\
  forall i j, (i < frows M)%nat -> (j < fcols M)%nat -> fpx M i j = true -> (mask_rank M i j < mask_count M)%nat /\ nth (mask_rank M i j) g (RtoC 0) = fpx F i j.
Proof.
  intros R1 R2. unfold gather. rewrite R1, R2, !Nat.eqb_refl. cbn [andb]. eexists. split; [reflexivity|].
  assert (L : length (flat_map (fun i => flat_map (fun j => if fpx M i j then [fpx F i j] else []) (seq 0 (fcols M))) (seq 0 (frows M))) = mask_count M).
  { rewrite flat_map_len. apply nsum_ext. intros k Hk. apply row_len. }
  split; [exact L|]. intros i j Hi Hj HM. unfold mask_rank.
  assert (LT : (ncount j (fpx M i) < ncount (fcols M) (fpx M i))%nat).
  { rewrite <- (row_len (fpx M i) (fpx F i) j), <- (row_len (fpx M i) (fpx F i) (fcols M)). replace (fcols M) with (j + (1 + (fcols M - j - 1)))%nat by lia. rewrite seq_app, flat_map_app, app_length, seq_app, flat_map_app, app_length. cbn. rewrite HM. cbn. lia. }
  assert (ND : nth (nsum i (fun a => ncount (fcols M) (fpx M a)) + ncount j (fpx M i)) (flat_map (fun i => flat_map (fun j => if fpx M i j then [fpx F i j] else []) (seq 0 (fcols M))) (seq 0 (frows M))) (RtoC 0) = fpx F i j).
  { rewrite (nsum_ext i _ (fun a => length (flat_map (fun j => if fpx M a j then [fpx F a j] else []) (seq 0 (fcols M))))) by (intros; symmetry; apply row_len).
    rewrite (flat_map_nth (fun i => flat_map (fun j => if fpx M i j then [fpx F i j] else []) (seq 0 (fcols M)))) by (auto; rewrite row_len; auto).
    rewrite <- (Nat.add_0_r (ncount j (fpx M i))). rewrite <- (row_len (fpx M i) (fpx F i) j), flat_map_len.
    rewrite (flat_map_nth (fun j => if fpx M i j then [fpx F i j] else []) (fcols M) j 0); [now rewrite HM|auto|rewrite HM; cbn; lia]. }
  split; [|exact ND]. unfold mask_count. clear L ND. pose proof (flat_map_len (fun a => repeat tt (ncount (fcols M) (fpx M a))) (frows M)) as Q.
  rewrite (nsum_ext (frows M) _ (fun a => ncount (fcols M) (fpx M a))) in Q by (intros; apply repeat_length). rewrite <- Q.
  replace (frows M) with (i + (1 + (frows M - i - 1)))%nat by lia. rewrite seq_app, flat_map_app, app_length, seq_app, flat_map_app, app_length, flat_map_len. rewrite (nsum_ext i (fun a => length (repeat tt (ncount (fcols M) (fpx M a)))) (fun a => ncount (fcols M) (fpx M a))) by (intros; apply repeat_length).
  cbn [seq Nat.add flat_map]. rewrite app_nil_r, repeat_length. lia.
Qed.
