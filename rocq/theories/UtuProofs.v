From Coq Require Import Sorted Permutation.
From Verif Require Import Base RBase CtrlModel DmModel DmProofs EfcSpec JacModel JacSpec JacProofs CullProofs UtuModel.
Open Scope R_scope.

Lemma combine_map_map {A B C} (f : A -> B) (g : A -> C) l : combine (map f l) (map g l) = map (fun x => (f x, g x)) l.
Proof. induction l; cbn; congruence. Qed.

Lemma mode_cols_filled resp act M G m : filled resp act M G -> (m < M)%nat -> mode_cols G m = map (resp m) act.
Proof.
  intros [[HL HF] HE] Hm. apply nth_error_ext. intros i. unfold mode_cols. rewrite !nth_error_map.
  destruct (nth_error act i) as [a|] eqn:Ea.
  - specialize (HE i a m Ea Hm). unfold ent in HE. destruct (nth_error G i) as [col|]; [|discriminate]. cbn.
    now rewrite (nth_error_nth _ _ _ HE).
  - apply nth_error_None in Ea. rewrite <- HL in Ea. apply nth_error_None in Ea. now rewrite Ea.
Qed.

(* the actuators taken, DM 1's first *)
Definition taken (c : ucfg) (a1 a2 : list Z) : list (Z * Z) :=
  (if usedb (c_dm_ind c) 1 then map (pair 1%Z) a1 else []) ++ (if usedb (c_dm_ind c) 2 then map (pair 2%Z) a2 else []).

Lemma utu_stack_ok c a1 a2 G1 G2 m : c_npix c <> 1%nat -> (m < c_nmode c)%nat ->
  (usedb (c_dm_ind c) 1 = true -> filled (c_resp c 1) a1 (c_nmode c) G1 /\ length a1 <> 1%nat) ->
  (usedb (c_dm_ind c) 2 = true -> filled (c_resp c 2) a2 (c_nmode c) G2 /\ length a2 <> 1%nat) ->
  utu_stack c (G1, G2) m = Ok (map (fun '(k, a) => c_resp c k m a) (taken c a1 a2)).
Proof.
  intros HP Hm H1 H2. unfold utu_stack, taken, hstack_block. cbn [fst snd].
  apply Nat.eqb_neq in HP. rewrite HP. cbn [orb].
  assert (E : forall k act G, filled (c_resp c k) act (c_nmode c) G -> length act <> 1%nat ->
    mode_cols G m = map (fun '(k, a) => c_resp c k m a) (map (pair k) act) /\ Nat.eqb (length (mode_cols G m)) 1 = false).
  { intros k act G HF HL. rewrite (mode_cols_filled _ _ _ _ _ HF Hm), map_map. split; [reflexivity|]. apply Nat.eqb_neq. now rewrite map_length. }
  destruct (usedb (c_dm_ind c) 1).
  - destruct (H1 eq_refl) as [HF HL]. destruct (E _ _ _ HF HL) as [-> EL]. rewrite map_length, map_length in *.
    apply Nat.eqb_neq in HL. rewrite HL. cbn [app rbind].
    destruct (usedb (c_dm_ind c) 2).
    + destruct (H2 eq_refl) as [HF2 HL2]. destruct (E _ _ _ HF2 HL2) as [-> EL2]. rewrite !map_length. apply Nat.eqb_neq in HL2. rewrite HL2.
      now rewrite map_app.
    + now rewrite app_nil_r.
  - cbn [rbind]. destruct (usedb (c_dm_ind c) 2); [|reflexivity].
    destruct (H2 eq_refl) as [HF2 HL2]. destruct (E _ _ _ HF2 HL2) as [-> EL2]. rewrite !map_length. apply Nat.eqb_neq in HL2. rewrite HL2.
    reflexivity.
Qed.

(* weighted squared response of one actuator over the modes ms *)
Definition infl (c : ucfg) (ms : list nat) (ka : Z * Z) : R :=
  rsuml (map (fun m => c_w c m * rsum (c_npix c) (fun p => sqmod (c_resp c (fst ka) m (snd ka) p))) ms).

Lemma utu_diag_ok c G L : forall ms f, (forall m, In m ms -> utu_stack c G m = Ok (map (fun '(k, a) => c_resp c k m a) L)) ->
  utu_diag c G ms (map f L) = Ok (map (fun x => f x + infl c ms x) L).
Proof.
  induction ms as [|m ms IH]; intros f H; cbn [utu_diag].
  - f_equal. apply map_ext. intros x. unfold infl. cbn. lra.
  - rewrite H by (left; reflexivity). cbn [rbind]. rewrite !map_length, Nat.eqb_refl, combine_map_map, map_map.
    rewrite (IH (fun x => f x + c_w c m * rsum (c_npix c) (fun p => sqmod ((let '(k, a) := x in c_resp c k m a) p)))) by (intros; apply H; now right).
    f_equal. apply map_ext. intros [k a]. unfold infl. cbn [map rsuml fst snd]. lra.
Qed.

Lemma nonzero_in mask a : In a (nonzero (fun b : bool => b) mask) <-> (0 <= a)%Z /\ nth_error mask (Z.to_nat a) = Some true.
Proof.
  unfold nonzero. rewrite nonzero_from_spec. split.
  - intros (i & x & -> & E & T). split; [lia|]. rewrite Z.add_0_l, Nat2Z.id. now subst.
  - intros [H E]. exists (Z.to_nat a), true. repeat split; auto. lia.
Qed.
