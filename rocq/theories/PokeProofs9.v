(* Concrete pokes; dead actuators. *)
From Verif Require Import Base RBase StrBase UtilModel CBase PropModel PropSpec PropProofs2 OptModel OptSpec LinBase OptProofs OptProofs2 OptProofs3 OptProofs4 SrcModel PokeModel GradModel GradSpec PokeSpec PokeProofs7.
Open Scope R_scope.
Local Open Scope string_scope.

Lemma nth_const {A} (l : list A) (z : A) k : (forall x, In x l -> x = z) -> nth k l z = z.
Proof. intros H. destruct (Nat.lt_ge_cases k (length l)) as [L|L]; [apply H; now apply nth_In|now apply nth_overflow]. Qed.
Lemma dead_column o w I00 sc M fields dm2 pk : pk_dead pk = true -> exists col, lyot_column o w I00 sc M fields dm2 pk = Ok col /\ length col = mask_count M /\ forall k, nth k col (RtoC 0) = RtoC 0.
Proof.
  intros D. unfold lyot_column. rewrite D. destruct (gather_ok M (mkf (frows M) (fcols M) (fun _ _ => RtoC 0)) eq_refl eq_refl) as (g & Eg & Lg & _). exists g. split; [exact Eg|]. split; [exact Lg|]. intros k. apply nth_const. intros z Hz.
  unfold gather in Eg. rewrite !Nat.eqb_refl in Eg. cbn [andb] in Eg. injection Eg as <-. apply in_flat_map in Hz. destruct Hz as (i & _ & Hz). apply in_flat_map in Hz. destruct Hz as (j & _ & Hz). destruct (fpx M i j); [destruct Hz as [<-|[]]; reflexivity|destruct Hz].
Qed.
Definition flat (n : nat) : field R := mkf n n (fun i j => INR i / 100 + INR j / 1000).
Definition g22 : grid2 := mkg 1 2 1 3.
(* 4 x 4 arrays, rotations between the pupils, an apodizer, pupil stops; DMs in pupil planes (d = 0) or not *)
Definition ap22 : field C := mkf 2 2 (fun i j => if (i =? 0)%nat || (j =? 0)%nat then RtoC 0 else (1/2, 1/3)).
Definition inst (c : centering) (d1 d12 : R) : optics :=
  mko 4 true 1 1 1 1 c d1 d12 3 1 (1/10) true true (flat 4) (flat 4) (ones 4) (Some (ones 2)) (Some (ones 4)) false (Some (ap22, 2%nat)) "HLC" g22 (mkf 3 2 (fun i j => (INR i, INR j))) None (ChInt 0) 1 1 (1/5) 2 (ones 2) (fun E => Ok E) g22 g22.
Definition axis4 (c : centering) : list R := map (coord 4 (1/10) c) (seq 0 4).
(* an influence function of one sample in a box of three; one of two samples in a box of four *)
Definition pk13 : poked := mkpk 4 1 3 2 2 (axis4 Pixel) (axis4 Pixel) (1/7) (mkf 1 1 (fun _ _ => 1/9)) 2 false.
Definition pk24 : poked := mkpk 4 2 4 1 1 (axis4 Interpixel) (axis4 Interpixel) (1/7) (mkf 2 2 (fun i j => 1 + INR i)) 2 false.
Lemma inst_wf c d1 d12 : c <> OtherCentering -> well_formed (inst c d1 d12).
Proof. intros Hc. constructor; cbn; auto; try lra; try lia; try (repeat split; cbn; auto; lra || lia). Qed.
Lemma axis4_ok c : length (axis4 c) = 4%nat /\ forall k, (k < 4)%nat -> nth k (axis4 c) 0 = coord 4 (1/10) c k.
Proof. split; [reflexivity|]. intros k Hk. do 4 (destruct k as [|k]; [reflexivity|]). lia. Qed.
Ltac ready := constructor; [apply inst_wf; discriminate|cbn; unfold even_size; auto|cbn; lia|cbn; split; [lia|reflexivity]|cbn; auto|unfold box_inside; vm_compute; split; split; discriminate|apply axis4_ok|apply axis4_ok|].
Lemma pk13_ready : poke_ready (inst Pixel 0 0) pk13.
Proof. ready. cbn. split; [reflexivity|]. split; [lia|]. intros _ k Hk. split; [reflexivity|]. destruct k as [|[|k]]; [reflexivity|reflexivity|lia]. Qed.
Lemma pk24_ready : poke_ready (inst Interpixel (1/3) (1/5)) pk24 /\ whole_array (inst Interpixel (1/3) (1/5)) pk24.
Proof. split; [|repeat split; reflexivity]. ready. cbn. split; [reflexivity|]. split; [lia|]. intros Q. discriminate. Qed.
