(* Proofs about the command gradient: the image depends on surfaces pixel by pixel. *)
From Coquelicot Require Import Coquelicot.
From Verif Require Import Base RBase StrBase CBase PropModel PropSpec OptModel OptSpec GradModel GradSpec GradAdj GradProofs2 GradProofs3 GradProofs4 GradProofs5 GradProofs6 GradProofs7 DiffModel DiffSpec CmdModel CmdSpec.
Open Scope R_scope.
Definition same_px (n : nat) (s s' : field R) : Prop := square n s /\ square n s' /\ forall i j, (i < n)%nat -> (j < n)%nat -> fpx s i j = fpx s' i j.
Lemma image_cong o m a1 a2 b1 b2 i j : gradient_ready o -> 0 < md_wvl m -> 0 < md_I00 m -> same_px (o_pad o) a1 b1 -> same_px (o_pad o) a2 b2 -> (i < g_Neta (o_fend o))%nat -> (j < g_Nxi (o_fend o))%nat ->
  image (with_surfs o a1 a2) m i j = image (with_surfs o b1 b2) m i j.
Proof.
  intros G Hw HI (A1 & B1 & V1) (A2 & B2 & V2) Hi Hj. destruct (images o m G Hw HI) as (A & SA & H & _). rewrite !H by auto. f_equal.
  apply (adj_px_ext _ _ _ _ _ _ _ _ _ i j (adj_all o (md_wvl m) G Hw)); auto; [split; reflexivity|split; reflexivity|]. intros y x Hy Hx. unfold UU. cbn [fpx]. f_equal; [|unfold flatp; now rewrite V2].
  apply (adj_px_ext _ _ _ _ _ _ _ _ _ y x (adj_p12 o (md_wvl m) G Hw)); auto; [split; reflexivity|split; reflexivity|]. intros p q Hp Hq. unfold PP. cbn [fpx]. unfold flatp. now rewrite V1.
Qed.
Lemma energy_ext M ms ch ch' : Forall (fun m => forall i j, (i < frows M)%nat -> (j < fcols M)%nat -> ch m i j = ch' m i j) ms -> energy_after M ms ch = energy_after M ms ch'.
Proof.
  intros F. unfold energy_after. f_equal. induction F as [|m ms Hm F IH]; [reflexivity|]. cbn [map]. rewrite IH. f_equal. f_equal. unfold msum. apply rsum_ext. intros i Hi. apply rsum_ext. intros j Hj. now rewrite Hm.
Qed.
