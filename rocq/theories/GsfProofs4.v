(* Proofs for C97: gradient and orientation *)
From Verif Require Import Base StrBase RBase CtrlModel UtilModel UtilSpec UtilProofs DmModel DmSpec DmSurfModel DmSurfSpec DmSurfProofs CubModel DmcModel CBase PropModel PropSpec PropProofs OptModel LinBase DiffModel DiffSpec DiffProofs DiffProofs2 DiffProofs3 DiffProofs4 DiffProps RotModel GsfModel GsfSpec GsfProofs GsfProofs2 GsfProofs3.
Open Scope R_scope.

(* the model m, whatever it holds, was made by a wrapper without resampling *)
Definition plain_model (ifn : field R) (nact mag : nat) (shx shy : R) (m : rdm) : Prop := r_proj m = None /\ exists a, dims nact nact a /\ holds ifn nact mag shx shy 1 a (r_dm m).
Lemma plain_first c nact dx h m mag : untilted c -> samples_per_act c mag -> dims nact nact h -> (1 <= nact)%nat -> 0 < dx -> sample_width c mag = dx -> wrapper c nact dx h = Ok m ->
  exists sg ifn, sign_factor (Some (g_sign c)) = Ok sg /\ pad_cropr (rscale sg (of_rarr (i_map (g_file c)))) (wrapper_size nact mag) (wrapper_size nact mag) = Ok ifn /\ dims (wrapper_size nact mag) (wrapper_size nact mag) ifn /\
    plain_model ifn nact mag (IZR (wrapper_shift (g_xc c) nact mag)) (IZR (wrapper_shift (g_yc c) nact mag)) m /\ holds ifn nact mag (IZR (wrapper_shift (g_xc c) nact mag)) (IZR (wrapper_shift (g_yc c) nact mag)) 1 h (r_dm m).
Proof.
  intros U SM [Dr Dc] Hn Hd HW E. destruct (wrapper_shape c nact dx h m mag U SM Dc Hn E) as (sg & ifn & ES & EP & DI & EC & RP). exists sg, ifn. split; [auto|]. split; [auto|]. split; [auto|].
  pose proof SM as (Hm & _). pose proof (C69_wrapper_fits nact mag Hn Hm) as F. destruct DI as [I1 I2]. assert (FA : act_fit (frows ifn) nact mag) by (now rewrite I1). assert (FB : act_fit (fcols ifn) nact mag) by (now rewrite I2).
  replace (sample_width c mag / dx) with 1 in EC by (rewrite HW; field; lra).
  destruct (commanded_holds ifn nact mag (IZR (wrapper_shift (g_xc c) nact mag)) (IZR (wrapper_shift (g_yc c) nact mag)) 1 [] h FA FB) as (d' & EC' & H); [constructor|split; auto|]. rewrite EC in EC'. injection EC' as <-.
  split; [|auto]. split; [auto|]. exists h. split; [split; auto|auto].
Qed.
Lemma backprop_flat ip m i g : r_proj m = None -> rbackprop ip m (Some i) g false = render_backprop (r_dm m) (Some i) g false.
Proof. intros H. unfold rbackprop, render_backprop. destruct i. rewrite H. reflexivity. Qed.
(* the reverse pass does not look at the command *)
Lemma backprop_any ifn nact mag shx shy up a a' d d' i g wfe : holds ifn nact mag shx shy up a d -> holds ifn nact mag shx shy up a' d' -> render_backprop d i g wfe = render_backprop d' i g wfe.
Proof. intros (A1 & A2 & A3 & A4 & _) (B1 & B2 & B3 & B4 & _). unfold render_backprop. now rewrite A1, A2, A3, A4, B1, B2, B3, B4. Qed.
(* ---- re-indexing a sum over the grid ---- *)
Lemma rsum_flip n f : rsum n f = rsum n (fun k => f (n - 1 - k)%nat).
Proof.
  induction n as [|n IH] in f |- *; [reflexivity|]. cbn [rsum]. rewrite (rsum_ext n (fun k => f (S n - 1 - k)%nat) (fun k => (fun j => f (S j)) (n - 1 - k)%nat)) by (intros k Hk; f_equal; lia).
  rewrite <- (IH (fun j => f (S j))). replace (S n - 1 - n)%nat with 0%nat by lia. clear IH. induction n as [|n IH]; [reflexivity|]. cbn [rsum]. lra.
Qed.
Definition place (flip : bool) (k N r c : nat) : nat * nat :=
  let c := if flip then (N - 1 - c)%nat else c in
  match k with 0%nat => (r, c) | 1%nat => ((N - 1 - c)%nat, r) | 2%nat => ((N - 1 - r)%nat, (N - 1 - c)%nat) | _ => (c, (N - 1 - r)%nat) end.
Lemma place_lt flip k N r c : (r < N)%nat -> (c < N)%nat -> (fst (place flip k N r c) < N)%nat /\ (snd (place flip k N r c) < N)%nat.
Proof. intros Hr Hc. unfold place. destruct flip, k as [|[|[|k]]]; cbn [fst snd]; lia. Qed.
Lemma place_moves flip k N r c : (k < 4)%nat -> (r < N)%nat -> (c < N)%nat ->
  moves_to (Z.of_nat N) flip k (Z.of_nat r) (Z.of_nat c) (Z.of_nat (fst (place flip k N r c))) (Z.of_nat (snd (place flip k N r c))).
Proof.
  intros Hk Hr Hc. unfold moves_to, symmetry, centred, quarter_turn, mirror_x, place. destruct k as [|[|[|[|k]]]]; try lia; destruct flip; cbn [Nat.iter nat_rect fst snd]; f_equal; lia.
Qed.
Lemma reindex flip k N F : rsum N (fun i => rsum N (fun j => F i j)) = rsum N (fun r => rsum N (fun c => F (fst (place flip k N r c)) (snd (place flip k N r c)))).
Proof.
  assert (FC : forall G, rsum N (fun i => rsum N (fun j => G i j)) = rsum N (fun i => rsum N (fun j => G i (N - 1 - j)%nat))) by (intros G; apply rsum_ext; intros i _; apply (rsum_flip N (fun j => G i j))).
  assert (FR : forall G, rsum N (fun i => rsum N (fun j => G i j)) = rsum N (fun i => rsum N (fun j => G (N - 1 - i)%nat j))) by (intros G; apply (rsum_flip N (fun i => rsum N (fun j => G i j)))).
  assert (SW : forall G, rsum N (fun i => rsum N (fun j => G i j)) = rsum N (fun i => rsum N (fun j => G j i))) by (intros G; apply rsum_swap).
  assert (D : forall i, (i < N)%nat -> (N - 1 - (N - 1 - i))%nat = i) by (intros; lia).
  destruct flip, k as [|[|[|k]]]; cbn [place fst snd].
  - apply FC.
  - rewrite (SW F). apply rsum_ext. intros r Hr. apply rsum_ext. intros c Hc. unfold place. cbn [fst snd]. now rewrite D by auto.
  - rewrite (FR F). apply rsum_ext. intros r Hr. apply rsum_ext. intros c Hc. unfold place. cbn [fst snd]. now rewrite D by auto.
  - rewrite (FR F), (FC (fun i j => F (N - 1 - i)%nat j)). apply (SW (fun i j => F (N - 1 - i)%nat (N - 1 - j)%nat)).
  - reflexivity.
  - rewrite (FR F). apply (SW (fun i j => F (N - 1 - i)%nat j)).
  - rewrite (FR F). apply (FC (fun i j => F (N - 1 - i)%nat j)).
  - rewrite (FC F). apply (SW (fun i j => F i (N - 1 - j)%nat)).
Qed.
(* one call of a new DM *)
Lemma new_core ip c s dx n sf s1 mag : g_diff c = true -> q_dm s = None -> untilted c -> samples_per_act c mag -> (1 <= cNact (q_c s))%Z -> sample_width c mag = dx -> gen_surf ip c s dx n = Ok (sf, s1) ->
  let nact := Z.to_nat (cNact (q_c s)) in let shx := IZR (wrapper_shift (g_xc c) nact mag) in let shy := IZR (wrapper_shift (g_yc c) nact mag) in
  exists sg ifn h m, sign_factor (Some (g_sign c)) = Ok sg /\ pad_cropr (rscale sg (of_rarr (i_map (g_file c)))) (wrapper_size nact mag) (wrapper_size nact mag) = Ok ifn /\ dims (wrapper_size nact mag) (wrapper_size nact mag) ifn /\
    q_dm s1 = Some m /\ q_int s1 = Some (frows ifn, fcols ifn) /\ r_proj m = None /\ holds ifn nact mag shx shy 1 (of_rarr h) (r_dm m) /\ height_map c (q_c s1) = Ok h /\ render (r_dm m) n n false = Ok (sf, (frows ifn, fcols ifn)) /\
    (1 <= n)%nat /\ cNact (q_c s1) = cNact (q_c s).
Proof.
  intros G Q U SM HN HW E nact shx shy. destruct (gen_diff _ _ _ _ _ _ _ G E) as (Hd & Hn & d & h & m & i & E1 & E2 & E3 & E4 & ->). rewrite Q in E3. pose proof (enforce_nact _ _ E1) as N1. destruct (height_dims _ _ _ E2) as [N2 N3]. rewrite N1 in E3. fold nact in E3.
  assert (DH : dims nact nact (of_rarr h)) by (split; cbn; rewrite ?N2, ?N3, N1; reflexivity). assert (HA : (1 <= nact)%nat) by (unfold nact; lia).
  destruct (plain_first c nact dx (of_rarr h) m mag U SM DH HA Hd HW E3) as (sg & ifn & ES & EP & DI & [RP _] & H). pose proof SM as (Hm & _). pose proof (C69_wrapper_fits nact mag HA Hm) as F. pose proof DI as [I1 I2].
  assert (FA : act_fit (frows ifn) nact mag) by (now rewrite I1). assert (FB : act_fit (fcols ifn) nact mag) by (now rewrite I2). assert (Hn1 : (1 <= n)%nat) by lia.
  destruct (render_11 ifn nact mag shx shy (of_rarr h) (r_dm m) false n n FA FB H Hn1 Hn1) as (s0 & sf' & _ & _ & ER & _). rewrite (rrender_flat ip m n RP), ER in E4. injection E4 as <- <-.
  exists sg, ifn, h, m. cbn [q_dm q_int q_c]. repeat (split; [now auto|]). auto.
Qed.
Lemma even_size nact mag : Nat.even (nact * mag) = true -> Nat.even (wrapper_size nact mag) = true.
Proof. intros E. unfold wrapper_size. rewrite Nat.even_add, E, Nat.even_mul. reflexivity. Qed.
(* heights without quantisation *)
Lemma heights_turned c d o flip k h : g_step c = None -> g_orient c = Some o -> In (lower o, (flip, k)) orientation_table -> height_map c d = Ok h -> (0 <= cNact d)%Z ->
  nr (g_vtoh c) = cNact d /\ nc (g_vtoh c) = cNact d /\
  forall r cc, let N := Z.to_nat (cNact d) in (r < N)%nat -> (cc < N)%nat -> fpx (of_rarr h) (fst (place flip k N r cc)) (snd (place flip k N r cc)) = fpx (of_rarr (g_vtoh c)) r cc * nth (r * N + cc) (cV d) 0.
Proof.
  intros HS HO HI E HN. unfold height_map in E. rewrite HS, HO in E. unfold amul in E. destruct (_ && _)%bool eqn:Q; [|discriminate]. apply andb_true_iff in Q. destruct Q as [Q1 Q2]. apply Z.eqb_eq in Q1, Q2. cbn [v_arr nr nc] in Q1, Q2. cbn [rbind] in E.
  split; [auto|]. split; [auto|]. intros r cc N Hr Hc. assert (ZN : Z.of_nat N = cNact d) by (unfold N; lia). assert (K : (k < 4)%nat). { cbn [In orientation_table] in HI. repeat (destruct HI as [HI|HI]; [injection HI as _ _ <-; lia|]). contradiction. }
  match type of E with orient_surf _ ?A = _ => destruct (orient_surf_ok o flip k A (cNact d) HI Q1 Q2) as (h' & E' & _ & _ & V) end. rewrite E in E'. injection E' as <-.
  destruct (place_lt flip k N r cc Hr Hc) as [L1 L2]. cbn [of_rarr fpx]. rewrite (V (Z.of_nat r) (Z.of_nat cc)); [|split; lia|split; lia|rewrite <- ZN; now apply place_moves].
  cbn [px v_arr]. f_equal. f_equal. lia.
Qed.
