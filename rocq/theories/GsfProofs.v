(* Proofs for C97: what the DM object remembers *)
From Verif Require Import Base StrBase RBase CtrlModel UtilModel UtilSpec UtilProofs DmModel DmSpec DmSurfModel DmSurfSpec DmSurfProofs DmProofs CubModel DmcModel CBase PropModel OptModel DiffModel DiffSpec RotModel GsfModel.
From Coq Require Import FunctionalExtensionality.
Open Scope R_scope.

Lemma update_twice d a d1 b : dm_update d a = Ok d1 -> dm_update d1 b = dm_update d b.
Proof.
  unfold dm_update. destruct (bcast_to a _ _) as [act|] eqn:EA; cbn [rbind]; [|discriminate]. destruct (scatter_lat (d_lat d) (d_poke d) act) as [pk|] eqn:EP; cbn [rbind]; [|discriminate].
  intros Q; injection Q as <-. cbn [d_act d_lat d_poke d_ifn d_nactx d_nacty d_tf d_up].
  assert (frows act = frows (d_act d) /\ fcols act = fcols (d_act d)) as [-> ->]. { unfold bcast_to in EA. destruct (_ && _)%bool; [|discriminate]. injection EA as <-. split; reflexivity. }
  destruct (bcast_to b _ _) as [ac2|]; cbn [rbind]; [|reflexivity]. unfold scatter_lat in *. destruct (bcast_to act _ _) as [B1|]; cbn [rbind] in EP; [|discriminate]. injection EP as <-. cbn [frows fcols fpx].
  destruct (bcast_to ac2 _ _) as [B2|]; cbn [rbind]; [|reflexivity]. f_equal. f_equal. f_equal. extensionality i. extensionality j.
  destruct (in_slice (lt_y0 (d_lat d)) _ _ i); [|reflexivity]. destruct (in_slice (lt_x0 (d_lat d)) _ _ j); reflexivity.
Qed.
Lemma rupdate_twice d a d1 b : rdm_update d a = Ok d1 -> rdm_update d1 b = rdm_update d b.
Proof.
  unfold rdm_update. destruct (dm_update (r_dm d) a) as [m|] eqn:E; cbn [rbind]; [|discriminate]. intros Q; injection Q as <-. cbn [r_dm r_rot r_proj]. now rewrite (update_twice _ _ _ b E).
Qed.
Lemma wrapper_twice c n dx h h' m : wrapper c n dx h = Ok m -> fcols h' = fcols h -> wrapper c n dx h' = rdm_update m h'.
Proof.
  unfold wrapper. intros E Hc. destruct (sign_factor _) as [sg|]; cbn [rbind] in *; [|discriminate]. destruct (Rlt_dec _ _); [discriminate|]. destruct (Req_EM_T _ 0); [discriminate|].
  cbv zeta in E |- *. rewrite Hc. destruct (pad_cropr _ _ _) as [p|]; cbn [rbind] in *; [|discriminate]. destruct (rdm_init _ _ _ _ _ _ _ _ _ _) as [d|]; cbn [rbind] in *; [|discriminate]. symmetry. eapply rupdate_twice. exact E.
Qed.

(* ---- heights ---- *)
Lemma orient_dims o (H H' : arr R) N : orient_surf o H = Ok H' -> nr H = N -> nc H = N -> nr H' = N /\ nc H' = N.
Proof.
  unfold orient_surf. intros E A B. destruct o as [o|]; [|injection E as <-; auto].
  repeat match type of E with (if ?x then _ else _) = _ => destruct x end; try discriminate; injection E as <-; cbn; auto.
Qed.
Lemma height_dims c d h : height_map c d = Ok h -> nr h = cNact d /\ nc h = cNact d.
Proof.
  unfold height_map. intros E. match type of E with rbind ?x _ = _ => destruct x as [h0|] eqn:E0; cbn [rbind] in E; [|discriminate] end.
  eapply orient_dims; [exact E| |]; clear E.
  all: destruct (g_step c) as [hs|];
    [destruct (_ && _)%bool eqn:Q; [|discriminate]; apply andb_true_iff in Q; destruct Q as [Q1 Q2]; apply Z.eqb_eq in Q1, Q2; destruct (discretize_surf _ _ _ _) as [q|]; cbn [rbind] in E0; [|discriminate]; unfold amul in E0; destruct (_ && _)%bool; [|discriminate]; injection E0 as <-; assumption
    |unfold amul in E0; destruct (_ && _)%bool eqn:Q; [|discriminate]; apply andb_true_iff in Q; destruct Q as [Q1 Q2]; apply Z.eqb_eq in Q1, Q2; cbn [v_arr nr nc] in Q1, Q2; injection E0 as <-; assumption].
Qed.
(* height_map reads the command and the size only *)
Lemma height_same c d d' : cV d = cV d' -> cNact d = cNact d' -> height_map c d = height_map c d'.
Proof. intros E1 E2. unfold height_map, v_arr. now rewrite E1, E2. Qed.
Lemma enforce_nact (d d' : dmr) : enforce d = Ok d' -> cNact d' = cNact d.
Proof.
  unfold enforce, enforce_constraints. intros E.
  repeat match type of E with rbind ?x _ = _ => destruct x; cbn [rbind] in E; [|discriminate] end. injection E as <-. reflexivity.
Qed.
Lemma rltb_eq : rltb = Rltb. Proof. reflexivity. Qed.

Lemma of_cols h : fcols (of_rarr h) = Z.to_nat (nc h). Proof. reflexivity. Qed.
(* one call, unfolded *)
Lemma gen_diff ip c s dx n sf s' : g_diff c = true -> gen_surf ip c s dx n = Ok (sf, s') ->
  0 < dx /\ n <> 0%nat /\ exists d h m i, enforce (q_c s) = Ok d /\ height_map c d = Ok h /\
    (match q_dm s with None => wrapper c (Z.to_nat (cNact d)) dx (of_rarr h) | Some m0 => rdm_update m0 (of_rarr h) end) = Ok m /\
    rrender ip m n n false = Ok (sf, i) /\ s' = mkgs d (Some m) (Some i).
Proof.
  unfold gen_surf. intros G E. destruct (Rlt_dec 0 dx) as [Hd|]; [|discriminate]. destruct (Nat.eqb_spec n 0) as [|Hn]; [discriminate|]. split; [auto|]. split; [auto|].
  change (enforce_constraints R 0 Rplus rltb (q_c s)) with (enforce (q_c s)) in E. destruct (enforce (q_c s)) as [d|] eqn:E1; cbn [rbind] in E; [|discriminate].
  destruct (height_map c d) as [h|] eqn:E2; cbn [rbind] in E; [|discriminate]. rewrite G in E.
  match type of E with rbind ?x _ = _ => destruct x as [m|] eqn:E3; cbn [rbind] in E; [|discriminate] end.
  destruct (rrender ip m n n false) as [[r i]|] eqn:E4; cbn [rbind] in E; [|discriminate]. cbn [fst snd] in E. injection E as <- <-. exists d, h, m, i. auto.
Qed.
Lemma gen_diff_eq ip c s dx n : g_diff c = true -> 0 < dx -> gen_surf ip c s dx n =
  if Nat.eqb n 0 then Raise TypeError else do d <- enforce (q_c s); do h <- height_map c d;
    do m <- (match q_dm s with None => wrapper c (Z.to_nat (cNact d)) dx (of_rarr h) | Some m0 => rdm_update m0 (of_rarr h) end);
    do r <- rrender ip m n n false; Ok (fst r, mkgs d (Some m) (Some (snd r))).
Proof. intros G Hd. unfold gen_surf. destruct (Rlt_dec 0 dx); [|contradiction]. rewrite G. reflexivity. Qed.

(* a model that behaves as a new one made at dx0 *)
Definition made_at (c : gcfg) (dx0 : R) (N : Z) (m : rdm) : Prop := forall h, fcols h = Z.to_nat N -> rdm_update m h = wrapper c (Z.to_nat N) dx0 h.
Lemma made_first c dx0 N h m : wrapper c (Z.to_nat N) dx0 h = Ok m -> fcols h = Z.to_nat N -> made_at c dx0 N m.
Proof. intros E Hc h' Hc'. symmetry. eapply wrapper_twice; [exact E|congruence]. Qed.
Lemma made_next c dx0 N m h m' : made_at c dx0 N m -> rdm_update m h = Ok m' -> made_at c dx0 N m'.
Proof. intros H E h' Hc. rewrite (rupdate_twice _ _ _ h' E). auto. Qed.
Lemma first_made ip c s dx n sf s' : g_diff c = true -> q_dm s = None -> gen_surf ip c s dx n = Ok (sf, s') ->
  cNact (q_c s') = cNact (q_c s) /\ exists m, q_dm s' = Some m /\ made_at c dx (cNact (q_c s)) m.
Proof.
  intros G Q E. destruct (gen_diff _ _ _ _ _ _ _ G E) as (_ & _ & d & h & m & i & E1 & E2 & E3 & _ & ->). rewrite Q in E3. pose proof (enforce_nact _ _ E1) as N1. destruct (height_dims _ _ _ E2) as [_ N2].
  cbn [q_c q_dm]. split; [auto|]. exists m. split; [auto|]. rewrite N1 in E3. eapply made_first; [exact E3|]. rewrite of_cols, N2, N1. reflexivity.
Qed.
Lemma later_made ip c s dx n sf s' dx0 m0 : g_diff c = true -> q_dm s = Some m0 -> made_at c dx0 (cNact (q_c s)) m0 -> gen_surf ip c s dx n = Ok (sf, s') ->
  cNact (q_c s') = cNact (q_c s) /\ exists m, q_dm s' = Some m /\ made_at c dx0 (cNact (q_c s)) m.
Proof.
  intros G Q M E. destruct (gen_diff _ _ _ _ _ _ _ G E) as (_ & _ & d & h & m & i & E1 & E2 & E3 & _ & ->). rewrite Q in E3. pose proof (enforce_nact _ _ E1) as N1.
  cbn [q_c q_dm]. split; [auto|]. exists m. split; [auto|]. eapply made_next; eauto.
Qed.
Lemma renders_made ip c dx0 l : forall s m0 s', g_diff c = true -> q_dm s = Some m0 -> made_at c dx0 (cNact (q_c s)) m0 -> renders ip c s l = Ok s' ->
  cNact (q_c s') = cNact (q_c s) /\ exists m, q_dm s' = Some m /\ made_at c dx0 (cNact (q_c s)) m.
Proof.
  induction l as [|[[v dx] n] l IH]; intros s m0 s' G Q M E; cbn [renders] in E; [injection E as <-; eauto|].
  destruct (gen_surf ip c (command s v) dx n) as [[sf s1]|] eqn:E1; cbn [rbind] in E; [|discriminate]. cbn [snd] in E.
  destruct (later_made ip c (command s v) dx n sf s1 dx0 m0 G Q M E1) as (N1 & m1 & Q1 & M1). cbn [command q_c set_cV cNact] in N1, M1. rewrite <- N1 in M1.
  destruct (IH s1 m1 s' G Q1 M1 E) as (N2 & m2 & Q2 & M2). rewrite N1 in N2, M2. split; [auto|]. eauto.
Qed.
(* with such a model a call returns what a new DM would return at dx0 *)
Lemma as_new ip c s dx dx0 n m0 : g_diff c = true -> 0 < dx -> 0 < dx0 -> q_dm s = Some m0 -> made_at c dx0 (cNact (q_c s)) m0 ->
  gen_surf ip c s dx n = gen_surf ip c (mkgs (q_c s) None None) dx0 n.
Proof.
  intros G H1 H2 Q M. rewrite !gen_diff_eq by auto. cbn [q_c q_dm]. rewrite Q. destruct (Nat.eqb n 0); [reflexivity|]. destruct (enforce (q_c s)) as [d|] eqn:E; cbn [rbind]; [|reflexivity].
  destruct (height_map c d) as [h|] eqn:E2; cbn [rbind]; [|reflexivity]. pose proof (enforce_nact _ _ E) as N. destruct (height_dims _ _ _ E2) as [_ N2]. rewrite M by (rewrite of_cols, N2, N; reflexivity). now rewrite N.
Qed.
