(* C70: the command gradient of AD-EFC. *)
From Coquelicot Require Import Coquelicot.
From Verif Require Import Base RBase StrBase CBase PropModel PropSpec OptModel OptSpec GradModel GradSpec GradAdj GradProofs2 GradProofs3 GradProofs4 GradProofs5 OptProofs8 GradProofs7 GradProofs8 DiffModel DiffSpec DiffProofs2 DiffProofs3 DiffProofs4 DiffProps CmdModel CmdSpec CmdProofs CmdProofs2.
Open Scope R_scope.
Lemma select_both k1 k2 u1 u2 : length u1 = length (k_ele k1) -> length u2 = length (k_ele k2) -> select (both_dms k1 k2) 1 (u1 ++ u2) = Ok u1 /\ select (both_dms k1 k2) 2 (u1 ++ u2) = Ok u2.
Proof.
  intros L1 L2. unfold select, both_dms. rewrite !app_length, !map_length, L1, L2, Nat.eqb_refl.
  assert (P : forall (A : Type) (l : list A) z k u, length u = length l -> map snd (filter (fun p => Z.eqb (fst p) k) (combine (map (fun _ => z) l) u)) = if Z.eqb z k then u else [] :> list R).
  { intros A l z k. induction l as [|x l IH]; intros u L; destruct u as [|y u]; try discriminate; cbn [map combine filter fst]; [destruct (Z.eqb z k); reflexivity|]. injection L as L. specialize (IH u L). destruct (Z.eqb z k); cbn [map snd]; now rewrite IH. }
  assert (Q : forall (a b : list Z) (u v : list R), length a = length u -> combine (a ++ b) (u ++ v) = combine a u ++ combine b v).
  { induction a as [|x a IH]; intros b u v L; destruct u as [|y u]; try discriminate; [reflexivity|]. cbn [app combine]. f_equal. apply IH. now injection L. }
  rewrite Q by (rewrite map_length; auto). rewrite !filter_app, !map_app, !P by auto. cbn [Z.eqb Pos.eqb]. rewrite app_nil_r. auto.
Qed.
Lemma vdot_app a b c d : length a = length c -> vdot (a ++ b) (c ++ d) = vdot a c + vdot b d.
Proof.
  revert c. induction a as [|x a IH]; intros c L; destruct c as [|y c]; try discriminate; [unfold vdot; cbn; ring|]. unfold vdot in *. cbn [app combine map rsuml fst snd]. injection L as L. rewrite (IH c L). ring.
Qed.
Lemma vdot_scal t a c : vdot (map (fun x => x + t * x) a) c = (1 + t) * vdot a c.
Proof. revert c. induction a as [|x a IH]; intros c; [unfold vdot; cbn; ring|]. destruct c as [|y c]; [unfold vdot; cbn; ring|]. unfold vdot in *. cbn [combine map rsuml fst snd]. rewrite IH. ring. Qed.
Lemma dot2_rdot n g s : dot2 n g s = rdot n n g s. Proof. reflexivity. Qed.
(* one DM: the surface as a function of the command, and the reverse pass *)
Lemma dm_part k n : dm_ready k -> (1 <= n)%nat -> exists (D : list R -> field R) (B : field R -> list R),
  (forall u, length u = length (k_ele k) -> exists dv d S i, put (k_nact k) (k_ele k) u = Ok dv /\ surface k dv n = Ok (d, (S, i)) /\ S = dm_surf k n u /\ square n S /\ forall g, square n g -> back k d i g = Ok (B g)) /\
  (forall u, square n (D u)) /\
  (forall S0 e t, shows k n S0 -> length e = length (k_ele k) -> same_px n (dm_surf k n (map (Rmult t) e)) (along S0 (D e) t)) /\
  (forall g, square n g -> length (B g) = length (k_ele k)) /\ forall g e, square n g -> length e = length (k_ele k) -> dot2 n g (D e) = vdot (B g) e.
Proof.
  intros R Hn. destruct (dm_chain k n R Hn) as (L & B & HS & HL & HB & HT). destruct (commanded_dm k R) as (_ & _ & _ & _ & _ & _ & _ & _ & _ & _ & _ & FE & _).
  set (D := fun u => match put (k_nact k) (k_ele k) u with Ok dv => mkf n n (L (vdir k dv)) | Raise _ => zeros n n end). exists D, B.
  assert (P0 : forall u, length u = length (k_ele k) -> exists dv d S i, put (k_nact k) (k_ele k) u = Ok dv /\ surface k dv n = Ok (d, (S, i)) /\ S = dm_surf k n u /\ dims n n S /\ (forall y x, (y < n)%nat -> (x < n)%nat -> fpx S y x = L (heights k dv) y x) /\ forall g, dims n n g -> back k d i g = Ok (B g)).
  { intros u Lu. destruct (put_ok (k_nact k) (k_ele k) u FE Lu) as (dv & Ep & Dp & Vp). destruct (HS dv) as (d & S & i & ES & DS & VS & EB). exists dv, d, S, i. split; [auto|]. split; [auto|]. split; [unfold dm_surf; rewrite Ep; cbn [rbind]; now rewrite ES|]. auto. }
  split; [|split; [|split; [|split]]].
  - intros u Lu. destruct (P0 u Lu) as (dv & d & S & i & E1 & E2 & E3 & D1 & _ & EB). exists dv, d, S, i. auto 6.
  - intros u. unfold D. destruct (put _ _ u); split; reflexivity.
  - intros S0 e t (d0 & T & i0 & ET & DS0 & VS0) Le. assert (Lt : length (map (Rmult t) e) = length (k_ele k)) by now rewrite map_length. destruct (P0 _ Lt) as (dvt & d & S & i & E1 & E2 & E3 & D1 & V1 & _).
    destruct (put_ok (k_nact k) (k_ele k) e FE Le) as (dv & Ep & Dp & Vp). destruct (put_ok _ _ _ FE Lt) as (dv' & Ep' & _ & Vp'). rewrite E1 in Ep'. injection Ep' as <-.
    destruct (HS (zeros (k_nact k) (k_nact k))) as (d1 & T1 & i1 & ET1 & DT1 & VT1 & _). rewrite ET in ET1. injection ET1 as <- <- <-. rewrite <- E3. split; [exact D1|]. split; [exact DS0|]. intros y x Hy Hx. rewrite V1 by auto. unfold along. cbn [fpx]. rewrite VS0, VT1 by auto.
    unfold D. rewrite Ep. cbn [fpx]. apply HL. intros a b Ha Hb. unfold heights, vdir, zeros. cbn [fpx]. rewrite Vp', Vp, last_put_scal. destruct (last_put (k_ele k) e (a * k_nact k + b)); ring.
  - exact HB.
  - intros g e Dg Le. destruct (put_ok (k_nact k) (k_ele k) e FE Le) as (dv & Ep & _ & _). unfold D. rewrite Ep, dot2_rdot. now apply HT.
Qed.
Lemma pad_pos o : gradient_ready o -> (1 <= o_pad o)%nat. Proof. intros G. destruct (gr_wf o G). auto. Qed.

(* What the DM is told, actuator by actuator: a controlled live actuator shows its stored voltage plus its entry of the vector, a live uncontrolled one its stored
   voltage, a dead one nothing; each times its own gain. *)
Theorem C70_commanded_heights k u : NoDup (k_ele k) -> Forall (fun e => (e < k_nact k * k_nact k)%nat) (k_ele k) -> length u = length (k_ele k) ->
  exists dv, put (k_nact k) (k_ele k) u = Ok dv /\ forall i j, (i < k_nact k)%nat -> (j < k_nact k)%nat -> let h := fpx (heights k dv) i j in let a := (i * k_nact k + j)%nat in
    (fpx (k_dead k) i j = true -> h = 0) /\
    (fpx (k_dead k) i j = false -> ~ In a (k_ele k) -> h = fpx (k_vtoh k) i j * fpx (k_V k) i j) /\
    (forall p x, fpx (k_dead k) i j = false -> nth_error (k_ele k) p = Some a -> nth_error u p = Some x -> h = fpx (k_vtoh k) i j * (fpx (k_V k) i j + x)).
Proof.
  intros ND FA L. destruct (put_ok (k_nact k) (k_ele k) u FA L) as (dv & E & _ & V). exists dv. split; [exact E|]. intros i j Hi Hj h a. unfold h, heights. cbn [fpx]. unfold alive.
  assert (N : forall es us m, ~ In m es -> last_put es us m = None). { induction es as [|e es IH]; intros us m Hm; [reflexivity|]. destruct us as [|y us]; [reflexivity|]. cbn [last_put]. rewrite IH by (intros Q; apply Hm; now right). destruct (Nat.eqb_spec m e); [subst; elim Hm; now left|reflexivity]. }
  assert (Y : forall es us p m x, NoDup es -> nth_error es p = Some m -> nth_error us p = Some x -> last_put es us m = Some x).
  { induction es as [|e es IH]; intros us p m x HD Hp Hx; [destruct p; discriminate|]. inversion HD as [|? ? Hne HD']; subst. destruct us as [|y us]; [destruct p; discriminate|]. cbn [last_put]. destruct p as [|p]; cbn in Hp, Hx.
    - injection Hp as ->. injection Hx as ->. rewrite (N es us m Hne), Nat.eqb_refl. reflexivity.
    - now rewrite (IH us p m x HD' Hp Hx). }
  split; [|split].
  - intros ->. ring.
  - intros -> Hn. rewrite V. fold a. rewrite (N _ u a Hn). ring.
  - intros p x -> Hp Hx. rewrite V. fold a. rewrite (Y _ u p a x ND Hp Hx). ring.
Qed.
(* At every candidate command the vector returned is (1 + 2 utu) times the gradient, in the command, of the energy in which the sensitivity of the image is that of
   the stored command; the cost is the energy plus utu times the squared length of the command. *)
Theorem C70_gradient_at_candidate k1 k2 o M ms utu u1 u2 : dm_ready k1 -> dm_ready k2 -> gradient_ready o -> shows k1 (o_pad o) (o_surf1 o) -> shows k2 (o_pad o) (o_surf2 o) ->
  frows M = g_Neta (o_fend o) -> fcols M = g_Nxi (o_fend o) -> ms <> [] -> Forall (mode_ready M) ms -> 0 <= utu -> length u1 = length (k_ele k1) -> length u2 = length (k_ele k2) ->
  exists v, rev_command k1 k2 (both_dms k1 k2) o M ms utu (u1 ++ u2) = Ok (energy_after M ms (change o (at_command k1 k2 o u1 u2)) + utu * sumsq (u1 ++ u2), v) /\ length v = length (u1 ++ u2) /\
    forall e1 e2, length e1 = length (k_ele k1) -> length e2 = length (k_ele k2) ->
      is_derive (fun t => energy_after M ms (fun m i j => Cplus (change o (at_command k1 k2 o u1 u2) m i j) (change o (at_command k1 k2 o (map (Rmult t) e1) (map (Rmult t) e2)) m i j))) 0 (vdot v (e1 ++ e2) / (1 + 2 * utu)).
Proof.
  intros K1 K2 G W1 W2 M1 M2 Hms HF Hu L1 L2. pose proof (pad_pos o G) as Hn.
  destruct (dm_part k1 (o_pad o) K1 Hn) as (D1 & B1 & P1 & Q1 & C1 & N1 & T1). destruct (dm_part k2 (o_pad o) K2 Hn) as (D2 & B2 & P2 & Q2 & C2 & N2 & T2).
  destruct (P1 u1 L1) as (dv1 & d1 & S1 & i1 & X1 & Y1 & Z1 & SQ1 & BK1). destruct (P2 u2 L2) as (dv2 & d2 & S2 & i2 & X2 & Y2 & Z2 & SQ2 & BK2).
  destruct (select_both k1 k2 u1 u2 L1 L2) as [E1 E2]. destruct (rev_surf_gradient o M S1 S2 ms G SQ1 SQ2 M1 M2 Hms HF) as (g1 & g2 & ER & G1 & G2 & DR).
  exists (map (fun x => x + 2 * utu * x) (B1 g1 ++ B2 g2)). split; [|split].
  - unfold rev_command. rewrite E1, E2. cbn [rbind]. rewrite X1, X2. cbn [rbind]. rewrite Y1, Y2. cbn [rbind fst snd]. rewrite ER. cbn [rbind fst snd]. rewrite BK1, BK2 by auto. cbn [rbind]. unfold at_command. now rewrite <- Z1, <- Z2.
  - now rewrite map_length, !app_length, N1, N2, L1, L2 by auto.
  - intros e1 e2 Le1 Le2. rewrite vdot_scal, vdot_app by (rewrite N1; auto). rewrite <- T1, <- T2 by auto.
    replace ((1 + 2 * utu) * (dot2 (o_pad o) g1 (D1 e1) + dot2 (o_pad o) g2 (D2 e2)) / (1 + 2 * utu)) with (dot2 (o_pad o) g1 (D1 e1) + dot2 (o_pad o) g2 (D2 e2)) by (field; lra).
    eapply is_derive_ext; [|apply (DR (D1 e1) (D2 e2)); auto]. intros t. cbv beta. apply energy_ext. rewrite Forall_forall in *. intros m Hm i j Hi Hj. destruct (HF m Hm) as (Hw & HI & _).
    assert (X : image (moved o (D1 e1) (D2 e2) t) m i j = image (at_command k1 k2 o (map (Rmult t) e1) (map (Rmult t) e2)) m i j).
    { unfold moved, at_command. symmetry. apply image_cong; auto; congruence. }
    unfold change. rewrite X. unfold at_command at 2. rewrite <- Z1, <- Z2. reflexivity.
Qed.
Lemma sumsq_scal t u : sumsq (map (Rmult t) u) = t * t * sumsq u.
Proof. unfold sumsq. induction u as [|x u IH]; cbn [map rsuml]; [ring|]. rewrite IH. ring. Qed.
Lemma zero_scal (e : list R) : map (Rmult 0) e = map (fun _ => 0) e. Proof. apply map_ext. intros. ring. Qed.
(* At the stored command (no change) it is (1 + 2 utu) times the gradient of the cost that the function itself returns. *)
Theorem C70_gradient_at_stored_command k1 k2 o M ms utu : dm_ready k1 -> dm_ready k2 -> gradient_ready o -> shows k1 (o_pad o) (o_surf1 o) -> shows k2 (o_pad o) (o_surf2 o) ->
  frows M = g_Neta (o_fend o) -> fcols M = g_Nxi (o_fend o) -> ms <> [] -> Forall (mode_ready M) ms -> 0 <= utu ->
  exists c v, rev_command k1 k2 (both_dms k1 k2) o M ms utu (map (fun _ => 0) (both_dms k1 k2)) = Ok (c, v) /\ length v = length (both_dms k1 k2) /\
    forall e, length e = length (both_dms k1 k2) -> is_derive (fun t => cmd_cost (rev_command k1 k2 (both_dms k1 k2) o M ms utu (map (Rmult t) e))) 0 (vdot v e / (1 + 2 * utu)).
Proof.
  intros K1 K2 G W1 W2 M1 M2 Hms HF Hu. pose proof (pad_pos o G) as Hn. set (z1 := map (fun _ => 0) (k_ele k1)). set (z2 := map (fun _ => 0) (k_ele k2)).
  assert (Z : map (fun _ => 0) (both_dms k1 k2) = z1 ++ z2) by (unfold both_dms; rewrite map_app, !map_map; reflexivity). assert (L1 : length z1 = length (k_ele k1)) by apply map_length. assert (L2 : length z2 = length (k_ele k2)) by apply map_length.
  destruct (C70_gradient_at_candidate k1 k2 o M ms utu z1 z2 K1 K2 G W1 W2 M1 M2 Hms HF Hu L1 L2) as (v & ER & Lv & HD). rewrite Z. eexists _, v. split; [exact ER|]. split; [rewrite Lv; unfold both_dms; rewrite !app_length, !map_length; lia|].
  intros e Le. assert (exists e1 e2, e = e1 ++ e2 /\ length e1 = length (k_ele k1) /\ length e2 = length (k_ele k2)) as (e1 & e2 & -> & Le1 & Le2).
  { exists (firstn (length (k_ele k1)) e), (skipn (length (k_ele k1)) e). rewrite firstn_skipn. split; [auto|]. unfold both_dms in Le. rewrite app_length, !map_length in Le. rewrite firstn_length, skipn_length. lia. }
  assert (Z0 : forall m i j, In m ms -> (i < frows M)%nat -> (j < fcols M)%nat -> change o (at_command k1 k2 o z1 z2) m i j = RtoC 0).
  { intros m i j Hm Hi Hj. rewrite Forall_forall in HF. destruct (HF m Hm) as (Hw & HI & _). destruct (dm_part k1 (o_pad o) K1 Hn) as (D1 & _ & _ & _ & C1 & _). destruct (dm_part k2 (o_pad o) K2 Hn) as (D2 & _ & _ & _ & C2 & _).
    assert (S1 : same_px (o_pad o) (dm_surf k1 (o_pad o) z1) (o_surf1 o)). { pose proof (C1 _ z1 0 W1 L1) as (A & B & V). replace (map (Rmult 0) z1) with z1 in * by (unfold z1; rewrite map_map; apply map_ext; intros; ring). split; [auto|]. split; [exact B|]. intros y x Hy Hx. rewrite V by auto. unfold along. cbn [fpx]. ring. }
    assert (S2 : same_px (o_pad o) (dm_surf k2 (o_pad o) z2) (o_surf2 o)). { pose proof (C2 _ z2 0 W2 L2) as (A & B & V). replace (map (Rmult 0) z2) with z2 in * by (unfold z2; rewrite map_map; apply map_ext; intros; ring). split; [auto|]. split; [exact B|]. intros y x Hy Hx. rewrite V by auto. unfold along. cbn [fpx]. ring. }
    unfold change, at_command. rewrite (image_cong o m _ _ (o_surf1 o) (o_surf2 o) i j G Hw HI S1 S2) by congruence. rewrite with_self. ring. }
  specialize (HD e1 e2 Le1 Le2).
  assert (HQ : is_derive (fun t => utu * sumsq (e1 ++ e2) * (t * t)) 0 0) by (auto_derive; [auto|ring]).
  pose proof (is_derive_plus _ _ _ _ _ HD HQ) as HS. eapply is_derive_ext; [|eapply is_derive_eq; [exact HS|unfold plus; cbn; ring]]. intros t. cbv beta. match goal with |- plus ?a ?b = ?c => change ((a : R) + (b : R) = c :> R) end.
  assert (Lt1 : length (map (Rmult t) e1) = length (k_ele k1)) by now rewrite map_length. assert (Lt2 : length (map (Rmult t) e2) = length (k_ele k2)) by now rewrite map_length.
  destruct (C70_gradient_at_candidate k1 k2 o M ms utu _ _ K1 K2 G W1 W2 M1 M2 Hms HF Hu Lt1 Lt2) as (vt & ERt & _). rewrite map_app, ERt. cbn [cmd_cost]. rewrite <- map_app, sumsq_scal.
  rewrite (energy_ext M ms _ (change o (at_command k1 k2 o (map (Rmult t) e1) (map (Rmult t) e2)))).
  - ring.
  - apply Forall_forall. intros m Hm i j Hi Hj. rewrite (Z0 m i j Hm Hi Hj). apply Cplus_0_l.
Qed.
(* The regularisation enters the vector as a constant factor and nothing else: the term 2 utu u of the true gradient is missing. *)
Theorem C70_regularisation_only_rescales k1 k2 legend o M ms utu u c v : rev_command k1 k2 legend o M ms utu u = Ok (c, v) ->
  exists c0 v0, rev_command k1 k2 legend o M ms 0 u = Ok (c0, v0) /\ c = c0 + utu * sumsq u /\ v = map (Rmult (1 + 2 * utu)) v0.
Proof.
  unfold rev_command. repeat (match goal with |- rbind ?x _ = _ -> _ => destruct x as [?|?]; cbn [rbind]; [|discriminate] end). destruct (snd _) as [[g1 g2]|]; [|discriminate].
  repeat (match goal with |- rbind ?x _ = _ -> _ => destruct x as [?|?]; cbn [rbind]; [|discriminate] end). intros Q. injection Q as <- <-. eexists _, _. split; [reflexivity|]. split; [ring|]. rewrite map_map. apply map_ext. intros. ring.
Qed.
(* A DM with 2 x 2 actuators whose influence function is one sample; the fourth actuator is controlled. *)
Definition dm22 : dm_model := mkdm (delta 2 1 1) 2 2 (prepare_lattice 2 2 2 2 1 1) (make_tf (delta 2 1 1) 0 0) 1 (mkf 2 2 (fun i j => fpx (zeros 2 2) (bix 2 i) (bix 2 j))) 
  (mkf 2 2 (fun i j => match in_slice 0 2 1 i, in_slice 0 2 1 j with Some r, Some c => fpx (zeros 2 2) (bix 2 (bix 2 r)) (bix 2 (bix 2 c)) | _, _ => 0 end)).
Definition k22 : dmcmd := mkdc dm22 (zeros 2 2) (mkf 2 2 (fun _ _ => 1)) (mkf 2 2 (fun _ _ => false)) 2 [3%nat].
Lemma k22_ready : dm_ready k22.
Proof.
  exists (delta 2 1 1), 1%nat, 0, 0, [], (zeros 2 2). cbn [k22 k_nact k_dm k_V k_ele]. split; [reflexivity|]. split; [constructor|]. split; [split; reflexivity|]. split; [exact fit_222|]. split; [exact fit_222|]. split; [reflexivity|]. split; [reflexivity|]. split; [split; reflexivity|]. split; [repeat constructor; auto|]. constructor; [lia|constructor].
Qed.
Lemma k22_surface dv : exists d S i, surface k22 dv 1 = Ok (d, (S, i)) /\ square 1 S /\ fpx S 0%nat 0%nat = fpx dv 1%nat 1%nat.
Proof.
  assert (FA := fit_222). destruct (commanded_holds (delta 2 1 1) 2 1 (IZR 0) (IZR 0) 1 [] (zeros 2 2) FA FA) as (d & E & H); [constructor|split; reflexivity|]. assert (Ed : d = dm22) by (vm_compute in E; injection E as <-; reflexivity). subst d.
  destruct (update_holds (delta 2 1 1) 2 1 (IZR 0) (IZR 0) 1 (zeros 2 2) (heights k22 dv) dm22 FA FA H) as (d & Eu & Hd); [split; reflexivity|].
  destruct (render_superposed (delta 2 1 1) 2 1 0 0 (heights k22 dv) d false 1 1 FA FA Hd) as (S & i & ER & DS & V); [lia|lia|]. exists d, S, i. unfold surface. change (k_dm k22) with dm22. rewrite Eu. cbn [rbind]. rewrite ER. split; [reflexivity|]. split; [exact DS|].
  rewrite V by lia. cbv zeta. cbn [delta frows fcols].
  match goal with |- (if ?b then _ else _) = _ => change b with true end. cbv iota. unfold superposed. cbn [rsum delta frows fcols].
  repeat match goal with |- context [periodic (delta 2 1 1) ?y ?x] => first [change (periodic (delta 2 1 1) y x) with 0 | change (periodic (delta 2 1 1) y x) with 1] end.
  unfold gain, heights, alive. cbn [k22 k_V k_vtoh k_dead fpx zeros frows fcols]. ring.
Qed.
Lemma k22_at x : square 1 (dm_surf k22 1 [x]) /\ fpx (dm_surf k22 1 [x]) 0%nat 0%nat = x.
Proof.
  unfold dm_surf. destruct (put_ok (k_nact k22) (k_ele k22) [x]) as (dv & E & _ & V); [constructor; [cbn; lia|constructor]|reflexivity|]. rewrite E. cbn [rbind]. destruct (k22_surface dv) as (d & S & i & -> & Q & V2). split; [exact Q|]. rewrite V2, V. reflexivity.
Qed.
Lemma k22_shows : shows k22 1 z11.
Proof. destruct (k22_surface (zeros 2 2)) as (d & S & i & E & [Q1 Q2] & V). exists d, S, i. split; [exact E|]. split; [split; reflexivity|]. intros y x Hy Hx. replace y with 0%nat by lia. replace x with 0%nat by lia. rewrite V. reflexivity. Qed.
Lemma k22_image x y : image (at_command k22 k22 (flc11 None) [x] [y]) (m11 (0, 1)) 0 0 = Cmult (cis (4 * PI * x)) (cis (4 * PI * y)).
Proof.
  unfold at_command. change (o_pad (flc11 None)) with 1%nat. destruct (k22_at x) as [Q1 V1]. destruct (k22_at y) as [Q2 V2]. rewrite flc11_image by auto. unfold flatp. rewrite V1, V2. f_equal; f_equal; field.
Qed.
Lemma k22_image0 : image (flc11 None) (m11 (0, 1)) 0 0 = RtoC 1.
Proof. change (flc11 None) with (with_surfs (flc11 None) (k11 0) (k11 0)). rewrite flc11_image by apply sq11. unfold flatp. cbn [k11 fpx]. replace (2 * 2 * PI * 0 / 1) with 0 by field. rewrite cis_0. ring. Qed.
(* One pixel, DM1 at half a wavelength (the phase is back at zero): the cost has derivative 8 pi + utu along the command of DM1, the vector returned says (1 + 2 utu) 8 pi.
   At the stored command the derivative is 8 pi, and the vector says (1 + 2 utu) 8 pi again. *)
Theorem C70_penalty_gradient_refuted utu x : 0 <= utu -> x = 0 \/ x = 1 / 2 ->
  exists c v, rev_command k22 k22 (both_dms k22 k22) (flc11 None) M11 [m11 (0, 1)] utu [x; 0] = Ok (c, v) /\
    is_derive (fun t => cmd_cost (rev_command k22 k22 (both_dms k22 k22) (flc11 None) M11 [m11 (0, 1)] utu [x + t; 0])) 0 (8 * PI + 2 * utu * x) /\
    vdot v [1; 0] = (1 + 2 * utu) * (8 * PI).
Proof.
  intros Hu Hx. assert (HF : Forall (mode_ready M11) [m11 (0, 1)]) by (constructor; [apply m11_ready|constructor]). assert (HN : [m11 (0, 1)] <> []) by discriminate.
  assert (HC : forall y, exists v, rev_command k22 k22 (both_dms k22 k22) (flc11 None) M11 [m11 (0, 1)] utu [y; 0] = Ok (energy_after M11 [m11 (0, 1)] (change (flc11 None) (at_command k22 k22 (flc11 None) [y] [0])) + utu * sumsq [y; 0], v) /\
    forall e1 e2, length e1 = 1%nat -> length e2 = 1%nat -> is_derive (fun t => energy_after M11 [m11 (0, 1)] (fun m i j => Cplus (change (flc11 None) (at_command k22 k22 (flc11 None) [y] [0]) m i j) (change (flc11 None) (at_command k22 k22 (flc11 None) (map (Rmult t) e1) (map (Rmult t) e2)) m i j))) 0 (vdot v (e1 ++ e2) / (1 + 2 * utu))).
  { intros y. destruct (C70_gradient_at_candidate k22 k22 (flc11 None) M11 [m11 (0, 1)] utu [y] [0] k22_ready k22_ready flc11_ready k22_shows k22_shows eq_refl eq_refl HN HF Hu eq_refl eq_refl) as (v & E & _ & D). exists v. split; [exact E|]. intros; now apply D. }
  assert (EV : forall y, energy_after M11 [m11 (0, 1)] (change (flc11 None) (at_command k22 k22 (flc11 None) [y] [0])) = (cos (4 * PI * y) - 1) * (cos (4 * PI * y) - 1) + (1 + sin (4 * PI * y)) * (1 + sin (4 * PI * y))).
  { intros y. rewrite energy11. unfold change. rewrite k22_image, k22_image0, Rmult_0_r, cis_0. unfold abs2, cis. cbn. ring. }
  assert (CX : cos (4 * PI * x) = 1 /\ sin (4 * PI * x) = 0).
  { destruct Hx as [-> | ->]; [rewrite Rmult_0_r; split; [apply cos_0|apply sin_0]|]. replace (4 * PI * (1 / 2)) with (2 * PI) by field. split; [apply cos_2PI|apply sin_2PI]. }
  destruct CX as [CX SX]. destruct (HC x) as (v & E & D). eexists _, v. split; [exact E|]. split.
  - apply (is_derive_ext (fun t => (cos (4 * PI * (x + t)) - 1) * (cos (4 * PI * (x + t)) - 1) + (1 + sin (4 * PI * (x + t))) * (1 + sin (4 * PI * (x + t))) + utu * ((x + t) * (x + t)))).
    + intros t. destruct (HC (x + t)) as (vt & Et & _). rewrite Et. cbn [cmd_cost]. rewrite EV. unfold sumsq. cbn [map rsuml]. match goal with |- ?a = ?b => change (a = b :> R) end. ring.
    + auto_derive; [auto|]. rewrite !Rplus_0_r, CX, SX. ring.
  - specialize (D [1] [0] eq_refl eq_refl). assert (D8 : is_derive (fun t => energy_after M11 [m11 (0, 1)] (fun m i j => Cplus (change (flc11 None) (at_command k22 k22 (flc11 None) [x] [0]) m i j) (change (flc11 None) (at_command k22 k22 (flc11 None) (map (Rmult t) [1]) (map (Rmult t) [0])) m i j))) 0 (8 * PI)).
    { apply (is_derive_ext (fun t => (cos (4 * PI * t) - 1) * (cos (4 * PI * t) - 1) + (1 + sin (4 * PI * t)) * (1 + sin (4 * PI * t)))).
      - intros t. rewrite energy11. unfold change. cbn [map]. rewrite !k22_image, k22_image0. unfold cis. rewrite CX, SX, !Rmult_0_r, Rmult_1_r, cos_0, sin_0. unfold abs2. cbn. match goal with |- ?a = ?b => change (a = b :> R) end. ring.
      - auto_derive; [auto|]. rewrite !Rmult_0_r, cos_0, sin_0. ring. }
    pose proof (is_derive_unique _ _ _ D) as U1. pose proof (is_derive_unique _ _ _ D8) as U2. rewrite U1 in U2. change ([1] ++ [0]) with [1; 0] in U2. apply (Rmult_eq_reg_r (/ (1 + 2 * utu))); [|apply Rinv_neq_0_compat; lra]. unfold Rdiv in U2. rewrite U2. field. lra.
Qed.
Example C70_example : dm_ready k22 /\ gradient_ready (flc11 None) /\ shows k22 (o_pad (flc11 None)) (o_surf1 (flc11 None)) /\ Forall (mode_ready M11) [m11 (0, 1)].
Proof. split; [exact k22_ready|]. split; [exact flc11_ready|]. split; [exact k22_shows|]. constructor; [apply m11_ready|constructor]. Qed.
