(* C86: PROPER's save-state system *)
From Verif Require Import Base RBase StrBase CBase PropModel PrpModel SavModel SavProofs.
From Flocq Require Core.Raux.
Open Scope R_scope.
(* the first call for a wavelength writes the wavefront to a file of its own name *)
Theorem C86_saves g w : g_on g = true -> ~ In (w_lam w) (g_lams g) -> dlookup (state_name g (w_lam w)) (g_dir g) <> Some Subdir ->
  exists g', prop_state w g = (Ok w, g') /\ dlookup (state_name g (w_lam w)) (g_dir g') = Some (Saved (g_total g) w) /\
    (forall s, s <> state_name g (w_lam w) -> dlookup s (g_dir g') = dlookup s (g_dir g)) /\
    prop_is_statesaved g' w = true /\ g_file g' = g_file g /\ g_n g' = g_n g /\ g_total g' = g_total g.
Proof.
  intros O N D. destruct (state_cases g w) as [(O' & _)|[(_ & _ & D' & _)|[(_ & _ & _ & E)|(_ & I & _)]]]; try congruence; try contradiction. eexists. split; [exact E|]. cbn [g_dir g_file g_n g_total]. rewrite lookup_write, String.eqb_refl. split; auto. split.
  - intros s H. rewrite lookup_write. destruct (String.eqb_spec s (state_name g (w_lam w))); congruence.
  - split; auto. apply saved_iff. cbn [g_lams]. apply in_or_app. right. left. auto.
Qed.
(* whatever the program did, a second call for a saved wavelength raises and leaves the grid size 0: no state is ever restored *)
Theorem C86_never_resumes d l w : let g := run (imported d) l in g_on g = true -> prop_is_statesaved g w = true ->
  exists g', prop_state w g = (Raise ValueError, g') /\ g_n g' = 0%nat /\ g_dir g' = g_dir g /\ g_lams g' = g_lams g.
Proof.
  intros g O S. apply saved_iff in S. assert (So : sound g) by (apply sound_run; intros q []). destruct (So _ S) as (t & w0 & D).
  destruct (state_cases g w) as [(O' & _)|[(_ & N & _ & _)|[(_ & N & _)|(_ & I & x & t' & E & X)]]]; try congruence; try contradiction. rewrite (X _ _ D) in E. eexists. split; [exact E|]. auto.
Qed.
(* a call that returns leaves the caller's wavefront as it was *)
Theorem C86_wavefront_unchanged g w w' g' : prop_state w g = (Ok w', g') -> w' = w.
Proof. intros H. destruct (state_cases g w) as [(_ & E)|[(_ & _ & _ & E)|[(_ & _ & _ & E)|(_ & _ & x & t & E & _)]]]; congruence. Qed.
(* in a program without subdirectories, the second of two calls with the same wavelength raises unless the system was started anew or ended in between *)
Lemma lams_grow l : forall g x, ~ In End l -> (forall k, ~ In (Init k) l) -> In x (g_lams g) -> In x (g_lams (run g l)).
Proof.
  induction l as [|c l IH]; intros g x E I H; cbn [run fold_left]; auto. apply IH; [intros X; apply E; right; auto|intros k X; apply (I k); right; auto|].
  destruct c as [k|w| |t n]; cbn [step]; auto.
  - exfalso. apply (I k). left. auto.
  - destruct (state_cases g w) as [(_ & ->)|[(_ & _ & _ & ->)|[(_ & _ & _ & ->)|(_ & _ & q & t & -> & _)]]]; cbn [snd g_lams]; auto. apply in_or_app. auto.
  - exfalso. apply E. left. auto.
Qed.
Lemma on_stays l : forall g, ~ In End l -> g_on g = true -> g_on (run g l) = true.
Proof.
  induction l as [|c l IH]; intros g E H; cbn [run fold_left]; auto. apply IH; [intros X; apply E; right; auto|].
  destruct c as [k|w| |t n]; cbn [step]; auto.
  - destruct (state_cases g w) as [(_ & ->)|[(_ & _ & _ & ->)|[(_ & _ & _ & ->)|(_ & _ & q & t & -> & _)]]]; cbn [snd g_on]; auto.
  - exfalso. apply E. left. auto.
Qed.
Theorem C86_second_call_fails d before w between w' r g1 : let g := run (imported d) before in g_on g = true -> ~ In End between -> (forall k, ~ In (Init k) between) -> w_lam w' = w_lam w ->
  prop_state w g = (Ok r, g1) -> exists g2, prop_state w' (run g1 between) = (Raise ValueError, g2) /\ g_n g2 = 0%nat.
Proof.
  intros g O E I L P. assert (G : g1 = step g (State w)) by (cbn [step]; now rewrite P).
  assert (X : In (w_lam w') (g_lams g1)).
  { rewrite L. destruct (state_cases g w) as [(O' & _)|[(_ & N & _ & Q)|[(_ & N & _ & Q)|(_ & _ & x & t & Q & _)]]]; try congruence. rewrite Q in P. injection P as _ <-. cbn [g_lams]. apply in_or_app. right. left. auto. }
  assert (O1 : g_on g1 = true). { destruct (state_cases g w) as [(O' & _)|[(_ & N & _ & Q)|[(_ & N & _ & Q)|(_ & _ & x & t & Q & _)]]]; try congruence. rewrite Q in P. injection P as _ <-. auto. }
  assert (R : run g1 between = run (imported d) (before ++ [State w] ++ between)) by (rewrite !run_app; fold g; rewrite G; reflexivity).
  destruct (C86_never_resumes d (before ++ [State w] ++ between) w') as (g2 & Q & N & _); [rewrite <- R; now apply on_stays|rewrite <- R; apply saved_iff; now apply lams_grow|]. rewrite <- R in Q. eauto.
Qed.
(* the file of a wavelength is that of every wavelength with the same whole number of femtometres *)
Theorem C86_file_names g l1 l2 : state_name g l1 = state_name g l2 <-> Core.Raux.Ztrunc (l1 * 10 ^ 15) = Core.Raux.Ztrunc (l2 * 10 ^ 15).
Proof. unfold state_name. split; [intros H; apply app_inj_r in H; now apply show_inj|now intros ->]. Qed.
(* so that the state of one wavelength is lost when another is saved, although both count as saved *)
Theorem C86_overwritten g w1 w2 : g_on g = true -> g_lams g = [] -> dlookup (state_name g (w_lam w1)) (g_dir g) <> Some Subdir ->
  w_lam w1 <> w_lam w2 -> Core.Raux.Ztrunc (w_lam w1 * 10 ^ 15) = Core.Raux.Ztrunc (w_lam w2 * 10 ^ 15) ->
  let g' := run g [State w1; State w2] in prop_is_statesaved g' w1 = true /\ dlookup (state_name g (w_lam w1)) (g_dir g') = Some (Saved (g_total g) w2).
Proof.
  intros O L D N E g'. destruct (C86_saves g w1) as (g1 & P & D1 & _ & S1 & F1 & _ & T1); auto; [rewrite L; auto|].
  assert (G1 : step g (State w1) = g1) by (cbn [step]; now rewrite P). assert (NM : state_name g1 (w_lam w2) = state_name g (w_lam w1)) by (unfold state_name; now rewrite F1, E).
  assert (L1 : g_lams g1 = [w_lam w1]). { destruct (state_cases g w1) as [(O' & _)|[(_ & _ & D' & _)|[(_ & _ & _ & Q)|(_ & I & _)]]]; try congruence; [rewrite Q in P; injection P as <-; cbn [g_lams]; now rewrite L|rewrite L in I; destruct I]. }
  assert (O1 : g_on g1 = true). { destruct (state_cases g w1) as [(O' & _)|[(_ & _ & D' & _)|[(_ & _ & _ & Q)|(_ & I & _)]]]; try congruence; [rewrite Q in P; injection P as <-; auto|rewrite L in I; destruct I]. }
  destruct (C86_saves g1 w2) as (g2 & P2 & D2 & _ & S2 & _ & _ & _); auto; [rewrite L1; intros [X|[]]; congruence|rewrite NM, D1; discriminate|].
  assert (R : g' = g2) by (unfold g', run; cbn [fold_left]; rewrite G1; cbn [step]; now rewrite P2). rewrite R. rewrite NM, T1 in D2. split; auto. apply saved_iff.
  destruct (state_cases g1 w2) as [(O' & _)|[(_ & _ & D' & _)|[(_ & _ & _ & Q)|(_ & I & _)]]]; try congruence; [|rewrite L1 in I; destruct I as [X|[]]; congruence].
  rewrite Q in P2. injection P2 as <-. cbn [g_lams]. rewrite L1. left. auto.
Qed.
(* once the system was initialised, no file whose name ends in .npz is ever deleted, in particular no state file *)
Definition named (g : glob) : Prop := exists p, g_file g = (p ++ "_prop_savestate")%string.
Lemma named_step g c : named g -> named (step g c).
Proof.
  intros N. destruct c as [k|w| |t n]; cbn [step]; auto.
  - exists ("_" ++ DecimalString.NilEmpty.string_of_uint (Nat.to_uint k))%string. unfold prop_init_savestate. cbn [g_file]. now rewrite app_assoc_s.
  - destruct (state_cases g w) as [(_ & ->)|[(_ & _ & _ & ->)|[(_ & _ & _ & ->)|(_ & _ & q & t & -> & _)]]]; auto.
  - unfold prop_end_savestate. destruct (remove_all (g_file g) (g_dir g)); auto.
Qed.
Lemma npz_not_globbed p q : globbed (p ++ "_prop_savestate") (q ++ ".npz") = false.
Proof.
  unfold globbed. destruct (ends_with (q ++ ".npz") (p ++ "_prop_savestate")) eqn:E; auto. exfalso. apply ends_iff in E. destruct E as (r & E).
  assert (A : forall x, (x ++ ".npz")%string = ((x ++ ".np") ++ String "z" "")%string) by (intros; now rewrite app_assoc_s). assert (B : forall x, (x ++ "_prop_savestate")%string = ((x ++ "_prop_savestat") ++ String "e" "")%string) by (intros; now rewrite app_assoc_s).
  rewrite A, <- app_assoc_s, B in E. apply last_char in E. discriminate.
Qed.
Lemma kept_step g c q : named g -> dlookup (q ++ ".npz") (g_dir g) <> None -> dlookup (q ++ ".npz") (g_dir (step g c)) <> None.
Proof.
  intros (p & N) H. destruct c as [k|w| |t n]; cbn [step]; auto.
  - destruct (state_cases g w) as [(_ & ->)|[(_ & _ & _ & ->)|[(_ & _ & _ & ->)|(_ & _ & x & t & -> & _)]]]; cbn [snd g_dir]; auto. rewrite lookup_write. destruct (String.eqb _ _); auto. discriminate.
  - unfold prop_end_savestate. pose proof (remove_keeps (g_file g) (g_dir g) (q ++ ".npz")) as K. rewrite N in *. destruct (remove_all _ (g_dir g)) as (x & d'). cbn [snd g_dir] in *. rewrite K; auto. apply npz_not_globbed.
Qed.
Theorem C86_files_never_deleted g k l1 l2 q : let g1 := run (prop_init_savestate k g) l1 in dlookup (q ++ ".npz") (g_dir g1) <> None -> dlookup (q ++ ".npz") (g_dir (run g1 l2)) <> None.
Proof.
  intros g1. assert (N : named g1). { unfold g1. clear. assert (N0 : named (prop_init_savestate k g)) by (exists ("_" ++ DecimalString.NilEmpty.string_of_uint (Nat.to_uint k))%string; unfold prop_init_savestate; cbn [g_file]; now rewrite app_assoc_s). revert N0. generalize (prop_init_savestate k g). induction l1 as [|c l IH]; intros g0 N0; cbn [run fold_left]; auto. apply IH. now apply named_step. }
  generalize dependent g1. intros g1. induction l2 as [|c l IH] in g1 |- *; intros N H; cbn [run fold_left]; auto. apply IH; [now apply named_step|now apply kept_step].
Qed.
(* ended before it was initialised, the system deletes every file of the directory that does not start with a dot *)
Theorem C86_end_before_init d l : (forall s, In (s, Subdir) d -> prefix "." s = true) -> (forall c, In c l -> exists t n, c = Elsewhere t n) ->
  let g := run (imported d) l in fst (prop_end_savestate g) = Ok tt /\ forall s f, In (s, f) (g_dir (snd (prop_end_savestate g))) <-> In (s, f) d /\ prefix "." s = true.
Proof.
  intros H L g. assert (E : g_file g = ""%string /\ g_dir g = d).
  { unfold g. revert L. generalize (imported d) (conj (eq_refl : g_file (imported d) = ""%string) (eq_refl : g_dir (imported d) = d)). induction l as [|c l IH]; intros g0 K L; cbn [run fold_left]; auto. apply IH; [|intros; apply L; right; auto]. destruct (L c (or_introl eq_refl)) as (t & n & ->). exact K. }
  destruct E as (E1 & E2). unfold prop_end_savestate. rewrite E1, E2.
  assert (Gl : forall s, globbed "" s = negb (prefix "." s)). { intros s. unfold globbed. assert (X : ends_with s "" = true) by (apply ends_iff; exists s; now rewrite app_nil_s). now rewrite X. }
  destruct (remove_clears "" d) as (A & B); [intros s I; rewrite Gl; now rewrite (H s I)|]. destruct (remove_all "" d) as (x & d'). cbn [fst snd g_dir] in *. split; auto. intros s f. rewrite B, Gl. now rewrite Bool.negb_false_iff.
Qed.
(* ended: no call writes or reads until the next initialisation *)
Theorem C86_off_after_end g l w : (forall k, ~ In (Init k) l) -> let g1 := run (snd (prop_end_savestate g)) l in prop_state w g1 = (Ok w, g1).
Proof.
  intros I g1. assert (O : g_on g1 = false).
  { unfold g1. assert (O0 : g_on (snd (prop_end_savestate g)) = false) by (unfold prop_end_savestate; destruct (remove_all _ _); reflexivity). revert O0. generalize (snd (prop_end_savestate g)). revert I. clear. induction l as [|c l IH]; intros I g0 O0; cbn [run fold_left]; auto. apply IH; [intros k X; apply (I k); right; auto|].
    destruct c as [k|w| |t n]; cbn [step]; auto; [exfalso; apply (I k); left; auto| |unfold prop_end_savestate; destruct (remove_all _ _); reflexivity]. destruct (state_cases g0 w) as [(_ & ->)|[(O & _)|[(O & _)|(O & _)]]]; auto; congruence. }
  destruct (state_cases g1 w) as [(_ & ->)|[(Z & _)|[(Z & _)|(Z & _)]]]; auto; congruence.
Qed.
(* Example: start, save, come back, end, in a directory with one file *)
Theorem C86_example w : let d := [("notes.txt"%string, OtherFile)] in let g := run (imported d) [Init 7; State w] in
  g_on g = true /\ prop_is_statesaved g w = true /\ g_dir g = [("notes.txt"%string, OtherFile); (state_name g (w_lam w), Saved 0 w)] /\
  fst (prop_state w g) = Raise ValueError /\ dlookup (state_name g (w_lam w)) (g_dir (run g [End])) <> None /\ g_dir (run (imported d) [End]) = [].
Proof.
  intros d g. set (g0 := prop_init_savestate 7 (imported d)).
  assert (NM : String.eqb (state_name g0 (w_lam w)) "notes.txt" = false).
  { apply String.eqb_neq. intros X. unfold state_name in X. assert (E : ends_with "notes.txt" ".npz" = true) by (apply ends_iff; exists (show_Z (Core.Raux.Ztrunc (w_lam w * 10 ^ 15)) ++ g_file g0)%string; now rewrite app_assoc_s). vm_compute in E. discriminate. }
  assert (D0 : dlookup (state_name g0 (w_lam w)) (g_dir g0) = None) by (change (g_dir g0) with d; cbn [dlookup d]; now rewrite NM).
  destruct (C86_saves g0 w) as (g1 & P & D1 & D2 & S & F & N & T); [reflexivity|intros []|rewrite D0; discriminate|].
  assert (G : g = g1) by (unfold g, run; cbn [fold_left step]; fold g0; now rewrite P).
  destruct (state_cases g0 w) as [(O & _)|[(_ & _ & X & _)|[(_ & _ & _ & Q)|(_ & [] & _)]]]; try (exfalso; congruence); [discriminate O|]. rewrite P in Q. injection Q as Q.
  assert (NE : state_name g1 (w_lam w) = state_name g0 (w_lam w)) by (unfold state_name; now rewrite F).
  rewrite G. split; [now rewrite Q|]. split; auto. split.
  { rewrite NE, Q. cbn [g_dir]. change (g_dir g0) with d. cbn [dwrite d]. rewrite NM. reflexivity. }
  split. { destruct (C86_never_resumes d [Init 7; State w] w) as (g2 & E & _); [fold g; rewrite G, Q; auto|fold g; rewrite G; auto|]. fold g in E. rewrite G in E. now rewrite E. }
  split; [|reflexivity]. pose proof (C86_files_never_deleted (imported d) 7 [State w] [End] (show_Z (Core.Raux.Ztrunc (w_lam w * 10 ^ 15)) ++ g_file g0)%string) as K. cbv zeta in K. rewrite app_assoc_s in K. fold (state_name g0 (w_lam w)) in K. assert (R : run (prop_init_savestate 7 (imported d)) [State w] = g1) by (rewrite <- G; reflexivity). rewrite R, NE in *. apply K. rewrite D1. discriminate.
Qed.
