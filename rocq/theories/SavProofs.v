(* Proofs for C86 *)
From Coq Require Import DecimalString DecimalZ.
From Verif Require Import Base RBase StrBase CBase PropModel PrpModel SavModel.
Open Scope R_scope.
Lemma app_len (a b : string) : String.length (a ++ b) = (String.length a + String.length b)%nat.
Proof. induction a; cbn; auto. Qed.
Lemma app_nil_s (a : string) : (a ++ "")%string = a. Proof. induction a; cbn; congruence. Qed.
Lemma app_assoc_s (a b c : string) : ((a ++ b) ++ c)%string = (a ++ b ++ c)%string. Proof. induction a; cbn; congruence. Qed.
Lemma sub_all (s : string) : substring 0 (String.length s) s = s. Proof. induction s; cbn; congruence. Qed.
Lemma sub_app (p e : string) : substring (String.length p) (String.length e) (p ++ e) = e.
Proof. induction p; cbn; auto. apply sub_all. Qed.
Lemma split_at (s : string) : forall n, (n <= String.length s)%nat -> exists p q, s = (p ++ q)%string /\ String.length p = n.
Proof.
  induction s as [|c s IH]; cbn; intros n L; [exists ""%string, ""%string; split; auto; cbn; lia|]. destruct n as [|n]; [exists ""%string, (String c s); auto|]. destruct (IH n) as (p & q & -> & E); [lia|]. exists (String c p), q. cbn. auto.
Qed.
Lemma ends_iff s e : ends_with s e = true <-> exists p, s = (p ++ e)%string.
Proof.
  unfold ends_with. split.
  - intros H. apply andb_prop in H. destruct H as (L & E). apply Nat.leb_le in L. apply String.eqb_eq in E. destruct (split_at s (String.length s - String.length e)) as (p & q & -> & P); [lia|]. exists p. f_equal.
    rewrite app_len in *. assert (Q : String.length q = String.length e) by lia. rewrite <- Q in E. replace (String.length p + String.length q - String.length q)%nat with (String.length p) in E by lia. now rewrite sub_app in E.
  - intros (p & ->). rewrite app_len. apply andb_true_intro. split; [apply Nat.leb_le; lia|]. replace (String.length p + String.length e - String.length e)%nat with (String.length p) by lia. rewrite sub_app. apply String.eqb_refl.
Qed.
Lemma app_inj_r (a b c : string) : (a ++ c = b ++ c)%string -> a = b.
Proof.
  revert b. induction a as [|x a IH]; intros [|y b] H; cbn in *; auto.
  - apply (f_equal String.length) in H. rewrite ?app_len in H. cbn in H. rewrite app_len in H. lia.
  - apply (f_equal String.length) in H. cbn in H. rewrite app_len in H. lia.
  - injection H as -> H. f_equal. now apply IH.
Qed.
Lemma show_inj a b : show_Z a = show_Z b -> a = b.
Proof.
  unfold show_Z. intros H. apply (f_equal NilEmpty.int_of_string) in H. rewrite !NilEmpty.isi in H. injection H as H. apply (f_equal Z.of_int) in H. now rewrite !DecimalZ.of_to in H.
Qed.
(* two names that end differently *)
Lemma last_char (p q : string) c d : (p ++ String c "" = q ++ String d "")%string -> c = d.
Proof.
  revert q. induction p as [|x p IH]; intros [|y q] H; cbn in H.
  - congruence.
  - exfalso. apply (f_equal String.length) in H. cbn in H. rewrite app_len in H. cbn in H. lia.
  - exfalso. apply (f_equal String.length) in H. cbn in H. rewrite app_len in H. cbn in H. lia.
  - injection H as _ H. eauto.
Qed.
(* directories *)
Lemma lookup_write s e d t : dlookup t (dwrite s e d) = if String.eqb t s then Some e else dlookup t d.
Proof.
  induction d as [|(n, f) d IH]; cbn [dwrite dlookup].
  - cbn. destruct (String.eqb t s); auto.
  - destruct (String.eqb_spec s n) as [->|N]; cbn [dlookup].
    + destruct (String.eqb t n); auto.
    + rewrite IH. destruct (String.eqb_spec t n) as [->|M]; auto. destruct (String.eqb_spec n s); congruence.
Qed.
Lemma remove_keeps e d s : globbed e s = false -> dlookup s (snd (remove_all e d)) = dlookup s d.
Proof.
  intros G. induction d as [|(n, f) d IH]; cbn [remove_all]; auto. destruct (globbed e n) eqn:B.
  - destruct (String.eqb_spec s n) as [->|N]; [congruence|]. assert (X : dlookup s ((n, f) :: d) = dlookup s d) by (cbn; destruct (String.eqb_spec s n); congruence).
    destruct f; auto; now rewrite IH, X.
  - destruct (remove_all e d) as (x & r) eqn:R. cbn [snd dlookup] in *. now rewrite IH.
Qed.
Lemma remove_clears e d : (forall s, In (s, Subdir) d -> globbed e s = false) -> fst (remove_all e d) = Ok tt /\ forall s f, In (s, f) (snd (remove_all e d)) <-> In (s, f) d /\ globbed e s = false.
Proof.
  induction d as [|(n, f) d IH]; cbn [remove_all]; intros H; [cbn; split; auto; tauto|].
  destruct IH as (A & B); [intros; apply H; right; auto|]. destruct (globbed e n) eqn:G.
  - assert (F : f <> Subdir) by (intros ->; specialize (H n (or_introl eq_refl)); congruence).
    destruct f; try (now destruct F); (split; [exact A|]; intros s f'; rewrite B; cbn; split; [tauto|]; intros ([E|I] & Q); auto; injection E as -> <-; congruence).
  - destruct (remove_all e d) as (x & r) eqn:R. cbn [fst snd] in *. split; auto. intros s f'. cbn. rewrite B. split; [intros [E|(I & Q)]; [injection E as <- <-; auto|auto]|intros ([E|I] & Q); auto].
Qed.
(* the invariant of every program: the wavelengths noted as saved have their files *)
Definition sound (g : glob) : Prop := forall l, In l (g_lams g) -> exists t w, dlookup (state_name g l) (g_dir g) = Some (Saved t w).
Lemma saved_iff g w : prop_is_statesaved g w = true <-> In (w_lam w) (g_lams g).
Proof.
  unfold prop_is_statesaved. rewrite existsb_exists. split; [intros (x & I & E)|intros I; exists (w_lam w); split; auto]; destruct (Req_EM_T _ _); try discriminate; subst; auto.
Qed.
Lemma state_cases g w : let p := prop_state w g in
  (g_on g = false /\ p = (Ok w, g)) \/
  (g_on g = true /\ ~ In (w_lam w) (g_lams g) /\ dlookup (state_name g (w_lam w)) (g_dir g) = Some Subdir /\ p = (Raise OtherError, g)) \/
  (g_on g = true /\ ~ In (w_lam w) (g_lams g) /\ dlookup (state_name g (w_lam w)) (g_dir g) <> Some Subdir /\
    p = (Ok w, mkg true (g_lams g ++ [w_lam w]) (g_file g) (g_total g) (g_n g) (dwrite (state_name g (w_lam w)) (Saved (g_total g) w) (g_dir g)))) \/
  (g_on g = true /\ In (w_lam w) (g_lams g) /\ exists x t, p = (Raise x, mkg true (g_lams g) (g_file g) t 0 (g_dir g)) /\ (forall t' w', dlookup (state_name g (w_lam w)) (g_dir g) = Some (Saved t' w') -> x = ValueError)).
Proof.
  cbv zeta. unfold prop_state. destruct (g_on g) eqn:O; cbn [negb]; [right|left; auto].
  destruct (prop_is_statesaved g w) eqn:S; cbn [negb].
  - right. right. split; auto. split; [now apply saved_iff|]. destruct (dlookup (state_name g (w_lam w)) (g_dir g)) as [[t w0| |]|]; do 2 eexists; (split; [reflexivity|]); intros; congruence.
  - assert (N : ~ In (w_lam w) (g_lams g)) by (rewrite <- saved_iff; congruence). unfold prop_savestate. rewrite O. cbn [negb].
    destruct (dlookup (state_name g (w_lam w)) (g_dir g)) as [[t w0| |]|] eqn:D; [right; left|right; left|left|right; left]; repeat (split; auto); congruence.
Qed.
Lemma sound_step g c : sound g -> sound (step g c).
Proof.
  intros S. destruct c as [k|w| |t n]; cbn [step].
  - intros l [].
  - destruct (state_cases g w) as [(O & ->)|[(O & N & D & ->)|[(O & N & D & ->)|(O & I & x & t & -> & X)]]]; cbn [snd]; auto.
    intros l L. cbn [g_lams g_dir] in *. match goal with |- context [state_name ?h l] => change (state_name h l) with (state_name g l) end. rewrite lookup_write. destruct (String.eqb_spec (state_name g l) (state_name g (w_lam w))) as [Q|Q]; [eauto|]. apply in_app_or in L. destruct L as [L|[<-|[]]]; [apply (S l L)|congruence].
  - unfold prop_end_savestate. destruct (remove_all (g_file g) (g_dir g)) as (x & d). intros l L. cbn in L. destruct L.
  - exact S.
Qed.
Lemma sound_run l : forall g, sound g -> sound (run g l).
Proof. induction l as [|c l IH]; intros g S; cbn [run fold_left]; auto. apply IH. now apply sound_step. Qed.
Lemma run_app g a b : run g (a ++ b) = run (run g a) b. Proof. apply fold_left_app. Qed.
