(* Derivatives of fields with respect to a real parameter, at 0. *)
From Coquelicot Require Import Coquelicot.
From Verif Require Import Base RBase StrBase UtilModel CBase PropModel PropSpec PropProofs PropProofs2 OptModel OptSpec LinBase OptProofs OptProofs2 OptProofs3 OptProofs4 OptProofs7 GradModel GradSpec GradAdj GradAdj2 GradProofs GradProofs2.
Open Scope R_scope.

Definition dC (f : R -> C) (l : C) : Prop := is_derive (fun t => fst (f t)) 0 (fst l) /\ is_derive (fun t => snd (f t)) 0 (snd l).
Lemma is_derive_eq (f : R -> R) (x l : R) (l' : R) : is_derive f x l -> l = l' -> is_derive f x l'. Proof. intros H <-. exact H. Qed.
Lemma dC_ext f g l : (forall t, f t = g t) -> dC f l -> dC g l.
Proof. intros H [A B]. split; [apply (is_derive_ext (fun t => fst (f t)))|apply (is_derive_ext (fun t => snd (f t)))]; auto; intros; now rewrite H. Qed.
Lemma dC_eq f l l' : dC f l -> l = l' -> dC f l'. Proof. intros H <-. exact H. Qed.
Lemma dC_const c : dC (fun _ => c) (RtoC 0). Proof. split; cbn; apply @is_derive_const. Qed.
Lemma dC_plus f g l m : dC f l -> dC g m -> dC (fun t => Cplus (f t) (g t)) (Cplus l m).
Proof. intros [A B] [A' B']. split; cbn; [apply (is_derive_plus (fun t => fst (f t)) (fun t => fst (g t)))|apply (is_derive_plus (fun t => snd (f t)) (fun t => snd (g t)))]; auto. Qed.
Lemma dR_mult (f g : R -> R) l m : is_derive f 0 l -> is_derive g 0 m -> is_derive (fun t => f t * g t) 0 (l * g 0 + f 0 * m).
Proof. intros A B. apply (is_derive_mult f g 0 l m A B). intros; cbn; unfold mult; cbn; ring. Qed.
Lemma dR_minus (f g : R -> R) l m : is_derive f 0 l -> is_derive g 0 m -> is_derive (fun t => f t - g t) 0 (l - m).
Proof. intros A B. apply (is_derive_minus f g 0 l m A B). Qed.
Lemma dR_plus (f g : R -> R) l m : is_derive f 0 l -> is_derive g 0 m -> is_derive (fun t => f t + g t) 0 (l + m).
Proof. intros A B. apply (is_derive_plus f g 0 l m A B). Qed.
Lemma dC_mult f g l m : dC f l -> dC g m -> dC (fun t => Cmult (f t) (g t)) (Cplus (Cmult l (g 0)) (Cmult (f 0) m)).
Proof.
  intros [A B] [A' B']. split; cbn.
  - eapply is_derive_eq; [apply dR_minus; apply dR_mult; eassumption|]. cbv beta. ring.
  - eapply is_derive_eq; [apply dR_plus; apply dR_mult; eassumption|]. cbv beta. ring.
Qed.
Lemma dC_scal c f l : dC f l -> dC (fun t => Cmult c (f t)) (Cmult c l).
Proof. intros H. eapply dC_eq; [apply dC_mult; [apply dC_const|exact H]|]. cbv beta. ring. Qed.
Lemma dC_csum n (f : R -> nat -> C) l : (forall k, (k < n)%nat -> dC (fun t => f t k) (l k)) -> dC (fun t => csum n (f t)) (csum n l).
Proof. induction n; intros H; cbn [csum]; [apply dC_const|]. apply dC_plus; [apply IHn; auto|apply H; auto]. Qed.
Lemma dR_rsum n (f : R -> nat -> R) l : (forall k, (k < n)%nat -> is_derive (fun t => f t k) 0 (l k)) -> is_derive (fun t => rsum n (f t)) 0 (rsum n l).
Proof. induction n; intros H; cbn [rsum]; [apply @is_derive_const|]. apply dR_plus; [apply IHn; auto|apply H; auto]. Qed.
Lemma dC_cis a b : dC (fun t => cis (a + t * b)) (Cmult (0, b) (cis a)).
Proof.
  split; cbn.
  - eapply is_derive_eq; [apply (is_derive_comp cos (fun t => a + t * b) 0 (- sin (a + 0 * b)) b); [apply is_derive_cos|auto_derive; auto; ring]|]. unfold scal; cbn; unfold mult; cbn. replace (a + 0 * b) with a by ring. ring.
  - eapply is_derive_eq; [apply (is_derive_comp sin (fun t => a + t * b) 0 (cos (a + 0 * b)) b); [apply is_derive_sin|auto_derive; auto; ring]|]. unfold scal; cbn; unfold mult; cbn. replace (a + 0 * b) with a by ring. ring.
Qed.
Lemma dC_abs2 f l : dC f l -> is_derive (fun t => abs2 (f t)) 0 (2 * fst (Cmult (Cconj (f 0)) l)).
Proof. intros [A B]. unfold abs2. eapply is_derive_eq; [apply dR_plus; apply dR_mult; eassumption|]. cbv beta. cbn. ring. Qed.

(* value of a pixel of a result; 0 on failure *)
Definition px (r : res (field C)) (i j : nat) : C := match r with Ok F => fpx F i j | Raise _ => RtoC 0 end.
Definition delta (n m k l : nat) : field C := mkf n m (fun i j => if Nat.eqb i k && Nat.eqb j l then RtoC 1 else RtoC 0).
Lemma inner_delta n m k l b : (k < n)%nat -> (l < m)%nat -> inner n m (fpx (delta n m k l)) b = b k l.
Proof.
  intros Hk Hl. unfold inner. rewrite (csum_single n k); auto.
  2:{ intros i Hi Ni. apply csum_zero. intros j Hj. cbn. destruct (Nat.eqb_spec i k); [lia|]. cbn [andb]. rewrite conj_RtoC. ring. }
  rewrite (csum_single m l); auto.
  - cbn. rewrite !Nat.eqb_refl. cbn [andb]. rewrite conj_RtoC. ring.
  - intros j Hj Nj. cbn. rewrite Nat.eqb_refl. destruct (Nat.eqb_spec j l); [lia|]. cbn [andb]. rewrite conj_RtoC. ring.
Qed.
Lemma adj_px s f rf n m n' m' k l : adj s f rf n m n' m' -> (k < n')%nat -> (l < m')%nat -> exists RG, forall E, shape E n m -> px (f E) k l = Cmult (RtoC s) (inner n m (fpx RG) (fpx E)).
Proof.
  intros H Hk Hl. assert (SD : shape (delta n' m' k l) n' m') by (split; reflexivity). destruct (oks_radj _ _ _ _ _ _ _ _ H SD) as (RG & ER & SR). exists RG. intros E SE.
  destruct (H E _ SE SD) as (O & RG' & EO & SO & ER' & _ & Q). rewrite ER in ER'. injection ER' as <-. rewrite EO. cbn [px]. rewrite <- Q. symmetry. now apply inner_delta.
Qed.
Lemma dC_inner n m a (E : R -> field C) E' : (forall i j, (i < n)%nat -> (j < m)%nat -> dC (fun t => fpx (E t) i j) (fpx E' i j)) -> dC (fun t => inner n m a (fpx (E t))) (inner n m a (fpx E')).
Proof. intros H. unfold inner. apply (dC_csum n (fun t i => csum m (fun j => Cmult (Cconj (a i j)) (fpx (E t) i j)))). intros i Hi. apply (dC_csum m (fun t j => Cmult (Cconj (a i j)) (fpx (E t) i j))). intros j Hj. apply dC_scal. auto. Qed.
Lemma adj_derive s f rf n m n' m' (E : R -> field C) E' k l : adj s f rf n m n' m' -> (forall t, shape (E t) n m) -> shape E' n m ->
  (forall i j, (i < n)%nat -> (j < m)%nat -> dC (fun t => fpx (E t) i j) (fpx E' i j)) -> (k < n')%nat -> (l < m')%nat -> dC (fun t => px (f (E t)) k l) (px (f E') k l).
Proof.
  intros H S S' D Hk Hl. destruct (adj_px _ _ _ _ _ _ _ _ _ H Hk Hl) as (RG & V). rewrite V by auto. apply (dC_ext (fun t => Cmult (RtoC s) (inner n m (fpx RG) (fpx (E t))))); [intros; symmetry; auto|].
  apply dC_scal. now apply dC_inner.
Qed.
