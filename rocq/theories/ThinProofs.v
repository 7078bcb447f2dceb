From Verif Require Import Base RBase CBase OptModel ThinModel ThinSpec.
From Coquelicot Require Import Coquelicot.
Open Scope R_scope.
Lemma C_eq (a b : C) : fst a = fst b -> snd a = snd b -> a = b.
Proof. destruct a, b; cbn. congruence. Qed.
Lemma cmod_sq z : Cmod z * Cmod z = abs2 z.
Proof. unfold Cmod, abs2. rewrite sqrt_sqrt; [ring|]. nra. Qed.
Lemma cmod_ge z : - fst z <= Cmod z /\ fst z <= Cmod z.
Proof. pose proof (Cmod_ge_0 z). pose proof (cmod_sq z) as E. unfold abs2 in E. split; nra. Qed.
Lemma csqrt_sq z : Cmult (csqrt z) (csqrt z) = z.
Proof.
  destruct z as [a b]. unfold csqrt. cbn [fst snd]. set (m := Cmod (a, b)). pose proof (cmod_ge (a, b)) as [G1 G2]. cbn [fst] in G1, G2. fold m in G1, G2.
  assert (E : m * m = a * a + b * b) by (unfold m; rewrite cmod_sq; reflexivity).
  assert (P : sqrt ((m + a) / 2) * sqrt ((m + a) / 2) = (m + a) / 2) by (apply sqrt_sqrt; lra).
  assert (Q : sqrt ((m - a) / 2) * sqrt ((m - a) / 2) = (m - a) / 2) by (apply sqrt_sqrt; lra).
  assert (S : sqrt ((m + a) / 2) * sqrt ((m - a) / 2) = Rabs b / 2).
  { rewrite <- sqrt_mult by lra. replace ((m + a) / 2 * ((m - a) / 2)) with ((b / 2) * (b / 2)) by lra. fold (Rsqr (b / 2)). rewrite sqrt_Rsqr_abs. unfold Rdiv. rewrite Rabs_mult, (Rabs_right (/ 2)) by lra. reflexivity. }
  set (x := sqrt ((m + a) / 2)) in *. set (y := sqrt ((m - a) / 2)) in *. cbn [fst snd]. destruct (Rlt_dec b 0) as [Hb|Hb]; apply C_eq; cbn [fst snd Cmult].
  - transitivity (x * x - y * y); [ring|rewrite P, Q; lra].
  - rewrite (Rabs_left b Hb) in S. transitivity (- (2 * (x * y))); [ring|rewrite S; lra].
  - rewrite P, Q; lra.
  - rewrite (Rabs_right b) in S by lra. transitivity (2 * (x * y)); [ring|rewrite S; lra].
Qed.
Lemma csqrt_re z : 0 <= fst (csqrt z). Proof. apply sqrt_pos. Qed.
Lemma csqrt_im z : fst (csqrt z) = 0 -> 0 <= snd (csqrt z).
Proof.
  intros E. pose proof (cmod_ge z) as [G1 G2]. pose proof (cmod_sq z) as M. unfold abs2 in M. unfold csqrt in *. cbn [fst snd] in *. apply sqrt_eq_0 in E; [|lra].
  destruct (Rlt_dec (snd z) 0) as [H|H]; [|apply sqrt_pos]. exfalso. assert (Cmod z = - fst z) by lra. nra.
Qed.
(* half plane of the wave numbers of the code *)
Definition low (k : C) : Prop := fst k < 0 \/ (fst k = 0 /\ snd k < 0).
Lemma low_ne k : low k -> k <> RtoC 0. Proof. intros H ->. cbn in H. destruct H as [H|[_ H]]; cbn in H; lra. Qed.
Lemma low_plus k l : low k -> low l -> Cplus k l <> RtoC 0.
Proof. intros H K E. assert (E1 : fst (Cplus k l) = 0) by now rewrite E. assert (E2 : snd (Cplus k l) = 0) by now rewrite E. cbn in E1, E2. destruct H as [H|[H1 H2]], K as [K|[K1 K2]]; lra. Qed.
Lemma csqrt_low z : z <> RtoC 0 -> low (Copp (csqrt z)).
Proof.
  intros Hz. pose proof (csqrt_re z) as A. pose proof (csqrt_im z) as B. pose proof (csqrt_sq z) as E.
  destruct (Req_dec (fst (csqrt z)) 0) as [F|F].
  - right. cbn [fst snd Copp]. split; [lra|]. specialize (B F). destruct (Req_dec (snd (csqrt z)) 0) as [G|G]; [|lra]. exfalso. apply Hz. rewrite <- E. apply C_eq; cbn [fst snd Cmult]; rewrite F, G; cbn; ring.
  - left. cbn [fst snd Copp]. lra.
Qed.
Lemma cexp_add a b : cexp (Cplus a b) = Cmult (cexp a) (cexp b).
Proof. unfold cexp. cbn [fst snd Cplus]. rewrite exp_plus, cis_add, RtoC_mult. ring. Qed.
Lemma cexp_0 : cexp (RtoC 0) = RtoC 1.
Proof. unfold cexp. cbn [fst snd RtoC]. rewrite exp_0, cis_0. ring. Qed.
Lemma cexp_inv a : Cmult (cexp a) (cexp (Copp a)) = RtoC 1.
Proof. rewrite <- cexp_add, <- cexp_0. f_equal. ring. Qed.
Lemma cexp_ne a : cexp a <> RtoC 0.
Proof. intros E. pose proof (cexp_inv a) as H. rewrite E in H. apply (f_equal fst) in H. cbn in H. lra. Qed.
(* derivatives *)
Lemma hd_eq f z l l' : has_dC f z l -> l = l' -> has_dC f z l'. Proof. intros H <-. exact H. Qed.
Lemma hd_ext f g z l : (forall x, f x = g x) -> has_dC f z l -> has_dC g z l.
Proof. intros E [A B]. split; [eapply is_derive_ext; [|exact A]|eapply is_derive_ext; [|exact B]]; intros t; cbn; now rewrite E. Qed.
Lemma is_der_eq (f : R -> R) z l l' : is_derive f z l -> l = l' -> is_derive f z l'. Proof. intros H <-. exact H. Qed.
Lemma hr_mult (f g : R -> R) z l m : is_derive f z l -> is_derive g z m -> is_derive (fun t => f t * g t) z (l * g z + f z * m).
Proof. intros A B. apply (is_derive_mult f g z l m A B). intros; cbn; unfold mult; cbn; ring. Qed.
Lemma hr_minus (f g : R -> R) z l m : is_derive f z l -> is_derive g z m -> is_derive (fun t => f t - g t) z (l - m).
Proof. intros A B. apply (is_derive_minus f g z l m A B). Qed.
Lemma hr_plus (f g : R -> R) z l m : is_derive f z l -> is_derive g z m -> is_derive (fun t => f t + g t) z (l + m).
Proof. intros A B. apply (is_derive_plus f g z l m A B). Qed.
Lemma hd_plus f g z l m : has_dC f z l -> has_dC g z m -> has_dC (fun x => Cplus (f x) (g x)) z (Cplus l m).
Proof. intros [A B] [A' B']. split; cbn; apply hr_plus; auto. Qed.
Lemma hd_mult f g z l m : has_dC f z l -> has_dC g z m -> has_dC (fun x => Cmult (f x) (g x)) z (Cplus (Cmult l (g z)) (Cmult (f z) m)).
Proof.
  intros [A B] [A' B']. split; cbn.
  - eapply is_der_eq; [apply hr_minus; apply hr_mult; eassumption|]. cbv beta. match goal with |- ?a = ?b => change (a = b :> R) end. ring.
  - eapply is_der_eq; [apply hr_plus; apply hr_mult; eassumption|]. cbv beta. match goal with |- ?a = ?b => change (a = b :> R) end. ring.
Qed.
Lemma hd_const c z : has_dC (fun _ => c) z (RtoC 0). Proof. split; cbn; apply @is_derive_const. Qed.
Lemma hd_scal c f z l : has_dC f z l -> has_dC (fun x => Cmult c (f x)) z (Cmult c l).
Proof. intros H. eapply hd_eq; [apply hd_mult; [apply hd_const|exact H]|]. cbv beta. ring. Qed.
Lemma hd_cexp c z : has_dC (fun x => cexp (Cmult c (RtoC x))) z (Cmult c (cexp (Cmult c (RtoC z)))).
Proof.
  destruct c as [a b]. assert (E : forall x, cexp (Cmult (a, b) (RtoC x)) = (exp (a * x) * cos (b * x), exp (a * x) * sin (b * x))).
  { intros x. unfold cexp, cis. cbn [fst snd Cmult RtoC]. replace (a * x - b * 0) with (a * x) by ring. replace (a * 0 + b * x) with (b * x) by ring. apply C_eq; cbn; ring. }
  rewrite E. apply (hd_ext (fun x => (exp (a * x) * cos (b * x), exp (a * x) * sin (b * x)))); [intros; now rewrite E|].
  split; cbn; auto_derive; auto; ring.
Qed.
Lemma hd_zero_const f : (forall z, has_dC f z (RtoC 0)) -> forall z, f z = f 0.
Proof.
  intros H z. apply C_eq.
  - pose proof (fun x => proj1 (H x)) as D. cbn in D. destruct (MVT_gen (fun x => fst (f x)) 0 z (fun _ => 0)) as (c & _ & E); [intros; apply D| |cbn in E; lra].
    intros x _. apply continuity_pt_filterlim. apply (ex_derive_continuous (fun x => fst (f x))). exists 0. apply D.
  - pose proof (fun x => proj2 (H x)) as D. cbn in D. destruct (MVT_gen (fun x => snd (f x)) 0 z (fun _ => 0)) as (c & _ & E); [intros; apply D| |cbn in E; lra].
    intros x _. apply continuity_pt_filterlim. apply (ex_derive_continuous (fun x => snd (f x))). exists 0. apply D.
Qed.
Lemma dec_le (f f' : R -> R) a : 0 <= a -> (forall x, is_derive f x (f' x)) -> (forall x, f' x <= 0) -> f a <= f 0.
Proof.
  intros Ha D N. destruct (MVT_gen f 0 a f') as (c & _ & E); [intros; apply D| |].
  - intros x _. apply continuity_pt_filterlim. apply (ex_derive_continuous f). exists (f' x). apply D.
  - specialize (N c). nra.
Qed.
