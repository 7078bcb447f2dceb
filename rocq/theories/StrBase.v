(* ASCII strings: Python's str.lower / str.upper and substring tests, restricted to ASCII (the
   option keywords of falco are ASCII). *)
From Coq Require Export String Ascii.
From Verif Require Import Base.
From Coq Require Export List.
Export ListNotations.
Open Scope Z_scope.

Definition lower_ascii (c : ascii) : ascii :=
  let n := nat_of_ascii c in
  if (Nat.leb 65 n && Nat.leb n 90)%bool then ascii_of_nat (n + 32) else c.
Definition upper_ascii (c : ascii) : ascii :=
  let n := nat_of_ascii c in
  if (Nat.leb 97 n && Nat.leb n 122)%bool then ascii_of_nat (n - 32) else c.
(* s.lower(), s.upper() *)
Fixpoint lower (s : string) : string :=
  match s with EmptyString => EmptyString | String c t => String (lower_ascii c) (lower t) end.
Fixpoint upper (s : string) : string :=
  match s with EmptyString => EmptyString | String c t => String (upper_ascii c) (upper t) end.

(* sub in s *)
Fixpoint contains (sub s : string) : bool :=
  (prefix sub s || match s with EmptyString => false | String _ t => contains sub t end)%bool.

(* x in [..] for a list of strings *)
Definition str_in (s : string) (l : list string) : bool := existsb (String.eqb s) l.

Lemma str_in_iff s l : str_in s l = true <-> In s l.
Proof.
  unfold str_in. rewrite existsb_exists. split.
  - intros (x & Hx & E). apply String.eqb_eq in E. now subst.
  - intros H. exists s. split; auto. apply String.eqb_refl.
Qed.

(* the text before / after a substring: independent meaning of [contains] *)
Lemma prefix_app p s : prefix p s = true <-> exists t, s = (p ++ t)%string.
Proof.
  revert s; induction p as [|c p IH]; intros s.
  - destruct s; split; intros; cbn; eauto.
  - destruct s as [|d s]; [split; [discriminate|intros (t & E); discriminate]|].
    assert (U : prefix (String c p) (String d s) = if ascii_dec c d then prefix p s else false) by reflexivity.
    rewrite U. destruct (ascii_dec c d) as [->|Hne].
    + rewrite IH. split; intros (t & E); exists t; cbn in *; congruence.
    + split; [discriminate|intros (t & E); injection E; congruence].
Qed.
Lemma contains_iff sub s : contains sub s = true <-> exists a b, s = (a ++ sub ++ b)%string.
Proof.
  induction s as [|c s IH]; cbn [contains].
  - rewrite orb_false_r, prefix_app. split.
    + intros (t & E). exists EmptyString, t. exact E.
    + intros (a & b & E). destruct a; [|discriminate]. exists b. exact E.
  - rewrite orb_true_iff, prefix_app, IH. split.
    + intros [(t & E)|(a & b & E)].
      * exists EmptyString, t. exact E.
      * exists (String c a), b. cbn. congruence.
    + intros (a & b & E). destruct a as [|d a]; cbn in E.
      * left. exists b. exact E.
      * right. injection E as -> E. exists a, b. exact E.
Qed.
