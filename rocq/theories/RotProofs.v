From Verif Require Import Base RBase CBase PropModel OptModel DiffModel RotModel.
Open Scope R_scope.

Lemma cyc_vals : cyc 0 1 = 1%nat /\ cyc 0 2 = 2%nat /\ cyc 1 1 = 2%nat /\ cyc 1 2 = 0%nat /\ cyc 2 1 = 0%nat /\ cyc 2 2 = 1%nat.
Proof. repeat split. Qed.

(* the 2-D affine map of the drop_z matrix *)
Definition aff (A : mat) (ox oy x y : R) : R * R :=
  (ox + (A 0%nat 0%nat * (x - ox) + A 0%nat 1%nat * (y - oy)), oy + (A 1%nat 0%nat * (x - ox) + A 1%nat 1%nat * (y - oy))).
Definition fwd_of (A : mat) (ox oy : R) : mat := drop_z (mmul 4 (translation ox oy) (mmul 4 (promote A) (translation (- ox) (- oy)))).

Lemma fwd_entries A ox oy : 
  fwd_of A ox oy 0%nat 0%nat = A 0%nat 0%nat /\ fwd_of A ox oy 0%nat 1%nat = A 0%nat 1%nat /\
  fwd_of A ox oy 1%nat 0%nat = A 1%nat 0%nat /\ fwd_of A ox oy 1%nat 1%nat = A 1%nat 1%nat /\
  fwd_of A ox oy 0%nat 2%nat = ox - A 0%nat 0%nat * ox - A 0%nat 1%nat * oy /\
  fwd_of A ox oy 1%nat 2%nat = oy - A 1%nat 0%nat * ox - A 1%nat 1%nat * oy /\
  fwd_of A ox oy 2%nat 0%nat = 0 /\ fwd_of A ox oy 2%nat 1%nat = 0 /\ fwd_of A ox oy 2%nat 2%nat = 1.
Proof. unfold fwd_of, drop_z, mmul, promote, translation, mrow. cbn. repeat split; ring. Qed.

Lemma fwd_apply A ox oy x y : apply_homography (fwd_of A ox oy) x y = aff A ox oy x y.
Proof.
  destruct (fwd_entries A ox oy) as (E00 & E01 & E10 & E11 & E02 & E12 & E20 & E21 & E22).
  unfold apply_homography. cbv zeta. cbn [rsum]. rewrite E00, E01, E10, E11, E02, E12, E20, E21, E22. unfold aff, mrow. cbn [nth]. f_equal; field.
Qed.
Lemma det_fwd A ox oy : det3 (fwd_of A ox oy) = A 0%nat 0%nat * A 1%nat 1%nat - A 0%nat 1%nat * A 1%nat 0%nat.
Proof.
  destruct (fwd_entries A ox oy) as (E00 & E01 & E10 & E11 & E02 & E12 & E20 & E21 & E22).
  unfold det3. rewrite E00, E01, E10, E11, E02, E12, E20, E21, E22. ring.
Qed.
Lemma inv_apply A ox oy : A 0%nat 0%nat * A 1%nat 1%nat - A 0%nat 1%nat * A 1%nat 0%nat <> 0 ->
  exists B, inv3 (fwd_of A ox oy) = Ok B /\
  forall x y x' y', apply_homography B x y = (x', y') <-> aff A ox oy x' y' = (x, y).
Proof.
  intros D. unfold inv3. destruct (Req_EM_T (det3 (fwd_of A ox oy)) 0) as [E|E]; [rewrite det_fwd in E; contradiction|].
  eexists. split; [reflexivity|]. intros x y x' y'.
  destruct (fwd_entries A ox oy) as (E00 & E01 & E10 & E11 & E02 & E12 & E20 & E21 & E22). rewrite det_fwd in *.
  unfold apply_homography. cbv zeta. cbn [rsum].
  destruct cyc_vals as (C01 & C02 & C11 & C12 & C21 & C22). rewrite C01, C02, C11, C12, C21, C22.
  rewrite E00, E01, E10, E11, E02, E12, E20, E21, E22. unfold mrow. cbn [nth]. unfold aff.
  set (a := A 0%nat 0%nat) in *. set (b := A 0%nat 1%nat) in *. set (c := A 1%nat 0%nat) in *. set (d := A 1%nat 1%nat) in *. 
  split.
  - intros H. injection H as <- <-. f_equal; field; repeat split; try exact D; intros Q; apply D; rewrite <- Q; ring.
  - intros H. injection H as <- <-. f_equal; field; repeat split; try exact D; intros Q; apply D; rewrite <- Q; ring.
Qed.
