(* Independent specifications for C31 - C33. *)
From Verif Require Import Base RBase EstModel.
Open Scope Z_scope.

(* ---- C31: what one star and sub-band should do.  nom1, nom2: commands before estimation; cmd i: i-th probe ---- *)
Section Block.
  Context {V : Type} (vadd : V -> V -> V).
  (* the pair of commands with [c] added on the probing DM *)
  Definition with_probe (which : Z) (nom1 nom2 c : V) : V * V :=
    if which =? 1 then (vadd nom1 c, nom2) else (nom1, vadd nom2 c).
  Definition exposure_at (sb : nat) (v : V * V) : shot V := Exposure sb (fst v) (snd v).
  Definition model_at (star sb : nat) (v : V * V) : shot V := ModelCall star sb (fst v) (snd v).
  (* unprobed exposure, one exposure per probe, then the model: unprobed, and plus / minus of each pair *)
  Definition probing_block (which : Z) (Npairs : nat) (nom1 nom2 : V) (star sb : nat) (cmd : nat -> V) : list (shot V) :=
    exposure_at sb (nom1, nom2) ::
    map (fun i => exposure_at sb (with_probe which nom1 nom2 (cmd i))) (seq 0 (2 * Npairs)) ++
    model_at star sb (nom1, nom2) ::
    flat_map (fun k => [model_at star sb (with_probe which nom1 nom2 (cmd (2 * k)%nat));
                        model_at star sb (with_probe which nom1 nom2 (cmd (2 * k + 1)%nat))]) (seq 0 Npairs).
End Block.

(* The whole estimation: one block per (star, sub-band), in order.  The probes of a block are those generated from
   the unprobed image of that block. *)
Section Blocks.
  Variables (V : Type) (vadd : V -> V -> V) (Img : Type) (image : nat -> nat -> V -> V -> Img)
            (gen : nat -> Img -> nat -> res V) (which : Z) (Npairs : nat) (nom1 nom2 : V).
  Definition block_ok (star sb : nat) (before : list (shot V)) (l : list (shot V)) : Prop :=
    exists cmd, (forall i, (i < 2 * Npairs)%nat -> gen star (image (length before) sb nom1 nom2) i = Ok (cmd i)) /\
      l = probing_block vadd which Npairs nom1 nom2 star sb cmd.
  Inductive blocks : list (nat * nat) -> list (shot V) -> list (shot V) -> Prop :=
  | blocks_nil before : blocks [] before []
  | blocks_cons star sb t before l l' : block_ok star sb before l -> blocks t (before ++ l) l' -> blocks ((star, sb) :: t) before (l ++ l').
End Blocks.

Open Scope R_scope.
(* ---- C33: least squares ---- *)
Definition residual (l : list ((R * R) * R)) (x : R * R) : R :=
  rsuml (map (fun d => (fst (fst d) * fst x + snd (fst d) * snd x - snd d) ^ 2) l).
Definition norm2 (x : R * R) : R := fst x ^ 2 + snd x ^ 2.
(* x minimises the residual and is the shortest of all minimisers *)
Definition least_squares_min_norm (l : list ((R * R) * R)) (x : R * R) : Prop :=
  (forall y, residual l x <= residual l y) /\
  (forall y, (forall w, residual l y <= residual l w) -> norm2 x <= norm2 y).
(* complex numbers as pairs: |E + s dE|^2 *)
Definition intensity_with (E d : R * R) (s : R) : R := (fst E + s * fst d) ^ 2 + (snd E + s * snd d) ^ 2.
(* a probe pair measured without error: probe field d, incoherent light Iinc, phase from a model whose plus and minus
   fields differ by a positive multiple of d *)
Definition exact_pair (E : R * R) (Iinc : R) (d : R * R) (p : pairm) : Prop :=
  m_plus p = intensity_with E d 1 + Iinc /\ m_minus p = intensity_with E d (-1) + Iinc /\
  (exists dEp dEm g, m_phase p = model_phase dEp dEm /\ 0 < g /\
     fst dEp - fst dEm = g * fst d /\ snd dEp - snd dEm = g * snd d).
Definition collinear (d e : R * R) : Prop := fst d * snd e - snd d * fst e = 0.
