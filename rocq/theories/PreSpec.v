(** * PreSpec: what preprocessing should do to the permutations. *)
From Coq Require Import List Arith Lia Bool Sorted.
From Verif Require Import Base Scalar Spec CSModel CSSpec ConvModel ConvSpec Mag.
Import ListNotations.

(** Position [i] of a pair of permutation arrays: the diagonal entry (row, column). *)
Definition diag_at (p q : list nat) (i : nat) : nat * nat := (nth i p 0, nth i q 0).
(** The first [n] diagonal positions. *)
Definition diags (p q : list nat) (n : nat) : list (nat * nat) := map (diag_at p q) (seq 0 n).

Section S.
  Context {O : Ops} (G : Mag O).
  (** [mx] is the largest magnitude stored in row [r] (of the CRS copy) and column [c],
      replaced by [mone] if that is zero. *)
  Definition is_local_max (mone : M G) (A A_crs : CS O) (r c : nat) (mx : M G) : Prop :=
    let S v := (exists j, stored A_crs r j v) \/ (exists i, stored A c i v) in
    (mx = mone /\ forall v, S v -> mabs G v = m0 G) \/
    ((exists v, S v /\ mabs G v = mx) /\ mx <> m0 G /\ forall v, S v -> mle G (mabs G v) mx = true).
End S.

Section Sc.
  Context {O : Ops} (G : Mag O).
  (** Laws relating scaling to magnitudes (real arithmetic). *)
  Record ScaleLaws (mone : M G) (mrec : M G -> M G) (smul : T O -> M G -> T O) : Prop := mkSL {
    sl_one : mlt G (m0 G) mone = true;
    sl_abs : forall v a, mlt G (m0 G) a = true -> mabs G (smul v a) = mmul G (mabs G v) a;
    sl_pos : forall a, mlt G (m0 G) a = true -> mlt G (m0 G) (mrec a) = true;
    sl_nz : forall x a, mlt G (m0 G) x = true -> mlt G (m0 G) a = true -> mlt G (m0 G) (mmul G x a) = true;
    sl_le : forall x a, mlt G (m0 G) a = true -> mle G (m0 G) x = true -> mle G x a = true -> mle G (mmul G x (mrec a)) mone = true;
    sl_eq : forall a, mlt G (m0 G) a = true -> mmul G a (mrec a) = mone }.

  (** [B'] is [B] with row [i] multiplied by [rs i], then column [j] by [cs j]. *)
  Definition is_scaled (smul : T O -> M G -> T O) (B B' : CS O) (rs cs : list (M G)) : Prop :=
    psize B' = psize B /\ ssize B' = ssize B /\
    forall i, i < psize B ->
      rowl B' i = map (fun e => (fst e, smul (smul (snd e) (nth i rs (m0 G))) (nth (fst e) cs (m0 G)))) (rowl B i).
End Sc.
