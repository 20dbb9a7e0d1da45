(** * PruneSpec: row and column maxima. *)
From Coq Require Import List Arith Lia Bool.
From Verif Require Import Base Scalar CSModel CSSpec ConvModel ConvSpec Mag.
Import ListNotations.

Section S.
  Context {O : Ops} (G : Mag O).
  (** [m] is the largest magnitude stored in primary [i] / secondary [j]. *)
  Definition is_row_max (A : CS O) (i : nat) (m : M G) : Prop :=
    (exists j v, stored A i j v /\ mabs G v = m) /\
    (forall j v, stored A i j v -> mle G (mabs G v) m = true).
  Definition is_col_max (A : CS O) (j : nat) (m : M G) : Prop :=
    (exists i v, i < psize A /\ stored A i j v /\ mabs G v = m) /\
    (forall i v, i < psize A -> stored A i j v -> mle G (mabs G v) m = true).
End S.
