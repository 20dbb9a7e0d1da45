(** * SchurSpec: the blocks, the dropped offsets and the Schur complement. *)
From Coq Require Import List Arith Lia Bool Permutation.
From Verif Require Import Base Scalar Spec CSModel CSSpec ConvModel ConvSpec Mag VecModel VecSpec CroutModel CroutSpec.
Import ListNotations.

Section S.
  Context {O : Ops}.
  Notation T := (T O).

  (** [diag(s) A diag(t)] permuted: entry [(i,j)] is entry [(p[i], q[j])]. *)
  Definition pscaled (s t : list T) (Am : nat -> nat -> T) (p q : list nat) (i j : nat) : T :=
    scaled s t Am (nth i p 0) (nth j q 0).

  (** The value a scaled entry [v] at row [a], column [b] gets. *)
  Definition sval (s t : list T) (a b : nat) (v : T) : T :=
    tmul O (tmul O (nth a s (t0 O)) v) (nth b t (t0 O)).

  (** Entry [(i,j)] of C - L_E diag(d) U_F. *)
  Definition schur_of (C : nat -> nat -> T) (m : nat) (Le : nat -> nat -> T) (d : list T) (Uf : nat -> nat -> T) (i j : nat) : T :=
    tsub O (C i j) (sum m (fun c => tmul O (tmul O (Le i c) (nth c d (t0 O))) (Uf c j))).

  (** [B] is [A] with the smallest entries of each primary [i] dropped so that at
      most [lim i] remain. *)
  Definition largest_kept (G : Mag O) (lim : nat -> nat) (A B : CS O) : Prop :=
    psize B = psize A /\ ssize B = ssize A /\
    forall i, i < psize A -> exists dropped,
      Permutation (rowl A i) (rowl B i ++ dropped) /\
      length (rowl B i) = Nat.min (length (rowl A i)) (lim i) /\
      forall e f, In e (rowl B i) -> In f dropped -> mle G (mabs G (snd f)) (mabs G (snd e)) = true.
End S.
