(** * ConvSpec: stored entries of a compressed matrix, row by row. *)
From Coq Require Import List Arith Lia Bool Sorted.
From Verif Require Import Base Scalar Spec CSModel CSSpec ConvModel.
Import ListNotations.

Section S.
  Variable O : Ops.
  Notation T := (T O).

  (** The stored (index, value) pairs of primary [i], in storage order. *)
  Definition rowl (A : CS O) (i : nat) : list (nat * T) :=
    map (fun k => (ix A k, vl A k)) (seq (st A i) (st A (S i) - st A i)).

  (** Value [v] is stored at primary [i], secondary [j]. *)
  Definition stored (A : CS O) (i j : nat) (v : T) : Prop := In (j, v) (rowl A i).

  (** The arrays are exactly as long as the start array says. *)
  Definition tight (A : CS O) : Prop :=
    length (ind_start A) = psize A + 1 /\
    length (indices A) = st A (psize A) /\ length (vals A) = st A (psize A).

  (** No index occurs twice in a primary. *)
  Definition distinct (A : CS O) : Prop :=
    forall i, i < psize A -> NoDup (map fst (rowl A i)).

  (** Number of stored entries. *)
  Definition nnz_of (A : CS O) : nat := st A (psize A).

  (** [B] stores exactly the entries [(i,j,v)] with [P i j v] (by primary and
      secondary index), is valid and has sorted indices. *)
  Definition is_storage (B : CS O) (np ns : nat) (P : nat -> nat -> T -> Prop) : Prop :=
    valid B /\ tight B /\ psize B = np /\ ssize B = ns /\
    forall i j v, i < np -> (stored B i j v <-> P i j v).

  (** Position [q] cuts primary [i] of [A] at secondary index [m]. *)
  Definition splits (A : CS O) (m i q : nat) : Prop :=
    st A i <= q <= st A (S i) /\ (forall k, st A i <= k < q -> ix A k < m) /\
    (forall k, q <= k < st A (S i) -> m <= ix A k).

  Notation row := (list (nat * T)).
  (** The entries a push adds. *)
  Definition pushed (o : push O) : row :=
    match o with
    | PushEmpty _ => []
    | Push _ l v => map (fun j => (j, nth j v (t0 O))) l
    | Push2 _ l1 v1 l2 v2 => map (fun j => (j, nth j v1 (t0 O))) l1 ++ map (fun j => (j, nth j v2 (t0 O))) l2
    end.
  (** The index lists point into the value arrays. *)
  Definition push_ok (o : push O) : Prop :=
    match o with
    | PushEmpty _ => True
    | Push _ l v => forall j, In j l -> j < length v
    | Push2 _ l1 v1 l2 v2 => (forall j, In j l1 -> j < length v1) /\ (forall j, In j l2 -> j < length v2)
    end.
End S.
Arguments rowl {O}. Arguments stored {O}. Arguments tight {O}. Arguments distinct {O}.
Arguments nnz_of {O}. Arguments is_storage {O}.

(** Boolean versions for examples. *)
Definition tightb {O} (A : CS O) : bool :=
  (length (ind_start A) =? psize A + 1) && (length (indices A) =? st A (psize A))
  && (length (vals A) =? st A (psize A)).
Lemma tightb_tight : forall O (A : CS O), tightb A = true -> tight A.
Proof.
  intros O A H. unfold tightb in H. apply andb_prop in H. destruct H as [H ?].
  apply andb_prop in H. destruct H as [? ?].
  repeat split; now apply Nat.eqb_eq.
Qed.
