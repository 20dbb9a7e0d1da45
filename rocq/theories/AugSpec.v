(** * AugSpec: what the augmented storage stands for.

    A growing matrix of optional entries, kept as a list of rows; a push adds a
    row, an interchange exchanges two columns, a deferral moves a column. *)
From Coq Require Import List Arith Lia Bool.
From Verif Require Import Base Scalar CSModel CSSpec ConvModel ConvSpec AugModel.
Import ListNotations.

Section S.
  Variable O : Ops.
  Notation T := (T O).
  Notation row := (nat -> option T).

  (** The entry of column [c] in a list of (column, value) pairs. *)
  Fixpoint assoc (c : nat) (l : list (nat * T)) : option T :=
    match l with
    | [] => None
    | (c', v) :: t => if c =? c' then Some v else assoc c t
    end.

  Definition entry (M : list row) (r c : nat) : option T := nth r M (fun _ => None) c.

  (** Effect of an operation on the matrix. *)
  Definition mstep (o : aop O) (M : list row) : list row :=
    match o with
    | APush _ _ p => M ++ [fun c => assoc c (pushed O p)]
    | ASwap _ i k => map (fun (r : row) c => if c =? i then r k else if c =? k then r i else r c) M
    | ADefer _ from to => map (fun (r : row) c => if c =? to then r from else if c =? from then None else r c) M
    end.

  (** The operation is legal for a matrix with [nc] columns: rows are pushed one
      after the other with strictly increasing column indices; columns exist; a
      deferral goes to an empty column behind all entries of the rows it touches. *)
  Definition legal (nc : nat) (M : list row) (o : aop O) : Prop :=
    match o with
    | APush _ r p => r = length M /\ push_ok O p /\
        (forall j, In j (map fst (pushed O p)) -> j < nc) /\
        (forall a b, a < b -> b < length (pushed O p) ->
           nth a (map fst (pushed O p)) 0 < nth b (map fst (pushed O p)) 0)
    | ASwap _ i k => i < nc /\ k < nc
    | ADefer _ from to => from < to /\ to < nc /\
        (forall r, entry M r to = None) /\
        (forall r c, entry M r from <> None -> to < c -> entry M r c = None)
    end.

  Fixpoint legal_run (nc : nat) (M : list row) (ops : list (aop O)) : Prop :=
    match ops with
    | [] => True
    | o :: t => legal nc M o /\ legal_run nc (mstep o M) t
    end.

  Definition mrun (ops : list (aop O)) (M : list row) : list row := fold_left (fun M o => mstep o M) ops M.

  (** Column [j] of the matrix, top to bottom. *)
  Fixpoint column_from (r : nat) (M : list row) (j : nat) : list (nat * T) :=
    match M with
    | [] => []
    | x :: t => match x j with Some v => (r, v) :: column_from (S r) t j | None => column_from (S r) t j end
    end.
  Definition column (M : list row) (j : nat) : list (nat * T) := column_from 0 M j.

  (** The storage [s] shows the matrix [M] with [nc] columns: rows stored in
      strictly increasing column order with exactly the entries of [M], and the
      walk over any column and its count agree with [M]. *)
  Record shows (nc : nat) (s : aug O) (M : list row) : Prop := {
    sh_rows : length (ind_start (a_cs s)) = S (length M);
    sh_stored : forall r c v, r < length M -> (stored (a_cs s) r c v <-> entry M r c = Some v);
    sh_sorted : forall r a b, r < length M -> a < b -> b < length (rowl (a_cs s) r) ->
      nth a (map fst (rowl (a_cs s) r)) 0 < nth b (map fst (rowl (a_cs s) r)) 0;
    sh_walk : forall j, j < nc -> walk_col O s j = Ok (column M j);
    sh_count : forall j, j < nc -> nnz_in_col O s j = Ok (length (column M j))
  }.
End S.

(** The rows of a finished storage. *)
Definition rows_of {O : Ops} (A : CS O) (n : nat) : list (nat -> option (T O)) :=
  map (fun r c => assoc O c (rowl A r)) (seq 0 n).
