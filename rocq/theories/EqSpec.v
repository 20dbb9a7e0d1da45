(** * EqSpec: what the matching kernel should return.  Everything is 1-based. *)
From Coq Require Import List Arith ZArith Bool Lia.
From Verif Require Import Base EqModel.
Import ListNotations.

(** Element number [i] (from 1) of a list. *)
Definition n1 {A} (d : A) (l : list A) (i : nat) : A := nth (i - 1) l d.

(** [ip], [irn] describe an [n] by [n] pattern: column [j] holds the entries
    [ip j .. ip (j+1) - 1], with row indices in [1..n], no row twice in a column. *)
Record pattern1 (n : nat) (ip irn : list nat) : Prop := {
  pw_ip : length ip = S n;
  pw_pos : 1 <= n1 0 ip 1;
  pw_mono : forall j, 1 <= j <= n -> n1 0 ip j <= n1 0 ip (S j);
  pw_end : n1 0 ip (S n) <= S (length irn);
  pw_rows : forall k, 1 <= k <= length irn -> 1 <= n1 0 irn k <= n;
  pw_nodup : forall j k k', 1 <= j <= n -> n1 0 ip j <= k < n1 0 ip (S j) -> n1 0 ip j <= k' < n1 0 ip (S j) ->
    n1 0 irn k = n1 0 irn k' -> k = k' }.

(** Entry ([i], [j]) is stored. *)
Definition stored1 (ip irn : list nat) (i j : nat) : Prop := exists k, n1 0 ip j <= k < n1 0 ip (S j) /\ n1 0 irn k = i.

(** No column has more than (n + 1) / 2 entries. *)
Definition half_full (n : nat) (ip : list nat) : Prop :=
  forall j, 1 <= j <= n -> 2 * (n1 0 ip (S j) - n1 0 ip j) <= n + 1.

(** The absolute values of [p] are a permutation of [1..n]. *)
Definition perm_abs (n : nat) (p : list Z) : Prop :=
  length p = n /\
  (forall i, 1 <= i <= n -> 1 <= Z.abs_nat (n1 0%Z p i) <= n) /\
  (forall i i', 1 <= i <= n -> 1 <= i' <= n -> Z.abs_nat (n1 0%Z p i) = Z.abs_nat (n1 0%Z p i') -> i = i').

(** Some permutation of the rows lies entirely on stored entries. *)
Definition nonsingular_pattern (n : nat) (ip irn : list nat) : Prop :=
  exists s : nat -> nat, (forall i, 1 <= i <= n -> 1 <= s i <= n /\ stored1 ip irn i (s i)) /\
    (forall i i', 1 <= i <= n -> 1 <= i' <= n -> s i = s i' -> i = i').

(** Every position of [irn] belongs to a column. *)
Definition tight1 (n : nat) (ip irn : list nat) : Prop := n1 0 ip 1 = 1 /\ n1 0 ip (S n) = S (length irn).

(** [fin] is a set of finite numbers closed under addition and subtraction, all below infinity
    (which is a number different from them). *)
Record finite_laws (K : ROps) (fin : RR K -> Prop) : Prop := {
  fl_sub : forall x y, fin x -> fin y -> fin (rsub K x y);
  fl_add : forall x y, fin x -> fin y -> fin (radd K x y);
  fl_le : forall x, fin x -> rle K (rinf K) x = false;
  fl_lt : forall x, fin x -> rlt K (rinf K) x = false;
  fl_eq : forall x, fin x -> req K x (rinf K) = false;
  fl_inf : req K (rinf K) (rinf K) = true }.

(** The stored values are nonzero and have finite logarithms. *)
Definition nonzero_values (K : ROps) (V : Type) (rabs : V -> RR K) (rlog : RR K -> RR K) (fin : RR K -> Prop) (vals : list V) : Prop :=
  forall v, In v vals -> rlt K (r0 K) (rabs v) = true /\ req K (rabs v) (r0 K) = false /\ fin (rlog (rabs v)).
