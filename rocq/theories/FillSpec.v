(** * FillSpec: how many entries the triangular factors may hold. *)
From Coq Require Import List Arith Lia Bool.
From Verif Require Import Base Scalar Spec CSModel CSSpec ConvModel ConvSpec Mag VecModel PrecModel FactorModel FactorSpec.
Import ListNotations.

Section S.
  Context {O : Ops}.

  (** Stored entries of primary [k], and stored entries with secondary index [k]. *)
  Definition in_primary (A : CS O) (k : nat) : nat := st A (S k) - st A k.
  Definition in_secondary (A : CS O) (k : nat) : nat := count_occ Nat.eq_dec (indices A) k.
  (** Stored entries of row (column) [k] of a row-major ([rm]) or column-major matrix. *)
  Definition nz_row (rm : bool) (A : CS O) (k : nat) : nat := if rm then in_primary A k else in_secondary A k.
  Definition nz_col (rm : bool) (A : CS O) (k : nat) : nat := if rm then in_secondary A k else in_primary A k.

  (** A row with [z] entries is allowed at most [B z] entries by the space factor
      [a]: [max(1, ceil(a*z))], for a positive [a]. *)
  Definition caps (G : Mag O) (ceil_mul : M G -> nat -> nat) (B : nat -> nat) (a : M G) : Prop :=
    mle G a (m0 G) = false /\ forall z, Nat.max 1 (ceil_mul a z) <= B z.

  (** The reference size of a row (column) of the input: its number of entries, but at
      least [lo]. *)
  Definition ref_rows (rm : bool) (lo : nat) (A : CS O) (n : nat) : list nat := map (fun i => Nat.max lo (nz_row rm A i)) (seq 0 n).
  Definition ref_cols (rm : bool) (lo : nat) (A : CS O) (n : nat) : list nat := map (fun i => Nat.max lo (nz_col rm A i)) (seq 0 n).

  (** The rows left over by a level, in the order of the next level. *)
  Definition left_over (m n : nat) (p : list nat) (size : list nat) : list nat :=
    map (fun k => nth (nth k p 0) size 0) (seq m (n - m)).

  (** [rsz] and [csz] are the reference sizes of the rows and columns of the matrix of
      the first level of [precs].  Every row of U and every column of L that a level
      accepts stays within what its reference size allows.  U and L are held by columns. *)
  Fixpoint fill_within (BU BL : nat -> nat) (rsz csz : list nat) (precs : list (Prec O)) : Prop :=
    match precs with
    | [] => True
    | P :: rest =>
      (forall k, k < pm P ->
         in_secondary (pU P) k <= BU (nth (nth k (pp P) 0) rsz 0) /\
         in_primary (pL P) k <= BL (nth (nth k (pq P) 0) csz 0)) /\
      fill_within BU BL (left_over (pm P) (pn P) (pp P) rsz) (left_over (pm P) (pn P) (pq P) csz) rest
    end.

  (** All the entries of all the factors. *)
  Definition total_U (precs : list (Prec O)) : nat := list_sum (map (fun P => length (indices (pU P))) precs).
  Definition total_L (precs : list (Prec O)) : nat := list_sum (map (fun P => length (indices (pL P))) precs).
End S.
