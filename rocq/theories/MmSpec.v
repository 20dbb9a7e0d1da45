(** * MmSpec: what a MatrixMarket file says. *)
From Coq Require Import List Arith Bool ZArith String Ascii.
From Verif Require Import Base Scalar CSModel CSSpec MmModel.
Import ListNotations.
Local Open Scope string_scope.

Definition scheme_of (k : kind) : string :=
  match k with GENERAL => "general" | SYMM => "symmetric" | HERM => "hermitian" | SKEW => "skew-symmetric" end.

(** A first line: banner, [matrix], the layout, the data type and the storage scheme
    (all but the banner in any case; more words may follow). *)
Definition banner_says (l : string) (layout data : string) (k : kind) : Prop :=
  exists w2 w3 w4 w5 more, words l = "%%MatrixMarket" :: w2 :: w3 :: w4 :: w5 :: more /\
    to_lower w2 = "matrix" /\ to_lower w3 = layout /\ to_lower w4 = data /\ to_lower w5 = scheme_of k.

(** A number, and a value of a real or complex file, in words. *)
Definition int_word (z : Z) (w : word) : Prop := int_of w = Some z.

Section S.
  Variable O : Ops.
  Notation T := (T O).
  Variable R : Type.
  Variable num_of : word -> option R.
  Variable mk : R -> R -> T.
  Variable r0 : R.

  Inductive value_words : bool -> T -> list word -> Prop :=
  | vw_real : forall w x, num_of w = Some x -> value_words true (mk x r0) [w]
  | vw_cplx : forall w x u y, num_of w = Some x -> num_of u = Some y -> value_words false (mk x y) [w; u].

  (** An entry in words: row, column (1-based) and value. *)
  Definition entry_words (real : bool) (e : nat * nat * T) (ws : list word) : Prop :=
    let '(r, c, v) := e in
    exists wr wc wv, ws = wr :: wc :: wv /\ int_word (Z.of_nat r) wr /\ int_word (Z.of_nat c) wc /\ value_words real v wv.

  (** After the first line: comment lines, then possibly lines without words, then
      the sizes, then the entries, laid out in any way. *)
  Definition file_says (real : bool) (k : kind) (m n : nat) (es : list (nat * nat * T)) (file : list string) : Prop :=
    exists first comments blanks sizes data wm wn wz ess,
      (file = first :: comments ++ blanks ++ sizes :: data)%list /\
      banner_says first "coordinate" (if real then "real" else "complex") k /\
      (forall l, In l comments -> is_comment l = true) /\
      (forall l, In l blanks -> words l = []) /\
      is_comment sizes = false /\
      words sizes = [wm; wn; wz] /\
      int_word (Z.of_nat m) wm /\ int_word (Z.of_nat n) wn /\ int_word (Z.of_nat (List.length es)) wz /\
      Forall2 (entry_words real) es ess /\
      (exists tail, flat_map words data = List.concat ess ++ tail)%list.

  (** The matrix of a file: the entries, and for the symmetric kinds the mirrored
      off-diagonal entries. *)
  Definition mirror_rule (k : kind) (v : T) : T :=
    match k with GENERAL | SYMM => v | HERM => tconj O v | SKEW => topp O v end.
  Definition denotes (k : kind) (es : list (nat * nat * T)) (i j : nat) (v : T) : Prop :=
    In (S i, S j, v) es \/
    (k <> GENERAL /\ i <> j /\ exists u, In (S j, S i, u) es /\ v = mirror_rule k u).

  (** Rows and columns are in range, and no position is given twice, counting the
      mirrored ones. *)
  Definition entries_good (k : kind) (m n : nat) (es : list (nat * nat * T)) : Prop :=
    (forall r c v, In (r, c, v) es -> 1 <= r <= m /\ 1 <= c <= n /\ (k <> GENERAL -> c <= m /\ r <= n)) /\
    NoDup (map fst es) /\
    (k <> GENERAL -> forall r c u v, r <> c -> In (r, c, u) es -> ~ In (c, r, v) es).
End S.
