(** * InputSpec: what a compressed matrix of a user means. *)
From Coq Require Import List Arith Lia Bool ZArith.
From Verif Require Import Base Scalar CSModel InputModel.
Import ListNotations.

Section S.
  Variable O' : Ops.

  (** The same matrix counted from 1 instead of 0. *)
  Definition one_based (A : UserCS O') : UserCS O' :=
    mkUser O' (u_p O' A) (u_s O' A) (map (fun z => z + 1)%Z (u_start O' A)) (map (fun z => z + 1)%Z (u_ind O' A)) (u_vals O' A).

  (** A well-formed 0-based compressed matrix with exactly as many indices and values as
      the start array says. *)
  Record user_valid (A : UserCS O') : Prop := {
    uv_len : length (u_start O' A) = u_p O' A + 1;
    uv_first : nth 0 (u_start O' A) 0%Z = 0%Z;
    uv_mono : forall i, i < u_p O' A -> (nth i (u_start O' A) 0 <= nth (S i) (u_start O' A) 0)%Z;
    uv_ind : nth (u_p O' A) (u_start O' A) 0%Z = Z.of_nat (length (u_ind O' A));
    uv_vals : length (u_vals O' A) = length (u_ind O' A);
    uv_sorted : forall i k l, i < u_p O' A -> (nth i (u_start O' A) 0 <= Z.of_nat k)%Z -> k < l ->
      (Z.of_nat l < nth (S i) (u_start O' A) 0)%Z -> (nth k (u_ind O' A) 0 < nth l (u_ind O' A) 0)%Z;
    uv_range : forall k, k < length (u_ind O' A) -> (0 <= nth k (u_ind O' A) 0 < Z.of_nat (u_s O' A))%Z }.

  (** Its entries: the values stored for primary [i] and secondary [j]. *)
  Definition user_stored (A : UserCS O') (i j : nat) (v : T O') : Prop := exists k,
    (nth i (u_start O' A) 0 <= Z.of_nat k < nth (S i) (u_start O' A) 0)%Z /\
    nth k (u_ind O' A) 0%Z = Z.of_nat j /\ nth_error (u_vals O' A) k = Some v.
End S.
