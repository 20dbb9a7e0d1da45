(** * PivotSpec: vocabulary for the pivoting factorization of one level. *)
From Coq Require Import List Arith Permutation.
From Verif Require Import Base Scalar Spec CSModel VecModel VecSpec.
Import ListNotations.

Section S.
  Context {O : Ops}.
  Notation T := (T O).

  (** The situation in which the factorization calls a dropping rule: [kap] the
      norm estimates, [p] the permutation that selects the reference size. *)
  Definition pdrop_call (n step : nat) (kap : list T) (p : list nat) (v : SV O) : Prop :=
    step < length kap /\ step < length p /\ nth step p 0 < n /\ sv_ok (n * 2) v.
  (** Nothing but zeros is dropped. *)
  Definition pdrops_only_zeros (n : nat) (drop : nat -> list T -> list nat -> SV O -> res (SV O)) : Prop :=
    forall step kap p v v', pdrop_call n step kap p v -> drop step kap p v = Ok v' ->
      forall i, In i (held v) -> ~ In i (held v') -> nth i (sv_vals v) (t0 O) = t0 O.
  (** A dropping rule succeeds, keeps some of the held indices and changes nothing else. *)
  Definition pdrop_rule (n : nat) (drop : nat -> list T -> list nat -> SV O -> res (SV O)) : Prop :=
    forall step kap p v, pdrop_call n step kap p v ->
      exists v', drop step kap p v = Ok v' /\ sv_ok (n * 2) v' /\ sv_vals v' = sv_vals v /\ sv_dtags v' = sv_dtags v /\
        incl (held v') (held v).
  (** What the sort by magnitude has to be: any rearrangement. *)
  Definition rearranges (srt : list T -> list nat -> list nat) : Prop := forall vals l, Permutation (srt vals l) l.
End S.
