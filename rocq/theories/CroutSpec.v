(** * CroutSpec: what the factorization of one level must deliver.

    [Am] is the input matrix, [s], [t] the row and column scalings, [p0], [q0] the
    permutations at the start of the level.  [o] is the outcome: leading size,
    permutations, [L] stored by columns, [U] stored by rows, the diagonal [d]. *)
From Coq Require Import List Arith Bool Permutation.
From Verif Require Import Base Scalar Spec CSModel CSSpec ConvModel ConvSpec Mag VecModel VecSpec CroutModel.
Import ListNotations.

Section S.
  Context {O : Ops}.
  Notation T := (T O).

  (** The scaled matrix diag(s) A diag(t). *)
  Definition scaled (s t : list T) (Am : nat -> nat -> T) (i j : nat) : T :=
    tmul O (tmul O (nth i s (t0 O)) (Am i j)) (nth j t (t0 O)).

  (** Unit lower triangular [L], unit upper triangular [U]. *)
  Definition Lmat (o : CRout O) (i c : nat) : T := if i =? c then t1 O else ccs_mat (o_L o) i c.
  Definition Umat (o : CRout O) (c j : nat) : T := if c =? j then t1 O else crs_mat (o_U o) c j.
  (** Entry [(i,j)] of L D U. *)
  Definition LDU (o : CRout O) (i j : nat) : T :=
    sum (o_m o) (fun c => tmul O (tmul O (Lmat o i c) (nth c (o_d o) (t0 O))) (Umat o c j)).

  (** A strictly triangular factor, in valid storage without gaps, whose primaries
      are split by [start] into an index-below-[m] and an index-from-[m] part. *)
  Definition factor_ok (n m : nat) (A : CS O) (start : list nat) : Prop :=
    valid A /\ psize A = m /\ ssize A = n /\ pat_above A /\
    length (ind_start A) = m + 1 /\ length (indices A) = st A m /\ length (vals A) = st A m /\
    forall c, c < m -> st A c <= nth c start 0 <= st A (S c) /\
      forall k, st A c <= k < st A (S c) -> (ix A k < m <-> k < nth c start 0).

  (** The rows selected by the accept/defer history: [acc] the accepted positions
      of [r0], [dfr] the deferred ones, both in increasing order. *)
  Definition history (m2 : nat) (acc dfr : list nat) : Prop :=
    (forall i j, i < j < length acc -> nth i acc 0 < nth j acc 0) /\
    (forall i j, i < j < length dfr -> nth i dfr 0 < nth j dfr 0) /\
    Permutation (seq 0 m2) (acc ++ dfr).
  Definition arranged (n m2 : nat) (acc dfr r0 r : list nat) : Prop :=
    r = map (fun i => nth i r0 0) (acc ++ seq m2 (n - m2) ++ dfr).

  (** The situation in which the factorization calls a dropping rule. *)
  Definition drop_call (n step : nat) (c : CR O) (v : SV O) : Prop :=
    step < length (c_kl c) /\ step < length (c_ku c) /\
    step < length (c_p c) /\ nth step (c_p c) 0 < n /\ step < length (c_q c) /\ nth step (c_q c) 0 < n /\
    sv_ok (n * 2) v.
  (** Nothing but zeros is dropped. *)
  Definition drops_only_zeros (n : nat) (drop : nat -> CR O -> SV O -> res (SV O)) : Prop :=
    forall step c v v', drop_call n step c v -> drop step c v = Ok v' ->
      forall i, In i (held v) -> ~ In i (held v') -> nth i (sv_vals v) (t0 O) = t0 O.
  (** A dropping rule succeeds, keeps some of the held indices and changes nothing else. *)
  Definition drop_rule (n : nat) (drop : nat -> CR O -> SV O -> res (SV O)) : Prop :=
    forall step c v, drop_call n step c v ->
      exists v', drop step c v = Ok v' /\ sv_ok (n * 2) v' /\ sv_vals v' = sv_vals v /\ sv_dtags v' = sv_dtags v /\
        incl (held v') (held v).
End S.
