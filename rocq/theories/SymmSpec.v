(** * SymmSpec: what the factorization of one symmetric level must deliver.

    [o] is the outcome: leading size [o_m o], permutation [o_p o], the unit lower
    triangular factor [o_L o] stored by columns, the diagonal [o_d o].  The upper factor
    is the transpose of the lower one and is not stored at this point. *)
From Coq Require Import List Arith Bool.
From Verif Require Import Base Scalar Spec CSModel CSSpec VecModel VecSpec CroutModel CroutSpec PrecModel LevelMath FactorModel FactorSpec SymmModel.
Import ListNotations.

Section S.
  Context {O : Ops}.
  Notation T := (T O).

  (** Entry [(i,j)] of L D L^T; [Lmat] (CroutSpec.v) is [L] with its unit diagonal. *)
  Definition LDLt (o : CRout O) (i j : nat) : T :=
    sum (o_m o) (fun c => tmul O (tmul O (Lmat o i c) (nth c (o_d o) (t0 O))) (Lmat o j c)).

  (** The input of a level: the matrix, scalings of the right length, permutations with
      their inverses, work arrays of the right size. *)
  Definition symm_input (n m2 : nat) (s t : list T) (A : CS O) (p q : BiPerm)
    (jk : list T) (js : list nat) (jP : list (option nat)) (jv : list T) (ji : list nat) : Prop :=
    valid A /\ psize A = n /\ ssize A = n /\ length s = n /\ length t = n /\ m2 <= n /\
    is_inv n (bp p) (bpi p) /\ is_inv n (bp q) (bpi q) /\
    length jk = m2 /\ length js = m2 /\ length jP = n /\ length jv = n * 2 /\ length ji = n * 2.

  (** The scaled matrix is symmetric. *)
  Definition symm_scaled (n : nat) (s t : list T) (A : CS O) : Prop :=
    forall i j, i < n -> j < n -> scaled s t (ccs_mat A) i j = scaled s t (ccs_mat A) j i.

  (** The situation in which the factorization calls the dropping rule. *)
  Definition symm_call (n step : nat) (c : SR O) (v : SV O) : Prop :=
    step < length (y_kl c) /\ step < length (y_p c) /\ nth step (y_p c) 0 < n /\ sv_ok (n * 2) v.
  (** Nothing but zeros is dropped. *)
  Definition symm_only_zeros (n : nat) (drop : nat -> SR O -> SV O -> res (SV O)) : Prop :=
    forall step c v v', symm_call n step c v -> drop step c v = Ok v' ->
      forall i, In i (held v) -> ~ In i (held v') -> nth i (sv_vals v) (t0 O) = t0 O.
  (** A dropping rule succeeds, keeps some of the held indices and changes nothing else. *)
  Definition symm_rule (n : nat) (drop : nat -> SR O -> SV O -> res (SV O)) : Prop :=
    forall step c v, symm_call n step c v ->
      exists v', drop step c v = Ok v' /\ sv_ok (n * 2) v' /\ sv_vals v' = sv_vals v /\ sv_dtags v' = sv_dtags v /\
        incl (held v') (held v).

  (** ** The hierarchy *)
  Variable pre : nat -> CS O -> CS O -> res (list T * list T * BiPerm * BiPerm * nat).

  (** The preprocessing, given the same array as both storages, may only fail by raising
      an error. *)
  Definition symm_pre_safe : Prop := forall lvl n (A : CS O),
    valid A -> psize A = n -> ssize A = n -> 1 <= n ->
    pre lvl A A = Err \/ exists s t p q m2, pre lvl A A = Ok (s, t, p, q, m2) /\ pre_good n s t p q m2.

  (** On nonsingular symmetric matrices it succeeds and treats rows and columns alike. *)
  Definition symm_pre_total : Prop := forall lvl n (A : CS O),
    valid A -> psize A = n -> ssize A = n -> 1 <= n -> meq n n (crs_mat A) (ccs_mat A) -> injective_on n (crs_mat A) ->
    exists s p q m2, pre lvl A A = Ok (s, s, p, q, m2) /\ pre_good n s s p q m2 /\ bp q = bp p.

  (** The symmetric last-level solver [S] solves with [C] and multiplies by it. *)
  Definition symm_exact_at (ld k : nat) (C : nat -> nat -> T) (S : Dense O) : Prop := forall y, length y = k ->
    (exists z, ds_solve S ld false y = Ok z /\ length z = k /\ veq k (mvec k C (v_ z)) (v_ y)) /\
    (exists z, ds_mul S ld false y = Ok z /\ length z = k /\ veq k (v_ z) (mvec k C (v_ y))).

  (** It returns an array of the size of its argument, for any matrix it was built from. *)
  Definition symm_total (mk : nat -> list T -> Dense O) : Prop := forall k D ld y,
    1 <= k -> length D = k * k -> length y = k ->
    (exists z, ds_solve (mk k D) ld false y = Ok z /\ length z = k) /\
    (exists z, ds_mul (mk k D) ld false y = Ok z /\ length z = k).
End S.
