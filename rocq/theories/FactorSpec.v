(** * FactorSpec: what the factorization is expected to deliver, and the
    conditions under which it is.  Nothing here mentions how a level is computed. *)
From Coq Require Import List Arith Lia Bool.
From Verif Require Import Base Scalar Spec CSModel CSSpec ConvModel ConvSpec Mag VecModel LevelMath PruneModel CroutModel PrecModel FactorModel.
Import ListNotations.

Section FS.
  Context {O : Ops}.
  Notation T := (T O).
  Variable G : Mag O.

  (** The matrix of a row-major ([rm = true]) or column-major compressed matrix. *)
  Definition matof (rm : bool) (A : CS O) : nat -> nat -> T := if rm then crs_mat A else ccs_mat A.

  (** What a preprocessing must return for an [n] by [n] matrix: nonzero real
      scalings, two permutations with their inverses, a leading size. *)
  Record pre_good (n : nat) (s t : list T) (p q : BiPerm) (m2 : nat) : Prop := {
    pg_s : length s = n; pg_t : length t = n; pg_m : m2 <= n;
    pg_p : is_inv n (bp p) (bpi p); pg_q : is_inv n (bp q) (bpi q);
    pg_s0 : forall i, i < n -> nth i s (t0 O) <> t0 O; pg_t0 : forall i, i < n -> nth i t (t0 O) <> t0 O;
    pg_sr : forall i, i < n -> tconj O (nth i s (t0 O)) = nth i s (t0 O);
    pg_tr : forall i, i < n -> tconj O (nth i t (t0 O)) = nth i t (t0 O) }.

  Variable pre : nat -> CS O -> CS O -> res (list T * list T * BiPerm * BiPerm * nat).

  (** The preprocessing may only fail by raising an error. *)
  Definition pre_safe : Prop := forall lvl n (A_ccs A_crs : CS O),
    valid A_ccs -> valid A_crs -> psize A_ccs = n -> ssize A_ccs = n -> psize A_crs = n -> ssize A_crs = n -> 1 <= n ->
    pre lvl A_ccs A_crs = Err \/
    exists s t p q m2, pre lvl A_ccs A_crs = Ok (s, t, p, q, m2) /\ pre_good n s t p q m2.

  (** It succeeds on nonsingular matrices. *)
  Definition pre_total : Prop := forall lvl n (A_ccs A_crs : CS O),
    valid A_ccs -> valid A_crs -> psize A_ccs = n -> ssize A_ccs = n -> psize A_crs = n -> ssize A_crs = n -> 1 <= n ->
    injective_on n (crs_mat A_crs) ->
    exists s t p q m2, pre lvl A_ccs A_crs = Ok (s, t, p, q, m2) /\ pre_good n s t p q m2.

  (** The matrix stored in the column-major array [D]. *)
  Definition col_mat (k : nat) (D : list T) (i j : nat) : T := nth (i + j * k) D (t0 O).

  (** The last-level solver [S], called with the rank argument [ld], solves with [C] and its
      adjoint and multiplies by them. *)
  Definition exact_at (ld k : nat) (C : nat -> nat -> T) (S : Dense O) : Prop := forall y, length y = k ->
      (exists z, ds_solve S ld false y = Ok z /\ length z = k /\ veq k (mvec k C (v_ z)) (v_ y)) /\
      (exists z, ds_solve S ld true y = Ok z /\ length z = k /\ veq k (mvec k (madj C) (v_ z)) (v_ y)) /\
      (exists z, ds_mul S ld false y = Ok z /\ length z = k /\ veq k (v_ z) (mvec k C (v_ y))) /\
      (exists z, ds_mul S ld true y = Ok z /\ length z = k /\ veq k (v_ z) (mvec k (madj C) (v_ y))).

  (** It is so for every nonsingular matrix of size up to [n]. *)
  Definition exact_dense (n ld : nat) (mk_dense : nat -> list T -> Dense O) : Prop := forall k D, 1 <= k -> k <= n ->
    length D = k * k -> injective_on k (col_mat k D) -> exact_at ld k (col_mat k D) (mk_dense k D).

  (** The last-level solver returns an array of the size of its argument, for any
      matrix it was built from. *)
  Definition total_dense (mk_dense : nat -> list T -> Dense O) : Prop := forall k D ld tr y,
    1 <= k -> length D = k * k -> length y = k ->
    (exists z, ds_solve (mk_dense k D) ld tr y = Ok z /\ length z = k) /\
    (exists z, ds_mul (mk_dense k D) ld tr y = Ok z /\ length z = k).

  (** ** Parameters *)
  Variables shrink times : M G -> nat -> M G.
  Variable mdiv : M G -> M G -> M G.
  Variable ceil_mul : M G -> nat -> nat.
  Variable opts : HOpts G.

  (** A positive factor times a positive size is at least one after rounding up. *)
  Definition ceil_pos (a : M G) : Prop := mlt G (m0 G) a = true -> forall k, 1 <= k -> 1 <= ceil_mul a k.
  (** The factor [a] is large enough never to limit anything of length [2 n]. *)
  Definition generous (n : nat) (a : M G) : Prop := mlt G (m0 G) a = true /\ forall k, 1 <= k -> n * 2 <= ceil_mul a k.

  (** The factors of the offset dropping at level [lvl], four times as large after pivoting. *)
  Definition offset_factor (a : M G) (piv : bool) (lvl : nat) : M G :=
    let a := if piv then times a 4 else a in
    if (lvl =? 1) && h_fat_schur_1st G opts then times a 2 else a.
  Definition aL : bool -> nat -> M G := offset_factor (h_alpha_L G opts).
  Definition aU : bool -> nat -> M G := offset_factor (h_alpha_U G opts).
  (** All the multiples of a space factor that occur. *)
  Definition multiples (a : M G) : list (M G) :=
    [a; times a 1; times a 2; times a 4; times (times a 1) 4; times (times a 2) 4; times (times a 4) 2].

  (** Dropping is disabled for systems of size up to [n]: both drop tolerances are
      zero and stay so, both space factors are unlimited and stay so. *)
  Record dropping_off (n : nat) : Prop := {
    do_div : forall x, mle G (mdiv (m0 G) x) (m0 G) = true;
    do_shrink : forall lvl, shrink (m0 G) lvl = m0 G;
    do_tau_L : h_tau_L G opts = m0 G;
    do_tau_U : h_tau_U G opts = m0 G;
    do_alpha_L : Forall (generous n) (multiples (h_alpha_L G opts));
    do_alpha_U : Forall (generous n) (multiples (h_alpha_U G opts)) }.
End FS.
