(** * PrecSpec: which matrix a multilevel preconditioner stands for. *)
From Coq Require Import List Arith Lia Bool.
From Verif Require Import Base Scalar Spec CSModel CSSpec PrecModel LevelMath.
Import ListNotations.

Section PS.
  Variable O : Ops.
  Notation T := (T O).
  Notation "0" := (t0 O).

  (** The leading block [B = (I+L) D (I+U)]. *)
  Definition Bmat (P : Prec O) : nat -> nat -> T :=
    mmul (pm P) (madd mid (ccs_mat (pL P)))
      (mmul (pm P) (mdiag (v_ (pd P))) (madd mid (ccs_mat (pU P)))).

  (** Shape conditions on one level, as produced by the factorization. *)
  Record level_ok (P : Prec O) : Prop := {
    lo_m : pm P <= pn P;
    lo_L : wf (pL P) /\ psize (pL P) = pm P /\ ssize (pL P) = pm P /\ strict_lower (pm P) (ccs_mat (pL P));
    lo_U : wf (pU P) /\ psize (pU P) = pm P /\ ssize (pU P) = pm P /\ strict_upper (pm P) (ccs_mat (pU P));
    lo_d : pm P <= length (pd P) /\ forall i, i < pm P -> v_ (pd P) i <> 0;
    lo_Fc : psize (pF P) = pn P - pm P;
    lo_E : pm P < pn P -> wf (pE P) /\ psize (pE P) = pm P /\ ssize (pE P) = pn P - pm P;
    lo_F : pm P < pn P -> wf (pF P) /\ ssize (pF P) = pm P;
    lo_s : pn P <= length (ps P) /\ forall i, i < pn P -> v_ (ps P) i <> 0;
    lo_t : pn P <= length (pt P) /\ forall i, i < pn P -> v_ (pt P) i <> 0;
    lo_p : is_inv (pn P) (pp P) (pp_inv P);
    lo_q : is_inv (pn P) (pq P) (pq_inv P)
  }.

  (** Row and column scalings are real ([scalar_type]). *)
  Definition real_scaling (P : Prec O) : Prop :=
    (forall i, i < pn P -> tconj O (v_ (ps P) i) = v_ (ps P) i) /\
    (forall i, i < pn P -> tconj O (v_ (pt P) i) = v_ (pt P) i).

  (** The last-level dense solver is an exact solver for the matrix [C], used with
      the rank argument [ld]. *)
  Record dense_is (P : Prec O) (ld : nat) (C : nat -> nat -> T) : Prop := {
    di_solve : forall y, length y = pn P - pm P ->
      exists z, dense_solve O P ld false y = Ok z /\ length z = pn P - pm P /\
        veq (pn P - pm P) (mvec (pn P - pm P) C (v_ z)) (v_ y);
    di_solve_t : forall y, length y = pn P - pm P ->
      exists z, dense_solve O P ld true y = Ok z /\ length z = pn P - pm P /\
        veq (pn P - pm P) (mvec (pn P - pm P) (madj C) (v_ z)) (v_ y);
    di_mul : forall y, length y = pn P - pm P ->
      exists z, dense_mul O P ld false y = Ok z /\ length z = pn P - pm P /\
        veq (pn P - pm P) (v_ z) (mvec (pn P - pm P) C (v_ y));
    di_mul_t : forall y, length y = pn P - pm P ->
      exists z, dense_mul O P ld true y = Ok z /\ length z = pn P - pm P /\
        veq (pn P - pm P) (v_ z) (mvec (pn P - pm P) (madj C) (v_ y));
    di_inj : injective_on (pn P - pm P) C;
    di_inj_t : injective_on (pn P - pm P) (madj C)
  }.

  (** A complete hierarchy for an [n] by [n] system: every level is well formed,
      each non-last level is followed by one of the size of its Schur complement,
      the last one is closed by an exact dense solver or has nothing left. *)
  Fixpoint hier_ok (ld : nat) (precs : list (Prec O)) (n : nat) : Prop :=
    match precs with
    | [] => False
    | P :: rest => level_ok P /\ pn P = n /\
        (if is_last_level O P then pm P = pn P \/ exists C, dense_is P ld C
         else hier_ok ld rest (pn P - pm P))
    end.

  (** [M] is the matrix of the preconditioner: level by level
      [diag(s) M diag(t)], permuted by [p],[q], is [[B F][E  E B^-1 F + C]], with
      [C] the matrix of the following level. *)
  Fixpoint prec_matrix (ld : nat) (precs : list (Prec O)) (M : nat -> nat -> T) : Prop :=
    match precs with
    | [] => False
    | P :: rest => exists C,
        level_of (pm P) (pn P) (v_ (ps P)) (v_ (pt P)) (pp P) (pq P)
                 (Bmat P) (ccs_mat (pF P)) (ccs_mat (pE P)) C M /\
        (if is_last_level O P then pm P = pn P \/ dense_is P ld C
         else prec_matrix ld rest C)
    end.

  (** Sizes only: nothing is assumed about the numerical values. *)
  Record level_shape (P : Prec O) : Prop := {
    ls_m : pm P <= pn P;
    ls_L : wf (pL P) /\ psize (pL P) = pm P /\ ssize (pL P) = pm P;
    ls_U : wf (pU P) /\ psize (pU P) = pm P /\ ssize (pU P) = pm P;
    ls_d : pm P <= length (pd P);
    ls_Fc : psize (pF P) = pn P - pm P;
    ls_E : pm P < pn P -> wf (pE P) /\ psize (pE P) = pm P /\ ssize (pE P) = pn P - pm P;
    ls_F : pm P < pn P -> wf (pF P) /\ ssize (pF P) = pm P;
    ls_s : pn P <= length (ps P);
    ls_t : pn P <= length (pt P);
    ls_p : is_inv (pn P) (pp P) (pp_inv P);
    ls_q : is_inv (pn P) (pq P) (pq_inv P)
  }.

  (** A hierarchy of consistent sizes whose last dense operation [op] returns an
      array of the size of its argument. *)
  Fixpoint hier_shape (op : Prec O -> list T -> res (list T)) (precs : list (Prec O)) (n : nat) : Prop :=
    match precs with
    | [] => False
    | P :: rest => level_shape P /\ pn P = n /\
        (if is_last_level O P then pm P < pn P -> forall y, length y = pn P - pm P ->
             exists z, op P y = Ok z /\ length z = pn P - pm P
         else hier_shape op rest (pn P - pm P))
    end.
End PS.
Arguments Bmat {O}. Arguments level_ok {O}. Arguments real_scaling {O}. Arguments dense_is {O}.
Arguments hier_ok {O}. Arguments prec_matrix {O}.
Arguments level_shape {O}. Arguments hier_shape {O}.
