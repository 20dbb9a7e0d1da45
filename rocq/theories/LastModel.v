(** * LastModel: QRCP as the solver of the last level.

    factor.hpp:1283-1295 ([set_matrix] and [factorize] of the [dense_solver], which
    small_scale/solver.hpp makes a [QRCP] for general matrices). *)
From Coq Require Import List Arith Bool QArith.
From Verif Require Import Base Scalar PrecModel DenseModel.
Import ListNotations.
Local Open Scope nat_scope.

Section Last.
  Variable O : Ops.
  Notation T := (T O).
  Variable is0 : T -> bool.
  Variable mag : T -> Q.
  Variable fmul : Q -> Q -> Q.
  Variable laic1 : bool -> nat -> list T -> Q -> list T -> T -> Q * T * T.
  Variable jv : T.
  Variables diag_tol cond_def cond_opt : Q.
  (** [geqp3] on a [k] by [k] array: the array it leaves and the pivots; [ormqr] with the
      reflectors stored in the array it left. *)
  Variable geqp3 : nat -> list T -> list T * list nat.
  Variable ormqr : nat -> list T -> bool -> nat -> list T -> list T.

  (** The factorized solver; a rank decision that fails is represented by rank 0 (it does not
      fail on square nonempty matrices). *)
  Definition qr_of (k : nat) (D : list T) : QR O :=
    let (m, jpvt) := geqp3 k D in
    mkQR k k m jpvt (match qrcp_rank O mag fmul laic1 jv diag_tol cond_def cond_opt k k m with Ok r => r | _ => 0 end).
  Definition mk_qrcp (k : nat) (D : list T) : Dense O :=
    mkDense O (fun ld tr y => qr_solve O is0 (ormqr k D) jv (qr_of k D) y ld tr)
              (fun ld tr y => qr_multiply O (ormqr k D) jv (qr_of k D) y ld tr)
              (q_rank (qr_of k D)).
End Last.
