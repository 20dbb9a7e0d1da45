(** * MtModel: work partition and threaded products.

    Models src/hif/utils/mt.hpp and src/hif/utils/mt_mv.hpp.  The parallel
    region is a small-step interleaving semantics: every thread has private
    variables, the output [y] is shared, the matrix and [x] are shared and only
    read; one step of one thread is one loop test, the accumulation of one
    entry into the private sum, or one write to [y].  A schedule is any finite
    sequence of thread numbers. *)
From Coq Require Import List Arith Lia Bool.
From Verif Require Import Base Scalar CSModel.
Import ListNotations.

(** uniform_partition(n, threads, thread), mt.hpp:91-103. *)
Definition uniform_partition (n threads thread : nat) : nat * nat :=
  let B := n / threads in
  let offsets := n - B * threads in
  let start := B * thread in
  let len := B in
  if offsets =? 0 then (start, len + start)
  else
    let shift := threads - offsets in
    if shift <=? thread then (start + (thread - shift), S len + (start + (thread - shift)))
    else (start, len + start).

Section Threads.
  Context {O : Ops}.
  Notation T := (T O).
  (** The part of the kernels that differs: the private accumulator [L], its
      initial value, the accumulation of one entry, the number of output words
      per row and the word written. *)
  Variable L : Type.
  Variable init : L.
  Variable acc : nat -> T -> L -> res L.
  Variable N : nat.
  Variable out : L -> nat -> res T.
  Variable A : CS O.

  (** Program counter and private variables of a thread running
      CRS::multiply_nt_low(x, istart, len, y), CompressedStorage.hpp:1108-1127
      (or the multi-RHS kernel, :1137-1159). *)
  Inductive loc : Type :=
  | RowStart (i : nat)
  | InRow (i k e : nat) (tmp : L)
  | Writing (i c : nat) (tmp : L)
  | Done.

  (** One step of a thread whose rows end before [hi]. *)
  Definition tstep (hi : nat) (l : loc) (y : list T) : res (loc * list T) :=
    match l with
    | RowStart i =>
        if i <? hi then
          b <- get (ind_start A) i ;; e <- get (ind_start A) (S i) ;;
          if e <? b then UB else Ok (InRow i b e init, y)
        else Ok (Done, y)
    | InRow i k e tmp =>
        if k <? e then
          j <- get (indices A) k ;; v <- get (vals A) k ;;
          tmp <- acc j v tmp ;; Ok (InRow i (S k) e tmp, y)
        else Ok (Writing i 0 tmp, y)
    | Writing i c tmp =>
        if c <? N then
          w <- out tmp c ;; y <- set y (i * N + c) w ;; Ok (Writing i (S c) tmp, y)
        else Ok (RowStart (S i), y)
    | Done => Ok (Done, y)
    end.

  (** State of the parallel region: the threads and the shared output. *)
  Record conf : Type := mkConf { cthreads : list (nat * loc); cy : list T }.

  (** The scheduler lets thread [t] take one step. *)
  Definition cstep (t : nat) (c : conf) : res conf :=
    match nth_error (cthreads c) t with
    | None => Ok c
    | Some (hi, l) =>
        '(l', y') <- tstep hi l (cy c) ;;
        Ok (mkConf (upd (cthreads c) t (hi, l')) y')
    end.
  Definition crun (sched : list nat) (c : conf) : res conf := for_list sched cstep c.

  (** Entry of the parallel region, mt_mv.hpp:67-72: a team of [team] threads, each of
      which partitions the rows for [nthreads] threads. *)
  Definition cinit (nthreads team : nat) (y : list T) : conf :=
    mkConf (map (fun t => let '(lo, hi) := uniform_partition (psize A) nthreads t in
                          (hi, RowStart lo)) (seq 0 team)) y.
  Definition all_done (c : conf) : Prop := forall hi l, In (hi, l) (cthreads c) -> l = Done.
End Threads.
Arguments RowStart {L}. Arguments InRow {L}. Arguments Writing {L}. Arguments Done {L}.
Arguments mkConf {O L}. Arguments cthreads {O L}. Arguments cy {O L}. Arguments all_done {O L}.

Section Kernels.
  Context {O : Ops}.
  Notation T := (T O).
  (** mt::multiply_nt_low (row major), mt_mv.hpp:84-97: the parallel region under the
      schedule [sched]. *)
  Definition mt_nt_run (nthreads team : nat) (A : CS O) (x y : list T) (sched : list nat) : res (conf T) :=
    crun T (t0 O) (fun j v tmp => xj <- get x j ;; Ok (tadd O tmp (tmul O v xj))) 1
      (fun tmp _ => Ok tmp) A sched (cinit T A nthreads team y).

  (** mt::multiply_mrhs_nt_low (row major), mt_mv.hpp:160-175. *)
  Definition mt_mrhs_nt_run (N nthreads team : nat) (A : CS O) (x y : list T) (sched : list nat)
    : res (conf (list T)) :=
    crun (list T) (repeat (t0 O) N)
      (fun j v tmp => blk_upd O N 0 (fun k a => xj <- get x (j * N + k) ;; Ok (tadd O a (tmul O v xj))) tmp) N
      (fun tmp k => get tmp k) A sched (cinit (list T) A nthreads team y).
End Kernels.
