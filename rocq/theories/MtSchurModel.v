(** * MtSchurModel: the threaded Schur complement.

    Models [hif::mt::compute_Schur_simple] (src/hif/alg/Schur.hpp:586-760) as a small-step interleaving semantics, like
    MtModel: in one step a thread makes at most one access to a shared array that
    the running phase writes (the master, alone between the two barriers, adds up one
    offset per step); the input matrices, vectors and permutations are only read and
    the per-thread accumulators are private.  A schedule is any finite sequence of
    thread numbers; a thread standing at a barrier others have not reached does
    nothing when scheduled. *)
From Coq Require Import List Arith Lia Bool.
From Verif Require Import Base Scalar CSModel ConvModel Mag VecModel CroutModel SchurModel MtModel.
Import ListNotations.

Section Schur.
  Context {O : Ops}.
  Notation T := (T O).
  Variables (s t d : list T) (A : CS O) (p qinv : list nat) (m : nat) (L_E U_F : CS O).
  (** Contents of freshly allocated arrays. *)
  Variables (ji : nat) (jv : T).
  Let n := psize A.
  Let N := (n - m)%nat.

  (** Where a thread is.  [SCount i]: first loop, row [i] (Schur.hpp:641-661);
      [SBar1], [SPrefix i] (master only), [SBar2]: Schur.hpp:665-676;
      [SPat i], [SCopy i k]: second loop, row [i], [k] indices copied (:680-703);
      [SZero i k], [SFill i], [SOut i k]: third loop (:706-752). *)
  Inductive spc : Type :=
  | SCount (i : nat) | SBar1 | SPrefix (i : nat) | SBar2
  | SPat (i : nat) | SCopy (i k : nat)
  | SZero (i k : nat) | SFill (i : nat) | SOut (i k : nat) | SFin.

  (** A thread: its rows end before [th_hi]; private tag, accumulator, values. *)
  Record sth : Type := mkTh { th_lo : nat; th_hi : nat; th_pc : spc; th_tag : nat; th_buf : SV O; th_bv : list T }.
  (** Shared: row_start, col_ind and vals of the result. *)
  Record sconf : Type := mkSC { sc_th : list sth; sc_rs : list nat; sc_ci : list nat; sc_vs : list T }.

  Definition at_pc (th : sth) (pc : spc) : sth := mkTh (th_lo th) (th_hi th) pc (th_tag th) (th_buf th) (th_bv th).
  (** Has the thread arrived at (or passed) the first, second barrier? *)
  Definition past1 (th : sth) : bool := match th_pc th with SCount _ => false | _ => true end.
  Definition past2 (th : sth) : bool := match th_pc th with SCount _ | SBar1 | SPrefix _ => false | _ => true end.

  (** One step of thread number [u] in state [th]; returns its new state and the
      shared arrays. *)
  Definition sstep (u : nat) (th : sth) (c : sconf) : res (sth * list nat * list nat * list T) :=
    let '(mkSC ths rs ci vs) := c in
    match th_pc th with
    | SCount i =>
        if i <? th_hi th then
          buf <- schur_pattern A p qinv m L_E U_F i (th_tag th) (th_buf th) ;;
          rs <- set rs (S i) (sv_cnt buf) ;;
          Ok (mkTh (th_lo th) (th_hi th) (SCount (S i)) (S (th_tag th)) buf (th_bv th), rs, ci, vs)
        else Ok (at_pc th SBar1, rs, ci, vs)
    | SBar1 =>
        if forallb past1 ths then Ok (at_pc th (if u =? 0 then SPrefix 0 else SBar2), rs, ci, vs)
        else Ok (th, rs, ci, vs)
    | SPrefix i =>
        if i <? N then
          a <- get rs i ;; b <- get rs (S i) ;; rs <- set rs (S i) (b + a) ;;
          Ok (at_pc th (SPrefix (S i)), rs, ci, vs)
        else
          z <- get rs N ;;
          if z =? 0 then Ok (at_pc th SBar2, rs, ci, vs)
          else Ok (at_pc th SBar2, rs, repeat ji z, repeat jv z)
    | SBar2 =>
        if forallb past2 ths then
          z <- get rs N ;;
          Ok (at_pc th (if z =? 0 then SFin else SPat (th_lo th)), rs, ci, vs)
        else Ok (th, rs, ci, vs)
    | SPat i =>
        if i <? th_hi th then
          buf <- schur_pattern A p qinv m L_E U_F i (th_tag th) (th_buf th) ;;
          buf <- sv_sort buf ;;
          Ok (mkTh (th_lo th) (th_hi th) (SCopy i 0) (S (th_tag th)) buf (th_bv th), rs, ci, vs)
        else Ok (at_pc th (SZero (th_lo th) 0), rs, ci, vs)
    | SCopy i k =>
        if k <? sv_cnt (th_buf th) then
          b <- get rs i ;; j <- get (sv_inds (th_buf th)) k ;; ci <- set ci (b + k) j ;;
          Ok (at_pc th (SCopy i (S k)), rs, ci, vs)
        else Ok (at_pc th (SPat (S i)), rs, ci, vs)
    | SZero i k =>
        if i <? th_hi th then
          b <- get rs i ;; e <- get rs (S i) ;;
          if e <? b then UB
          else if b + k <? e then
            j <- get ci (b + k) ;; bv <- set (th_bv th) j (t0 O) ;;
            Ok (mkTh (th_lo th) (th_hi th) (SZero i (S k)) (th_tag th) (th_buf th) bv, rs, ci, vs)
          else Ok (at_pc th (SFill i), rs, ci, vs)
        else Ok (at_pc th SFin, rs, ci, vs)
    | SFill i =>
        bv <- schur_fill s t d A p qinv m L_E U_F i (th_bv th) ;;
        Ok (mkTh (th_lo th) (th_hi th) (SOut i 0) (th_tag th) (th_buf th) bv, rs, ci, vs)
    | SOut i k =>
        b <- get rs i ;; e <- get rs (S i) ;;
        if b + k <? e then
          j <- get ci (b + k) ;; v <- get (th_bv th) j ;; vs <- set vs (b + k) v ;;
          Ok (at_pc th (SOut i (S k)), rs, ci, vs)
        else Ok (at_pc th (SZero (S i) 0), rs, ci, vs)
    | SFin => Ok (th, rs, ci, vs)
    end.

  Definition sstep_conf (u : nat) (c : sconf) : res sconf :=
    match nth_error (sc_th c) u with
    | None => Ok c
    | Some th =>
        '(th, rs, ci, vs) <- sstep u th c ;;
        Ok (mkSC (upd (sc_th c) u th) rs ci vs)
    end.
  Definition srun (sched : list nat) (c : sconf) : res sconf := for_list sched sstep_conf c.

  (** Entry of the parallel region, Schur.hpp:621-639: [nthreads] threads, each with a
      fresh accumulator of size [N] (values [jbv], indices [jbi]) and tag [n]. *)
  Definition sinit (nthreads : nat) (jbv : list T) (jbi : list nat) : res sconf :=
    rs <- set (repeat ji (N + 1)) 0 0 ;;
    Ok (mkSC (map (fun u => let '(lo, hi) := uniform_partition N nthreads u in
                            mkTh lo hi (SCount lo) n (sv_new (O:=O) N jbv jbi) jbv) (seq 0 nthreads)) rs [] []).
  Definition sdone (c : sconf) : Prop := forall th, In th (sc_th c) -> th_pc th = SFin.
  Definition sresult (c : sconf) : CS O := mkCS N N (sc_rs c) (sc_ci c) (sc_vs c).

  (** Not modelled: the test that decides whether the threads are used at all
      (Schur.hpp:593-618, sizes above 200 and 10000); below it the serial code runs. *)
End Schur.
