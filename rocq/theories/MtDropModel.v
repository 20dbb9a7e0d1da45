(** * MtDropModel: thinning both offset blocks with several threads.

    Models [hif::mt::drop_L_E_and_U_F] (src/hif/alg/Schur.hpp:409-565) in the style of
    MtSchurModel: a schedule is any finite sequence of thread numbers, and in one step a
    thread makes at most one access to the shared arrays, except that [std::nth_element]
    on the thread's own primary is one step, and so is one round of the compression, which
    each block leaves to a single thread.  Not modelled: the bound of 200 primaries below
    which the serial code runs, and teams smaller than requested. *)
From Coq Require Import List Arith Lia Bool.
From Verif Require Import Base Scalar CSModel ConvModel Mag VecModel CroutModel SchurModel MtModel.
Import ListNotations.

Section Drop.
  Context {O : Ops}.
  Notation T := (T O).
  Variable G : Mag O.
  Variable ceil_mul : M G -> nat -> nat.
  Variable nth_el : (nat -> M G) -> nat -> list nat -> list nat.
  (** The block is named by a Boolean: [false] L_E, [true] U_F.  [ref], [alpha]:
      reference starts and limit of each block. *)
  Variable ref : bool -> list nat.
  Variable alpha : bool -> M G.

  (** The arrays of one block: gaps, start array, indices, values. *)
  Record half : Type := mkHalf { h_gaps : list nat; h_ptr : list nat; h_ind : list nat; h_val : list T }.

  (** Where a thread is.  [DRow u i]: about to look at primary [i] of block [u]
      (Schur.hpp:472-476, :496-500); [DFetch u i k]: values fetched up to position [k]
      (:478-482); [DSel u i]: nth_element (:484-489); [DBack u i k]: values stored up to
      [k] (:491-492); [DBar]: the barrier (:521); [DComp i prev pos]: compression, primary
      [i] (:526-541 on thread 0, :544-559 on thread 1). *)
  Inductive dpc : Type :=
  | DRow (u : bool) (i : nat) | DFetch (u : bool) (i k : nat) | DSel (u : bool) (i : nat) | DBack (u : bool) (i k : nat)
  | DBar | DComp (i prev pos : nat) | DFin.

  (** A thread: its primaries are [lo..hi-1]; [dt_buf] is its own value buffer. *)
  Record dth : Type := mkDT { dt_lo : nat; dt_hi : nat; dt_pc : dpc; dt_buf : list T }.
  Record dconf : Type := mkDC { dc_th : list dth; dc_L : half; dc_U : half }.

  Definition d_at (th : dth) (pc : dpc) : dth := mkDT (dt_lo th) (dt_hi th) pc (dt_buf th).
  Definition d_past (th : dth) : bool := match dt_pc th with DRow _ _ | DFetch _ _ _ | DSel _ _ | DBack _ _ _ => false | _ => true end.
  (** After primary [i] of L_E comes primary [i] of U_F, then primary [i+1] of L_E. *)
  Definition d_next (u : bool) (i : nat) : dpc := if u then DRow false (S i) else DRow true i.
  Definition d_half (u : bool) (c : dconf) : half := if u then dc_U c else dc_L c.

  (** [std::ceil(alpha * (ref[i+1] - ref[i]))], the bounds of primary [i]. *)
  Definition d_thr (u : bool) (i : nat) : res nat :=
    r1 <- get (ref u) (S i) ;; r0 <- get (ref u) i ;;
    if r1 <? r0 then UB else Ok (ceil_mul (alpha u) (r1 - r0)).
  Definition d_bounds (h : half) (i : nat) : res (nat * nat) :=
    e <- get (h_ptr h) (S i) ;; b <- get (h_ptr h) i ;; if e <? b then UB else Ok (b, e).

  (** One step on block [u] with arrays [h]. *)
  Definition dstep_row (u : bool) (th : dth) (h : half) : res (dth * half) :=
    match dt_pc th with
    | DRow _ i =>
        thr <- d_thr u i ;; '(b, e) <- d_bounds h i ;;
        if e - b <=? thr then g <- set (h_gaps h) i 0 ;; Ok (d_at th (d_next u i), mkHalf g (h_ptr h) (h_ind h) (h_val h))
        else g <- set (h_gaps h) i (e - b - thr) ;; Ok (d_at th (DFetch u i b), mkHalf g (h_ptr h) (h_ind h) (h_val h))
    | DFetch _ i k =>
        '(b, e) <- d_bounds h i ;;
        if k <? e then
          j <- get (h_ind h) k ;; v <- get (h_val h) k ;; buf <- set (dt_buf th) j v ;;
          Ok (mkDT (dt_lo th) (dt_hi th) (DFetch u i (S k)) buf, h)
        else Ok (d_at th (DSel u i), h)
    | DSel _ i =>
        thr <- d_thr u i ;; '(b, e) <- d_bounds h i ;;
        if (thr =? 0) || (length (h_ind h) <? e) then UB
        else
          let ind := firstn b (h_ind h) ++ nth_el (fun j => mabs G (nth j (dt_buf th) (t0 O))) thr (slice b (e - b) (h_ind h)) ++ skipn e (h_ind h) in
          Ok (d_at th (DBack u i b), mkHalf (h_gaps h) (h_ptr h) ind (h_val h))
    | DBack _ i k =>
        thr <- d_thr u i ;; '(b, e) <- d_bounds h i ;;
        if k <? b + thr then
          j <- get (h_ind h) k ;; v <- get (dt_buf th) j ;; val <- set (h_val h) k v ;;
          Ok (d_at th (DBack u i (S k)), mkHalf (h_gaps h) (h_ptr h) (h_ind h) val)
        else Ok (d_at th (d_next u i), h)
    | _ => Ok (th, h)
    end.

  (** One step of the compression of a block of [n] primaries; the resize at the end. *)
  Definition dstep_comp (n i prev pos : nat) (th : dth) (h : half) : res (dth * half) :=
    if i <? n then
      '(ptr, prev, pos, ind, val) <- drop_compress (h_gaps h) i (h_ptr h, prev, pos, h_ind h, h_val h) ;;
      Ok (d_at th (DComp (S i) prev pos), mkHalf (h_gaps h) ptr ind val)
    else
      z <- get (h_ptr h) n ;;
      Ok (d_at th DFin, mkHalf (h_gaps h) (h_ptr h) (firstn z (h_ind h)) (firstn z (h_val h))).

  (** One step of thread number [v]. *)
  Definition dstep (n v : nat) (th : dth) (c : dconf) : res (dth * half * half) :=
    let on_block (u : bool) (r : res (dth * half)) : res (dth * half * half) :=
      '(th, h) <- r ;; Ok (if u then (th, dc_L c, h) else (th, h, dc_U c)) in
    match dt_pc th with
    | DRow false i =>
        if i <? dt_hi th then on_block false (dstep_row false th (dc_L c)) else Ok (d_at th DBar, dc_L c, dc_U c)
    | DRow true i | DFetch true i _ | DSel true i | DBack true i _ => on_block true (dstep_row true th (dc_U c))
    | DFetch false i _ | DSel false i | DBack false i _ => on_block false (dstep_row false th (dc_L c))
    | DBar =>
        if forallb d_past (dc_th c) then
          if v =? 0 then (prev <- get (h_ptr (dc_L c)) 0 ;; Ok (d_at th (DComp 0 prev 0), dc_L c, dc_U c))
          else if v =? 1 then (prev <- get (h_ptr (dc_U c)) 0 ;; Ok (d_at th (DComp 0 prev 0), dc_L c, dc_U c))
          else Ok (d_at th DFin, dc_L c, dc_U c)
        else Ok (th, dc_L c, dc_U c)
    | DComp i prev pos =>
        if v =? 0 then on_block false (dstep_comp n i prev pos th (dc_L c))
        else on_block true (dstep_comp n i prev pos th (dc_U c))
    | DFin => Ok (th, dc_L c, dc_U c)
    end.

  Definition dstep_conf (n v : nat) (c : dconf) : res dconf :=
    match nth_error (dc_th c) v with
    | None => Ok c
    | Some th => '(th, hL, hU) <- dstep n v th c ;; Ok (mkDC (upd (dc_th c) v th) hL hU)
    end.
  Definition drun (n : nat) (sched : list nat) (c : dconf) : res dconf := for_list sched (dstep_conf n) c.

  Definition half_of (A : CS O) (gaps : list nat) : half := mkHalf gaps (ind_start A) (indices A) (vals A).
  Definition cs_of (A : CS O) (h : half) : CS O := mkCS (psize A) (ssize A) (h_ptr h) (h_ind h) (h_val h).

  (** Four threads or more, Schur.hpp:447-468: [bufs u] is the value buffer of thread [u]
      ([buf_L], [buf_U], then fresh arrays). *)
  Definition dinit (nthreads : nat) (L_E U_F : CS O) (gaps_L gaps_U : list nat) (bufs : nat -> list T) : dconf :=
    mkDC (map (fun v => let '(lo, hi) := uniform_partition (psize L_E) nthreads v in mkDT lo hi (DRow false lo) (bufs v)) (seq 0 nthreads))
      (half_of L_E gaps_L) (half_of U_F gaps_U).
  Definition ddone (c : dconf) : Prop := forall th, In th (dc_th c) -> dt_pc th = DFin.

  (** Two or three threads, Schur.hpp:435-445: each block is thinned by one thread of a
      team of two.  The blocks share no array, so a whole call is one step; [None]: not
      done yet. *)
  Definition pair_step (L_E U_F : CS O) (buf_L buf_U : list T) (gaps_L gaps_U : list nat) (v : nat)
    (c : option (CS O) * option (CS O)) : res (option (CS O) * option (CS O)) :=
    match v, c with
    | 0, (l, None) => B <- drop_block G ceil_mul nth_el (ref true) (alpha true) U_F buf_U gaps_U ;; Ok (l, Some B)
    | 1, (None, u) => B <- drop_block G ceil_mul nth_el (ref false) (alpha false) L_E buf_L gaps_L ;; Ok (Some B, u)
    | _, _ => Ok c
    end.
  Definition pair_run L_E U_F buf_L buf_U gaps_L gaps_U (sched : list nat) : res (option (CS O) * option (CS O)) :=
    for_list sched (pair_step L_E U_F buf_L buf_U gaps_L gaps_U) (None, None).
End Drop.
