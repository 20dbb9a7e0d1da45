(** * DenseModel: the dense solvers of the last level.

    Models src/hif/small_scale/QRCP.hpp, SYEIG.hpp and LUP.hpp: the rank decision of
    [factorize], the solves and products with their rank argument, the versions
    for several right-hand sides.  LAPACK and BLAS are outside the code: [geqp3],
    [ormqr], [laic1], [syev], [getrf], [gemv] are parameters (their contracts are
    hypotheses of the theorems); [trsv] and [trmv] are written out from their
    contract, a division by zero being [UB] (the reference BLAS skips it when the
    right-hand side entry is zero).  Magnitudes are rationals, and [fmul] is the
    (rounded) product.  Work space queries and failures reported by LAPACK are left out. *)
From Coq Require Import List Arith Bool QArith Qabs.
From Verif Require Import Base Scalar.
Import ListNotations.
Local Open Scope nat_scope.

(** [a < b] on magnitudes. *)
Definition qltb (a b : Q) : bool := negb (Qle_bool b a).

(** Column [c] of a column-major array with [nr] rows: [x + c * nr] seen as an array of
    [nr] entries, and storing to it. *)
Definition get_col {A} (nr c : nat) (x : list A) : res (list A) :=
  if c * nr + nr <=? length x then Ok (slice (c * nr) nr x) else UB.
Definition put_col {A} (nr c : nat) (x v : list A) : res (list A) :=
  if (c * nr + nr <=? length x) && (length v =? nr)
  then Ok (firstn (c * nr) x ++ v ++ skipn (c * nr + nr) x) else UB.

Section Dense.
  Variable O : Ops.
  Notation T := (T O).
  Variable is0 : T -> bool.
  Variable mag : T -> Q.          (* abs *)
  Variable fmul : Q -> Q -> Q.

  Definition divz (a b : T) : res T := if is0 b then UB else Ok (tdiv O a b).

  (** [m(i, j)], DenseMatrix.hpp:285-300: column-major with [nr] rows. *)
  Definition dget (nr : nat) (m : list T) (i j : nat) : res T := if i <? nr then get m (i + j * nr) else UB.

  (** BLAS [trsv('U', 'N', 'N', k, m, nr, x, 1)]. *)
  Fixpoint trsv_n (nr : nat) (m : list T) (k : nat) (x : list T) : res (list T) :=
    match k with
    | 0 => Ok x
    | S k' =>
      xk <- get x k' ;; d <- dget nr m k' k' ;; y <- divz xk d ;;
      x <- set x k' y ;;
      x <- for_range 0 k' (fun i x => xi <- get x i ;; r <- dget nr m i k' ;; set x i (tsub O xi (tmul O r y))) x ;;
      trsv_n nr m k' x
    end.
  (** BLAS [trsv('U', 'C', 'N', k, m, nr, x, 1)]. *)
  Definition trsv_c (nr : nat) (m : list T) (k : nat) (x : list T) : res (list T) :=
    for_range 0 k (fun j x =>
      xj <- get x j ;;
      t <- for_range 0 j (fun i t => r <- dget nr m i j ;; xi <- get x i ;; Ok (tsub O t (tmul O (tconj O r) xi))) xj ;;
      d <- dget nr m j j ;; y <- divz t (tconj O d) ;; set x j y) x.
  (** BLAS [trmv('U', 'N', 'N', k, m, nr, x, 1)]: entry [i] becomes the sum over [i <= j < k]. *)
  Definition trmv_n (nr : nat) (m : list T) (k : nat) (x : list T) : res (list T) :=
    for_range 0 k (fun i x =>
      s <- for_range i k (fun j s => r <- dget nr m i j ;; xj <- get x j ;; Ok (tadd O s (tmul O r xj))) (t0 O) ;;
      set x i s) x.
  (** BLAS [trmv('U', 'C', 'N', k, m, nr, x, 1)]: entry [j] becomes the sum over [i <= j]. *)
  Definition trmv_c (nr : nat) (m : list T) (k : nat) (x : list T) : res (list T) :=
    for_down 0 k (fun j x =>
      s <- for_range 0 (S j) (fun i s => r <- dget nr m i j ;; xi <- get x i ;; Ok (tadd O s (tmul O (tconj O r) xi))) (t0 O) ;;
      set x j s) x.

  (** ** QRCP *)
  Section QRCP.
    (** [laic1(job, j, x, sest, w, gamma)] gives [sestpr, s, c]; [true] is [JOB_MAX]. *)
    Variable laic1 : bool -> nat -> list T -> Q -> list T -> T -> Q * T * T.

    (** The loop of [_est_rank_2norm], QRCP.hpp:343-365, from rank [r] with [n - r] left. *)
    Fixpoint est_loop (fuel nr : nat) (m : list T) (tol : Q) (r : nat) (x y : list T) (smin smax : Q) : res nat :=
      match fuel with
      | 0 => Ok r
      | S fuel' =>
        w <- get_col nr r m ;;
        g <- dget nr m r r ;;
        let '(sminpr, s1, c1) := laic1 false r x smin w g in
        let '(smaxpr, s2, c2) := laic1 true r y smax w g in
        if Qle_bool smaxpr (fmul sminpr tol) then
          x <- for_range 0 r (fun i x => a <- get x i ;; set x i (tmul O a s1)) x ;;
          y <- for_range 0 r (fun i y => a <- get y i ;; set y i (tmul O a s2)) y ;;
          x <- set x r c1 ;;
          y <- set y r c2 ;;
          est_loop fuel' nr m tol (S r) x y sminpr smaxpr
        else Ok r
      end.
    (** [_est_rank_2norm], QRCP.hpp:333-366; [jv] is what the resized buffer holds. *)
    Definition est_rank_2norm (jv : T) (nr nc : nat) (m : list T) (tol : Q) : res nat :=
      d <- dget nr m 0 0 ;;
      x <- set (repeat jv nc) 0 (t1 O) ;;
      est_loop nc nr m tol 0 x x (mag d) (mag d).

    (** The rank part of [factorize], QRCP.hpp:107-179: [m] is what [geqp3] left.  [cond_opt]
        is [opts.rrqr_cond], [cond_def] the default threshold, [diag_tol] the square root of
        machine epsilon. *)
    Definition qrcp_rank (jv : T) (diag_tol cond_def cond_opt : Q) (nr nc : nat) (m : list T) : res nat :=
      if (nr * nc =? 0) then Err
      else if nr <? nc then Err
      else
        let tol := if Qle_bool cond_opt 0 then cond_def else cond_opt in
        d <- dget nr m 0 0 ;;
        let diag_eps := fmul diag_tol (mag d) in
        test <- for_down 0 (Nat.min nr nc) (fun i t => d <- dget nr m i i ;; Ok (t || qltb (mag d) diag_eps)) false ;;
        if test then est_rank_2norm jv nr nc m tol else Ok nc.

    (** A factorized solver: the array of [geqp3], the (1-based) column pivots, the rank. *)
    Record QR : Type := mkQR { q_nr : nat; q_nc : nat; q_mat : list T; q_jpvt : list nat; q_rank : nat }.
    (** [ormqr('L', trans, .., k, ..)] on one column: [true] applies the adjoint. *)
    Variable ormqr : bool -> nat -> list T -> list T.

    (** The rank used, QRCP.hpp:376-377, 423-424, 465-466, 507-508. *)
    Definition use_rank (nr rank own : nat) : nat :=
      if rank =? 0 then own else if nr <? rank then nr else rank.

    (** [x(p) = (x(0:rk), 0)], QRCP.hpp:403-410 and 535-542, on one column. *)
    Definition scatter_p (jv : T) (s : QR) (rk : nat) (x : list T) : res (list T) :=
      let n := length (q_jpvt s) in
      w <- for_range 0 rk (fun i w => p <- get (q_jpvt s) i ;; v <- get x i ;; set w (p - 1) v) (repeat jv (q_nr s)) ;;
      w <- for_range rk n (fun i w => p <- get (q_jpvt s) i ;; set w (p - 1) (t0 O)) w ;;
      Ok (firstn n w ++ skipn n x).
    (** [x = (x(p)(0:rk), 0)], QRCP.hpp:426-434 and 468-476, on one column. *)
    Definition gather_p (jv : T) (s : QR) (rk : nat) (x : list T) : res (list T) :=
      let n := length (q_jpvt s) in
      w <- for_range 0 rk (fun i w => p <- get (q_jpvt s) i ;; v <- get x (p - 1) ;; set w i v) (repeat jv (q_nr s)) ;;
      w <- for_range rk n (fun i w => set w i (t0 O)) w ;;
      Ok (firstn n w ++ skipn n x).

    (** Do something to every column of [nrhs] columns. *)
    Definition each_col (nr nrhs : nat) (f : list T -> res (list T)) (x : list T) : res (list T) :=
      for_range 0 nrhs (fun c x => v <- get_col nr c x ;; v <- f v ;; put_col nr c x v) x.

    Definition qr_ready (s : QR) : bool := negb (length (q_mat s) =? 0) && negb (length (q_jpvt s) =? 0).

    (** [_solve_nt], [_solve_t], [_multiply_nt], [_multiply_t]: QRCP.hpp:371-411, 418-453,
        460-495, 502-544. *)
    Definition solve_nt (jv : T) (s : QR) (nrhs rank : nat) (x : list T) : res (list T) :=
      if negb (qr_ready s) then Err
      else
        let rk := use_rank (q_nr s) rank (q_rank s) in
        x <- each_col (q_nr s) nrhs (fun v => Ok (ormqr true rk v)) x ;;
        x <- each_col (q_nr s) nrhs (trsv_n (q_nr s) (q_mat s) rk) x ;;
        each_col (q_nr s) nrhs (scatter_p jv s rk) x.
    Definition solve_t (jv : T) (s : QR) (nrhs rank : nat) (x : list T) : res (list T) :=
      if negb (qr_ready s) then Err
      else
        let rk := use_rank (q_nr s) rank (q_rank s) in
        x <- each_col (q_nr s) nrhs (gather_p jv s rk) x ;;
        x <- each_col (q_nr s) nrhs (trsv_c (q_nr s) (q_mat s) rk) x ;;
        each_col (q_nr s) nrhs (fun v => Ok (ormqr false rk v)) x.
    Definition multiply_nt (jv : T) (s : QR) (nrhs rank : nat) (x : list T) : res (list T) :=
      if negb (qr_ready s) then Err
      else
        let rk := use_rank (q_nr s) rank (q_rank s) in
        x <- each_col (q_nr s) nrhs (gather_p jv s rk) x ;;
        x <- each_col (q_nr s) nrhs (trmv_n (q_nr s) (q_mat s) rk) x ;;
        each_col (q_nr s) nrhs (fun v => Ok (ormqr false rk v)) x.
    Definition multiply_t (jv : T) (s : QR) (nrhs rank : nat) (x : list T) : res (list T) :=
      if negb (qr_ready s) then Err
      else
        let rk := use_rank (q_nr s) rank (q_rank s) in
        x <- each_col (q_nr s) nrhs (fun v => Ok (ormqr true rk v)) x ;;
        x <- each_col (q_nr s) nrhs (trmv_c (q_nr s) (q_mat s) rk) x ;;
        each_col (q_nr s) nrhs (scatter_p jv s rk) x.

    (** [solve] and [multiply], QRCP.hpp:211-216, 251-256. *)
    Definition qr_solve (jv : T) (s : QR) (x : list T) (rank : nat) (tran : bool) : res (list T) :=
      if negb (length x =? q_nr s) then Err
      else if tran then solve_t jv s 1 rank x else solve_nt jv s 1 rank x.
    Definition qr_multiply (jv : T) (s : QR) (x : list T) (rank : nat) (tran : bool) : res (list T) :=
      if negb (length x =? q_nr s) then Err
      else if tran then multiply_t jv s 1 rank x else multiply_nt jv s 1 rank x.

    (** Rows of [nrhs] values to column-major and back: QRCP.hpp:235-237, 240-241. *)
    Definition to_cols (nrhs : nat) (x : list (list T)) : list T :=
      flat_map (fun j => map (fun row => nth j row (t0 O)) x) (seq 0 nrhs).
    Definition of_cols (nr nrhs : nat) (m : list T) : list (list T) :=
      map (fun i => map (fun j => nth (i + j * nr) m (t0 O)) (seq 0 nrhs)) (seq 0 nr).
    (** [solve_mrhs], QRCP.hpp:230-242, and [multiply_mrhs], 270-282. *)
    Definition qr_solve_mrhs (jv : T) (s : QR) (nrhs : nat) (x : list (list T)) (rank : nat) (tran : bool) : res (list (list T)) :=
      if negb (length x =? q_nr s) then Err
      else
        m <- (if tran then solve_t jv s nrhs rank (to_cols nrhs x) else solve_nt jv s nrhs rank (to_cols nrhs x)) ;;
        Ok (of_cols (length x) nrhs m).
    Definition qr_multiply_mrhs (jv : T) (s : QR) (nrhs : nat) (x : list (list T)) (rank : nat) (tran : bool) : res (list (list T)) :=
      if negb (length x =? q_nr s) then Err
      else
        m <- (if tran then multiply_t jv s nrhs rank (to_cols nrhs x) else multiply_nt jv s nrhs rank (to_cols nrhs x)) ;;
        Ok (of_cols (length x) nrhs m).
  End QRCP.

  (** ** SYEIG *)
  Section SYEIG.
    Variable inj : Q -> T.                      (* eigenvalues are real *)
    Variable sort : (nat -> nat -> bool) -> list nat -> list nat.   (* std::sort *)

    (** [std::max_element] by magnitude: the first largest. *)
    Fixpoint max_abs (best : Q) (l : list Q) : Q :=
      match l with
      | [] => best
      | x :: t => max_abs (if qltb (Qabs best) (Qabs x) then x else best) t
      end.

    (** A count-down scan: [bad] elements reduce the rank until the first good one. *)
    Fixpoint scan_bad (bad : Q -> bool) (l : list Q) (rank : nat) : nat :=
      match l with
      | [] => rank
      | x :: t => if bad x then scan_bad bad t (rank - 1) else rank
      end.

    (** The truncation part of [factorize], SYEIG.hpp:133-170: [w] are the eigenvalues from
        [syev], [spd] is the sign of [opts.spd].  Order and rank. *)
    Definition sy_truncate (eps : Q) (spd : comparison) (w : list Q) : res (list nat * nat) :=
      match w with
      | [] => Err
      | w0 :: wt =>
        let n := length w in
        let thres := fmul eps (max_abs w0 wt) in
        let small x := Qle_bool (Qabs x) thres in
        let at_ := map (fun i => nth i w 0%Q) in
        match spd with
        | Gt => Ok (seq 0 n, scan_bad (fun x => Qle_bool x 0 || small x) (rev w) n)
        | Lt => Ok (rev (seq 0 n), scan_bad (fun x => Qle_bool 0 x || small x) w n)
        | Eq =>
          let order := sort (fun a b => qltb (Qabs (nth b w 0%Q)) (Qabs (nth a w 0%Q))) (seq 0 n) in
          Ok (order, scan_bad small (rev (at_ order)) n)
        end
      end.

    Record SY : Type := mkSY { s_n : nat; s_w : list Q; s_order : list nat; s_rank : nat }.
    (** [gemv('C', 1, _mat, x, 0, y)] and [gemv('N', ...)]: products with the eigenvectors. *)
    Variable gemv : bool -> list T -> list T.

    (** Steps 1 to 3 of [solve] and [multiply] on one column, SYEIG.hpp:200-206, 266-272. *)
    Definition sy_core (s : SY) (div : bool) (rk : nat) (x : list T) : res (list T) :=
      let work := gemv true x in
      work <- for_range 0 rk (fun i w =>
        k <- get (s_order s) i ;; a <- get w k ;; l <- get (s_w s) k ;;
        b <- (if div then divz a (inj l) else Ok (tmul O a (inj l))) ;; set w k b) work ;;
      work <- for_range rk (s_n s) (fun i w => k <- get (s_order s) i ;; set w k (t0 O)) work ;;
      Ok (gemv false work).
    (** [solve], SYEIG.hpp:190-207, [multiply], 256-273. *)
    Definition sy_apply (s : SY) (div : bool) (x : list T) (rank : nat) : res (list T) :=
      if (s_n s =? 0) || (length (s_w s) =? 0) then Err
      else if negb (length x =? s_n s) then Err
      else sy_core s div (use_rank (s_n s) rank (s_rank s)) x.
    (** [solve_mrhs], SYEIG.hpp:221-251, [multiply_mrhs], 287-317: round [i] works on
        [&_mrhs(0, i * Nrhs)]. *)
    Definition sy_apply_mrhs (s : SY) (div : bool) (nrhs : nat) (x : list (list T)) (rank : nat) : res (list (list T)) :=
      if (s_n s =? 0) || (length (s_w s) =? 0) then Err
      else if negb (length x =? s_n s) then Err
      else
        let rk := use_rank (s_n s) rank (s_rank s) in
        m <- for_range 0 nrhs (fun i m =>
               v <- get_col (s_n s) (i * nrhs) m ;; v <- sy_core s div rk v ;; put_col (s_n s) (i * nrhs) m v)
               (to_cols nrhs x) ;;
        Ok (of_cols (length x) nrhs m).
  End SYEIG.

  (** ** LUP *)
  (** [getrf] on the pivots: the (1-based) position of the first exactly zero one, or 0. *)
  Fixpoint getrf_info (pos : nat) (piv : list T) : nat :=
    match piv with
    | [] => 0
    | d :: t => if is0 d then pos else getrf_info (S pos) t
    end.
  (** The rank, LUP.hpp:102-121: [piv] is the diagonal of [U]. *)
  Definition lup_rank (piv : list T) : res nat :=
    if length piv =? 0 then Err
    else
      let info := getrf_info 1 piv in
      Ok (if 0 <? info then info - 1 else length piv).
  (** [full_rank], LUP.hpp:68 (and QRCP.hpp:73, SYEIG.hpp:73). *)
  Definition full_rank (rank nc : nat) : bool := negb (rank =? 0) && (rank =? nc).
  (** [getrs] divides by every pivot ([solve], LUP.hpp:136-145, ignores the rank). *)
  Definition lup_divides (piv : list T) : res unit :=
    for_range 0 (length piv) (fun i _ => d <- get piv i ;; _ <- divz (t1 O) d ;; Ok tt) tt.
  (** A solver made by [getrf]: its size and the diagonal of [U]; [getrs] and [gemv] (on the
      backup of the matrix) take a flag 'N', 'T' or 'C'. *)
  Inductive trop : Type := opN | opT | opC.
  Section LUP.
    Variable getrs gemv : trop -> list T -> list T.
    (** [solve], LUP.hpp:136-145. *)
    Definition lup_solve (nr : nat) (piv x : list T) (tran : bool) : res (list T) :=
      if length piv =? 0 then Err
      else if negb (length x =? nr) then Err
      else _ <- lup_divides piv ;; Ok (getrs (if tran then opT else opN) x).
    (** [multiply], LUP.hpp:179-188. *)
    Definition lup_multiply (nr : nat) (x y : list T) (tran : bool) : res (list T) :=
      if negb (length x =? nr) then Err
      else if negb (length x =? length y) then Err
      else Ok (gemv (if tran then opC else opN) x).
  End LUP.
End Dense.
Arguments mkQR {O}. Arguments q_nr {O}. Arguments q_nc {O}. Arguments q_mat {O}. Arguments q_jpvt {O}. Arguments q_rank {O}.
