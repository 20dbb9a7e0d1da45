(** * PrecModel: applying the multilevel preconditioner.

    Models src/hif/alg/Prec.hpp, src/hif/alg/prec_solve.hpp and
    src/hif/alg/prec_prod.hpp with explicit output and work buffers.

    Simplifications: the last-level dense solvers (LAPACK based) are oracles
    [Dense]; mixed precision casts are the identity; all four sparse blocks are
    CCS ([Prec::mat_type]); [hif_assert]s are not modelled. *)

From Coq Require Import List Arith Lia Bool.
From Verif Require Import Base Scalar CSModel.
Import ListNotations.

(** A last-level dense solver: [solve(x, rank, tran)] and [multiply(x, rank, tran)]
    in place on an array of the size of the block (QRCP.hpp:236-268, SYEIG.hpp,
    LUP.hpp).  The internals are not modelled here. *)
Record Dense (O : Ops) : Type := mkDense {
  ds_solve : nat -> bool -> list (T O) -> res (list (T O));
  ds_mul : nat -> bool -> list (T O) -> res (list (T O));
  ds_rank : nat   (* rank() *)
}.
Arguments ds_solve {O}. Arguments ds_mul {O}. Arguments ds_rank {O}.

(** Prec.hpp:60-96,330-345 (data members).  [dense]/[symm] are [None] when the
    corresponding solver is [empty()]. *)
Record Prec (O : Ops) : Type := mkPrec {
  pm : nat;
  pn : nat;
  pL : CS O;
  pd : list (T O);
  pU : CS O;
  pE : CS O;
  pF : CS O;
  ps : list (T O);
  pt : list (T O);
  pp : list nat;
  pp_inv : list nat;
  pq : list nat;
  pq_inv : list nat;
  pdense : option (Dense O);
  psymm : option (Dense O)
}.
Arguments mkPrec {O}. Arguments pm {O}. Arguments pn {O}. Arguments pL {O}. Arguments pd {O}.
Arguments pU {O}. Arguments pE {O}. Arguments pF {O}. Arguments ps {O}. Arguments pt {O}.
Arguments pp {O}. Arguments pp_inv {O}. Arguments pq {O}. Arguments pq_inv {O}.
Arguments pdense {O}. Arguments psymm {O}.

Section Prec.
  Variable O : Ops.
  Notation T := (T O).
  Infix "+" := (tadd O). Infix "*" := (tmul O). Infix "-" := (tsub O). Infix "/" := (tdiv O).
  Notation "x ^*" := (tconj O x) (at level 30).

  (** Prec.hpp: is_last_level. *)
  Definition is_last_level (P : Prec O) : bool :=
    match pdense P, psymm P with
    | None, None => Nat.eqb (pm P) (pn P)
    | _, _ => true
    end.

  (** [for (i = lo; i < hi; ++i) l[i] = g(i, l[i])]. *)
  Definition upd_range (lo hi : nat) (g : nat -> T -> res T) (l : list T) : res (list T) :=
    for_range lo hi (fun i l => a <- get l i ;; v <- g i a ;; set l i v) l.

  (** A callee that receives the pointer [l.data() + off]. *)
  Definition on_tail (off : nat) (l : list T) (f : list T -> res (list T)) : res (list T) :=
    if off <=? length l then
      r <- f (skipn off l) ;; Ok (firstn off l ++ r)
    else UB.

  (** [std::copy] of [cnt] elements from [src + so] to [dst + d]. *)
  Definition copy_range (src : list T) (so cnt : nat) (dst : list T) (d : nat) : res (list T) :=
    for_range Datatypes.O cnt (fun i dst => a <- get src (Nat.add so i) ;; set dst (Nat.add d i) a) dst.

  (** A wrapped sub-array of [len] elements at [l.data() + off], modified in place. *)
  Definition on_sub (off len : nat) (l : list T) (f : list T -> res (list T)) : res (list T) :=
    if Nat.add off len <=? length l then
      r <- f (slice off len l) ;; Ok (firstn off l ++ r ++ skipn (Nat.add off len) l)
    else UB.

  (** prec_solve_ldu, prec_solve.hpp:204-223. *)
  Definition prec_solve_ldu (U : CS O) (d : list T) (L : CS O) (y : list T) : res (list T) :=
    let m := ssize U in
    if m =? Datatypes.O then Ok y
    else
      y <- ccs_solve_strict_lower O L y ;;
      y <- upd_range Datatypes.O m (fun i a => di <- get d i ;; Ok (a / di)) y ;;
      ccs_solve_strict_upper O U y.

  (** prec_solve_utdlt, prec_solve.hpp:284-303. *)
  Definition prec_solve_utdlt (U : CS O) (d : list T) (L : CS O) (y : list T) : res (list T) :=
    let m := ssize U in
    if m =? Datatypes.O then Ok y
    else
      y <- ccs_solve_strict_upper_tran O U y ;;
      y <- upd_range Datatypes.O m (fun i a => di <- get d i ;; Ok (a / di^*)) y ;;
      ccs_solve_strict_lower_tran O L y.

  (** [s[p[i]] * b[p[i]]] *)
  Definition sc_perm (s : list T) (p : list nat) (b : list T) (i : nat) : res T :=
    k <- get p i ;; sk <- get s k ;; bk <- get b k ;; Ok (sk * bk).

  (** [b[p[i]] / s[p[i]]] *)
  Definition unsc_perm (s : list T) (p : list nat) (b : list T) (i : nat) : res T :=
    k <- get p i ;; bk <- get b k ;; sk <- get s k ;; Ok (bk / sk).

  (** Last level: the dense solver in place on [y(m:n)]
      (prec_solve.hpp:369-380, 587-599). *)
  Definition dense_solve (P : Prec O) (ld : nat) (tran : bool) (y : list T) : res (list T) :=
    match pdense P with
    | Some D => ds_solve D ld tran y
    | None => match psymm P with
              | Some D => ds_solve D ld false y
              | None => UB
              end
    end.

  Definition dense_mul (P : Prec O) (ld : nat) (tran : bool) (y : list T) : res (list T) :=
    match pdense P with
    | Some D => ds_mul D ld tran y
    | None => match psymm P with
              | Some D => ds_mul D ld false y
              | None => UB
              end
    end.

  (** prec_solve, prec_solve.hpp:332-412.  Result: new [y] and new [work].
      Dereferencing the end iterator of the level list is [UB]. *)
  Fixpoint prec_solve (precs : list (Prec O)) (b : list T) (ld : nat) (y work : list T)
    : res (list T * list T) :=
    match precs with
    | [] => UB
    | P :: rest =>
      let m := pm P in let n := pn P in let nm := Nat.sub n m in
      work <- upd_range Datatypes.O m (fun i _ => sc_perm (ps P) (pp P) b i) work ;;
      ' (y, work) <- (if negb (nm =? Datatypes.O) then
          work <- prec_solve_ldu (pU P) (pd P) (pL P) work ;;
          y <- on_tail m y (fun ym => ccs_multiply_nt_low O (pE P) work ym) ;;
          y <- upd_range m n (fun i a => v <- sc_perm (ps P) (pp P) b i ;; Ok (v - a)) y ;;
          Ok (y, work)
        else Ok (y, work)) ;;
      ' (y, work) <- (if is_last_level P then
          if negb (nm =? Datatypes.O) then
            y <- on_sub m nm y (dense_solve P ld false) ;; Ok (y, work)
          else Ok (y, work)
        else
          (* work_b = work(m:n) <- y(m:n); recursive call on y(m:n), work(n:) *)
          work <- copy_range y m nm work m ;;
          if Nat.add m nm <=? length y then
            if n <=? length work then
              ' (ym, wn) <- prec_solve rest (slice m nm work) ld (slice m nm y) (skipn n work) ;;
              Ok (firstn m y ++ ym ++ skipn (Nat.add m nm) y, firstn n work ++ wn)
            else UB
          else UB) ;;
      work <- copy_range y m (Nat.sub (length y) m) work m ;;
      work <- (if negb (psize (pF P) =? Datatypes.O) then
          work <- ccs_multiply_nt_low O (pF P) (skipn m y) work ;;
          upd_range Datatypes.O m (fun i a => v <- sc_perm (ps P) (pp P) b i ;; Ok (v - a)) work
        else if negb (nm =? Datatypes.O) then
          upd_range Datatypes.O m (fun i _ => sc_perm (ps P) (pp P) b i) work
        else Ok work) ;;
      work <- prec_solve_ldu (pU P) (pd P) (pL P) work ;;
      y <- upd_range Datatypes.O n (fun i _ =>
             ti <- get (pt P) i ;; k <- get (pq_inv P) i ;; wk <- get work k ;; Ok (ti * wk)) y ;;
      Ok (y, work)
    end.

  (** prec_solve_tran, prec_solve.hpp:541-612. *)
  Fixpoint prec_solve_tran (precs : list (Prec O)) (b : list T) (ld : nat) (y work : list T)
    : res (list T * list T) :=
    match precs with
    | [] => UB
    | P :: rest =>
      let m := pm P in let n := pn P in let nm := Nat.sub n m in
      work <- upd_range Datatypes.O m (fun i _ => sc_perm (pt P) (pq P) b i) work ;;
      ' (y, work) <- (if negb (psize (pF P) =? Datatypes.O) then
          work <- prec_solve_utdlt (pU P) (pd P) (pL P) work ;;
          y <- on_tail m y (fun ym => ccs_multiply_t_low O (pF P) work ym) ;;
          y <- upd_range m n (fun i a => v <- sc_perm (pt P) (pq P) b i ;; Ok (v - a)) y ;;
          Ok (y, work)
        else if negb (nm =? Datatypes.O) then
          y <- upd_range m n (fun i _ => sc_perm (pt P) (pq P) b i) y ;;
          Ok (y, work)
        else Ok (y, work)) ;;
      ' (y, work) <- (if is_last_level P then
          if negb (nm =? Datatypes.O) then
            y <- on_sub m nm y (dense_solve P ld true) ;; Ok (y, work)
          else Ok (y, work)
        else
          work <- copy_range y m nm work m ;;
          if Nat.add m nm <=? length y then
            if n <=? length work then
              ' (ym, wn) <- prec_solve_tran rest (slice m nm work) ld (slice m nm y) (skipn n work) ;;
              Ok (firstn m y ++ ym ++ skipn (Nat.add m nm) y, firstn n work ++ wn)
            else UB
          else UB) ;;
      work <- copy_range y m (Nat.sub (length y) m) work m ;;
      work <- (if negb (nm =? Datatypes.O) then
          work <- ccs_multiply_t_low O (pE P) (skipn m y) work ;;
          upd_range Datatypes.O m (fun i a => v <- sc_perm (pt P) (pq P) b i ;; Ok (v - a)) work
        else
          upd_range Datatypes.O m (fun i _ => sc_perm (pt P) (pq P) b i) work) ;;
      work <- prec_solve_utdlt (pU P) (pd P) (pL P) work ;;
      y <- upd_range Datatypes.O n (fun i _ =>
             si <- get (ps P) i ;; k <- get (pp_inv P) i ;; wk <- get work k ;; Ok (si * wk)) y ;;
      Ok (y, work)
    end.

  (** prec_prod, prec_prod.hpp:54-134. *)
  Fixpoint prec_prod (precs : list (Prec O)) (b : list T) (ld : nat) (y work : list T)
    : res (list T * list T) :=
    match precs with
    | [] => UB
    | P :: rest =>
      let m := pm P in let n := pn P in let nm := Nat.sub n m in
      work <- upd_range m n (fun i _ => unsc_perm (pt P) (pq P) b i) work ;;
      ' (y, work) <- (if is_last_level P then
          if negb (nm =? Datatypes.O) then
            y <- copy_range work m nm y m ;;
            y <- on_sub m nm y (dense_mul P ld false) ;; Ok (y, work)
          else Ok (y, work)
        else
          if Nat.add m nm <=? length y then
            if n <=? length work then
              ' (ym, wn) <- prec_prod rest (slice m nm work) ld (slice m nm y) (skipn n work) ;;
              Ok (firstn m y ++ ym ++ skipn (Nat.add m nm) y, firstn n work ++ wn)
            else UB
          else UB) ;;
      work <- upd_range Datatypes.O m (fun i _ => unsc_perm (pt P) (pq P) b i) work ;;
      y <- ccs_multiply_nt_low O (pU P) work y ;;
      y <- upd_range Datatypes.O m (fun i a => w <- get work i ;; di <- get (pd P) i ;; Ok ((a + w) * di)) y ;;
      work <- ccs_multiply_nt_low O (pL P) y work ;;
      work <- upd_range Datatypes.O m (fun i a => yi <- get y i ;; Ok (a + yi)) work ;;
      ' (y, work) <- (if negb (psize (pF P) =? Datatypes.O) then
          y <- ccs_multiply_nt_low O (pF P) (skipn m work) y ;;
          work <- upd_range Datatypes.O m (fun i a => yi <- get y i ;; Ok (a + yi)) work ;;
          Ok (y, work)
        else Ok (y, work)) ;;
      ' (y, work) <- (if negb (nm =? Datatypes.O) then
          y <- prec_solve_ldu (pU P) (pd P) (pL P) y ;;
          y <- upd_range Datatypes.O m (fun i a => v <- unsc_perm (pt P) (pq P) b i ;; Ok (a + v)) y ;;
          work <- on_tail m work (fun wm => ccs_multiply_nt_low O (pE P) y wm) ;;
          work <- upd_range m n (fun i a => yi <- get y i ;; Ok (a + yi)) work ;;
          Ok (y, work)
        else Ok (y, work)) ;;
      y <- upd_range Datatypes.O n (fun i _ =>
             k <- get (pp_inv P) i ;; wk <- get work k ;; si <- get (ps P) i ;; Ok (wk / si)) y ;;
      Ok (y, work)
    end.

  (** prec_prod_tran, prec_prod.hpp:148-230. *)
  Fixpoint prec_prod_tran (precs : list (Prec O)) (b : list T) (ld : nat) (y work : list T)
    : res (list T * list T) :=
    match precs with
    | [] => UB
    | P :: rest =>
      let m := pm P in let n := pn P in let nm := Nat.sub n m in
      work <- upd_range m n (fun i _ => unsc_perm (ps P) (pp P) b i) work ;;
      ' (y, work) <- (if is_last_level P then
          if negb (nm =? Datatypes.O) then
            y <- copy_range work m nm y m ;;
            y <- on_sub m nm y (dense_mul P ld true) ;; Ok (y, work)
          else Ok (y, work)
        else
          if Nat.add m nm <=? length y then
            if n <=? length work then
              ' (ym, wn) <- prec_prod_tran rest (slice m nm work) ld (slice m nm y) (skipn n work) ;;
              Ok (firstn m y ++ ym ++ skipn (Nat.add m nm) y, firstn n work ++ wn)
            else UB
          else UB) ;;
      work <- upd_range Datatypes.O m (fun i _ => unsc_perm (ps P) (pp P) b i) work ;;
      y <- ccs_multiply_t_low O (pL P) work y ;;
      y <- upd_range Datatypes.O m (fun i a => w <- get work i ;; di <- get (pd P) i ;; Ok ((a + w) * di^*)) y ;;
      work <- ccs_multiply_t_low O (pU P) y work ;;
      work <- upd_range Datatypes.O m (fun i a => yi <- get y i ;; Ok (a + yi)) work ;;
      ' (y, work) <- (if negb (nm =? Datatypes.O) then
          y <- ccs_multiply_t_low O (pE P) (skipn m work) y ;;
          work <- upd_range Datatypes.O m (fun i a => yi <- get y i ;; Ok (a + yi)) work ;;
          Ok (y, work)
        else Ok (y, work)) ;;
      ' (y, work) <- (if negb (nm =? Datatypes.O) then
          y <- prec_solve_utdlt (pU P) (pd P) (pL P) y ;;
          y <- upd_range Datatypes.O m (fun i a => v <- unsc_perm (ps P) (pp P) b i ;; Ok (a + v)) y ;;
          work <- on_tail m work (fun wm => ccs_multiply_t_low O (pF P) y wm) ;;
          work <- upd_range m n (fun i a => yi <- get y i ;; Ok (a + yi)) work ;;
          Ok (y, work)
        else Ok (y, work)) ;;
      y <- upd_range Datatypes.O n (fun i _ =>
             k <- get (pq_inv P) i ;; wk <- get work k ;; ti <- get (pt P) i ;; Ok (wk / ti)) y ;;
      Ok (y, work)
    end.

  (** compute_prec_work_space, prec_solve.hpp:619-626. *)
  Definition compute_prec_work_space (precs : list (Prec O)) : nat :=
    fold_left (fun acc P => Nat.add acc (pn P)) precs Datatypes.O.

  (** ** Several right-hand sides: [Array<std::array<T,Nrhs>>], stored as one array
      of [Nrhs]-tuples; entry [y[i][k]] is entry [i*N+k]. *)

  (** [for (i = lo; i < hi; ++i) for (k < Nrhs) y[i][k] = g(i, k, y[i][k])]. *)
  Definition upd_blocks (N lo hi : nat) (g : nat -> nat -> T -> res T) (y : list T) : res (list T) :=
    for_range lo hi (fun i y => blk_upd O N (Nat.mul i N) (g i) y) y.

  (** prec_solve_ldu_mrhs, prec_solve.hpp:239-263. *)
  Definition prec_solve_ldu_mrhs (N : nat) (U : CS O) (d : list T) (L : CS O) (y : list T) : res (list T) :=
    let m := ssize U in
    if m =? Datatypes.O then Ok y
    else
      y <- ccs_solve_strict_lower_mrhs O N L y ;;
      y <- upd_blocks N Datatypes.O m (fun i k a => di <- get d i ;; Ok (a / di)) y ;;
      ccs_solve_strict_upper_mrhs O N U y.

  (** [s[p[i]] * b[p[i]][k]] *)
  Definition sc_perm_blk (N : nat) (s : list T) (p : list nat) (b : list T) (i k : nat) : res T :=
    j <- get p i ;; sj <- get s j ;; bk <- get b (Nat.add (Nat.mul j N) k) ;; Ok (sj * bk).

  (** Dense solve of a block, idealized as one solve per column (the code calls
      LAPACK on the whole block). *)
  Definition dense_solve_mrhs (N nm : nat) (P : Prec O) (ld : nat) (y : list T) : res (list T) :=
    for_range Datatypes.O N (fun c y =>
      z <- dense_solve P ld false (map (fun i => nth (Nat.add (Nat.mul i N) c) y (t0 O)) (seq Datatypes.O nm)) ;;
      for_range Datatypes.O nm (fun i y => zi <- get z i ;; set y (Nat.add (Nat.mul i N) c) zi) y) y.

  (** prec_solve_mrhs, prec_solve.hpp:426-528.  Before the recursive call the code
      copies [work_b] into [y_mn], and after it [work(m:n)] into [y(m:n)]. *)
  Fixpoint prec_solve_mrhs (N : nat) (precs : list (Prec O)) (b : list T) (ld : nat) (y work : list T)
    : res (list T * list T) :=
    match precs with
    | [] => UB
    | P :: rest =>
      let m := pm P in let n := pn P in let nm := Nat.sub n m in
      work <- upd_blocks N Datatypes.O m (fun i k _ => sc_perm_blk N (ps P) (pp P) b i k) work ;;
      ' (y, work) <- (if negb (nm =? Datatypes.O) then
          work <- prec_solve_ldu_mrhs N (pU P) (pd P) (pL P) work ;;
          y <- on_tail (Nat.mul N m) y (fun ym => ccs_multiply_mrhs_nt_low O N (pE P) work ym) ;;
          y <- upd_blocks N m n (fun i k a => v <- sc_perm_blk N (ps P) (pp P) b i k ;; Ok (v - a)) y ;;
          Ok (y, work)
        else Ok (y, work)) ;;
      ' (y, work) <- (if is_last_level P then
          if negb (nm =? Datatypes.O) then
            y <- on_sub (Nat.mul m N) (Nat.mul nm N) y (dense_solve_mrhs N nm P ld) ;; Ok (y, work)
          else Ok (y, work)
        else
          y <- copy_range work (Nat.mul m N) (Nat.mul nm N) y (Nat.mul m N) ;;
          if Nat.mul n N <=? length y then
            if Nat.mul n N <=? length work then
              ' (ym, wn) <- prec_solve_mrhs N rest (slice (Nat.mul m N) (Nat.mul nm N) work) ld
                              (slice (Nat.mul m N) (Nat.mul nm N) y) (skipn (Nat.mul n N) work) ;;
              Ok (firstn (Nat.mul m N) y ++ ym ++ skipn (Nat.mul n N) y, firstn (Nat.mul n N) work ++ wn)
            else UB
          else UB) ;;
      y <- copy_range work (Nat.mul m N) (Nat.mul nm N) y (Nat.mul m N) ;;
      work <- (if negb (psize (pF P) =? Datatypes.O) then
          work <- ccs_multiply_mrhs_nt_low O N (pF P) (skipn (Nat.mul N m) y) work ;;
          upd_blocks N Datatypes.O m (fun i k a => v <- sc_perm_blk N (ps P) (pp P) b i k ;; Ok (v - a)) work
        else if negb (nm =? Datatypes.O) then
          upd_blocks N Datatypes.O m (fun i k _ => sc_perm_blk N (ps P) (pp P) b i k) work
        else Ok work) ;;
      work <- prec_solve_ldu_mrhs N (pU P) (pd P) (pL P) work ;;
      y <- upd_blocks N Datatypes.O n (fun i k _ =>
             ti <- get (pt P) i ;; j <- get (pq_inv P) i ;;
             wk <- get work (Nat.add (Nat.mul j N) k) ;; Ok (ti * wk)) y ;;
      Ok (y, work)
    end.
End Prec.
