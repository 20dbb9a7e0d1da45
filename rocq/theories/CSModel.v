(** * CSModel: compressed sparse storage, products and triangular solves.

    Models src/hif/ds/CompressedStorage.hpp.  One record [CS] is used for both
    [CRS] (primary = rows) and [CCS] (primary = columns), as the C++ classes
    share the base class [CompressedStorage]; the class specific functions
    carry the prefix [crs_] or [ccs_].

    Simplifications, everywhere in this file: indices are [nat] (the C++ index
    and indptr types are signed; [ValidModel.v] treats negative entries); mixed
    precision casts ([static_cast<v_t>]) are the identity; [hif_assert]
    (compiled out unless HIF_DEBUG) is not modelled, an out-of-range access is
    [UB] instead. *)

From Coq Require Import List Arith Lia Bool.
From Verif Require Import Base Scalar.
Import ListNotations.

(** CompressedStorage.hpp:54-60,738-745 (members [_ind_start], [_indices],
    [_vals], [_psize]) plus [_ncols] of CRS / [_nrows] of CCS, here [ssize]. *)
Record CS (O : Ops) : Type := mkCS {
  psize : nat;
  ssize : nat;
  ind_start : list nat;
  indices : list nat;
  vals : list (T O)
}.
Arguments mkCS {O}. Arguments psize {O}. Arguments ssize {O}.
Arguments ind_start {O}. Arguments indices {O}. Arguments vals {O}.

Section Kernels.
  Variable O : Ops.
  Notation T := (T O).
  Notation "0" := (t0 O).
  Infix "+" := (tadd O). Infix "*" := (tmul O). Infix "-" := (tsub O).
  Notation "x ^*" := (tconj O x) (at level 30).

  (** [std::fill_n(y, cnt, v)]. *)
  Definition fill_n {A} (y : list A) (cnt : nat) (v : A) : res (list A) :=
    if cnt <=? length y then Ok (repeat v cnt ++ skipn cnt y) else UB.

  (** Iteration over the stored entries of primary index [i], front to back:
      [for (itr = ind_cbegin(i), v_itr = val_cbegin(i); itr != ind_cend(i); ++itr, ++v_itr)],
      CompressedStorage.hpp:153-158,365-370.  A negative local nnz makes the
      iterator loop run past the arrays: [UB]. *)
  Definition row_iter {S} (A : CS O) (i : nat) (f : nat -> T -> S -> res S) (s : S) : res S :=
    b <- get (ind_start A) i ;;
    e <- get (ind_start A) (Datatypes.S i) ;;
    if e <? b then UB
    else for_range b e (fun k s =>
           j <- get (indices A) k ;;
           v <- get (vals A) k ;;
           f j v s) s.

  (** The same back to front ([std::reverse_iterator]). *)
  Definition row_iter_rev {S} (A : CS O) (i : nat) (f : nat -> T -> S -> res S) (s : S) : res S :=
    b <- get (ind_start A) i ;;
    e <- get (ind_start A) (Datatypes.S i) ;;
    if e <? b then UB
    else for_down b (Nat.sub e b) (fun k s =>
           j <- get (indices A) k ;;
           v <- get (vals A) k ;;
           f j v s) s.

  (** ** Products with one vector *)

  (** CRS::multiply_nt_low(x, istart, len, y), CompressedStorage.hpp:1108-1127. *)
  Definition crs_multiply_nt_part (A : CS O) (x : list T) (istart len : nat) (y : list T)
    : res (list T) :=
    for_range istart (Nat.add istart len) (fun i y =>
      tmp <- row_iter A i (fun j v tmp => xj <- get x j ;; Ok (tmp + v * xj)) 0 ;;
      set y i tmp) y.

  (** CRS::multiply_nt_low(x, y), CompressedStorage.hpp:1096-1099. *)
  Definition crs_multiply_nt_low (A : CS O) (x y : list T) : res (list T) :=
    crs_multiply_nt_part A x Datatypes.O (psize A) y.

  (** CRS::multiply_nt(x, y), CompressedStorage.hpp:1179-1184. *)
  Definition crs_multiply_nt (A : CS O) (x y : list T) : res (list T) :=
    if negb (psize A =? length y) || negb (ssize A =? length x) then Err
    else crs_multiply_nt_low A x y.

  (** CRS::multiply_t_low, CompressedStorage.hpp:1249-1267. *)
  Definition crs_multiply_t_low (A : CS O) (x y : list T) : res (list T) :=
    if psize A =? Datatypes.O then Ok y
    else
      y <- fill_n y (ssize A) 0 ;;
      for_range Datatypes.O (psize A) (fun i y =>
        temp <- get x i ;;
        row_iter A i (fun j v y => yj <- get y j ;; set y j (yj + temp * v^*)) y) y.

  (** CRS::multiply_t, CompressedStorage.hpp:1276-1281. *)
  Definition crs_multiply_t (A : CS O) (x y : list T) : res (list T) :=
    if negb (psize A =? length x) || negb (ssize A =? length y) then Err
    else crs_multiply_t_low A x y.

  (** CRS::multiply, CompressedStorage.hpp:1332-1335. *)
  Definition crs_multiply (A : CS O) (x y : list T) (tran : bool) : res (list T) :=
    if tran then crs_multiply_t A x y else crs_multiply_nt A x y.

  (** CCS::multiply_nt_low, CompressedStorage.hpp:2078-2096. *)
  Definition ccs_multiply_nt_low (A : CS O) (x y : list T) : res (list T) :=
    y <- fill_n y (ssize A) 0 ;;
    if psize A =? Datatypes.O then Ok y
    else
      for_range Datatypes.O (psize A) (fun i y =>
        temp <- get x i ;;
        row_iter A i (fun j v y => yj <- get y j ;; set y j (yj + temp * v)) y) y.

  (** CCS::multiply_nt, CompressedStorage.hpp:2104-2109. *)
  Definition ccs_multiply_nt (A : CS O) (x y : list T) : res (list T) :=
    if negb (ssize A =? length y) || negb (psize A =? length x) then Err
    else ccs_multiply_nt_low A x y.

  (** CCS::multiply_t_low, CompressedStorage.hpp:2160-2178. *)
  Definition ccs_multiply_t_low (A : CS O) (x y : list T) : res (list T) :=
    for_range Datatypes.O (psize A) (fun i y =>
      tmp <- row_iter A i (fun j v tmp => xj <- get x j ;; Ok (tmp + xj * v^*)) 0 ;;
      set y i tmp) y.

  (** CCS::multiply_t, CompressedStorage.hpp:2186-2191. *)
  Definition ccs_multiply_t (A : CS O) (x y : list T) : res (list T) :=
    if negb (ssize A =? length x) || negb (psize A =? length y) then Err
    else ccs_multiply_t_low A x y.

  (** CCS::multiply, CompressedStorage.hpp:2243-2246. *)
  Definition ccs_multiply (A : CS O) (x y : list T) (tran : bool) : res (list T) :=
    if tran then ccs_multiply_t A x y else ccs_multiply_nt A x y.

  (** ** Products with a block of [N] interleaved vectors

      [Array<std::array<V,Nrhs>>] is modelled by its flat memory: component [k]
      of vector element [i] is at [i*N+k]. *)

  (** [for (k = 0; k < N; ++k) tmp[k] = g k tmp[k]] on a block at offset [off]. *)
  Definition blk_upd (N off : nat) (g : nat -> T -> res T) (y : list T) : res (list T) :=
    for_range Datatypes.O N (fun k y =>
      a <- get y (Nat.add off k) ;;
      b <- g k a ;;
      set y (Nat.add off k) b) y.

  (** CRS::multiply_mrhs_nt_low(x, istart, len, y), CompressedStorage.hpp:1137-1159. *)
  Definition crs_multiply_mrhs_nt_part (N : nat) (A : CS O) (x : list T) (istart len : nat)
             (y : list T) : res (list T) :=
    for_range istart (Nat.add istart len) (fun i y =>
      tmp <- row_iter A i (fun j v tmp =>
               blk_upd N Datatypes.O (fun k a => xj <- get x (Nat.add (Nat.mul j N) k) ;; Ok (a + v * xj)) tmp)
             (repeat 0 N) ;;
      blk_upd N (Nat.mul i N) (fun k _ => get tmp k) y) y.

  (** CRS::multiply_mrhs_nt, CompressedStorage.hpp:1212-1219 (sizes in
      blocks: [length x = N * ncols]). *)
  Definition crs_multiply_mrhs_nt (N : nat) (A : CS O) (x y : list T) : res (list T) :=
    if negb (Nat.mul (psize A) N =? length y) || negb (Nat.mul (ssize A) N =? length x) then Err
    else if (psize A =? Datatypes.O) || (ssize A =? Datatypes.O) then Ok y
    else crs_multiply_mrhs_nt_part N A x Datatypes.O (psize A) y.

  (** CRS::multiply_mrhs_t_low, CompressedStorage.hpp:1289-1308 (no [conjugate]). *)
  Definition crs_multiply_mrhs_t_low (N : nat) (A : CS O) (x y : list T) : res (list T) :=
    if psize A =? Datatypes.O then Ok y
    else
      y <- fill_n y (Nat.mul N (ssize A)) 0 ;;
      for_range Datatypes.O (psize A) (fun i y =>
        temp <- blk_upd N Datatypes.O (fun k _ => get x (Nat.add (Nat.mul i N) k)) (repeat 0 N) ;;
        row_iter A i (fun j v y =>
          blk_upd N (Nat.mul j N) (fun k a => tk <- get temp k ;; Ok (a + tk * v)) y) y) y.

  (** CRS::multiply_mrhs_t, CompressedStorage.hpp:1316-1323. *)
  Definition crs_multiply_mrhs_t (N : nat) (A : CS O) (x y : list T) : res (list T) :=
    if negb (Nat.mul (psize A) N =? length x) || negb (Nat.mul (ssize A) N =? length y) then Err
    else if (psize A =? Datatypes.O) || (ssize A =? Datatypes.O) then Ok y
    else crs_multiply_mrhs_t_low N A x y.

  (** CCS::multiply_mrhs_nt_low, CompressedStorage.hpp:2117-2137. *)
  Definition ccs_multiply_mrhs_nt_low (N : nat) (A : CS O) (x y : list T) : res (list T) :=
    y <- fill_n y (Nat.mul N (ssize A)) 0 ;;
    if psize A =? Datatypes.O then Ok y
    else
      for_range Datatypes.O (psize A) (fun i y =>
        temp <- blk_upd N Datatypes.O (fun k _ => get x (Nat.add (Nat.mul i N) k)) (repeat 0 N) ;;
        row_iter A i (fun j v y =>
          blk_upd N (Nat.mul j N) (fun k a => tk <- get temp k ;; Ok (a + tk * v)) y) y) y.

  (** CCS::multiply_mrhs_nt, CompressedStorage.hpp:2145-2152. *)
  Definition ccs_multiply_mrhs_nt (N : nat) (A : CS O) (x y : list T) : res (list T) :=
    if negb (Nat.mul (ssize A) N =? length y) || negb (Nat.mul (psize A) N =? length x) then Err
    else if (psize A =? Datatypes.O) || (ssize A =? Datatypes.O) then Ok y
    else ccs_multiply_mrhs_nt_low N A x y.

  (** CCS::multiply_mrhs_t_low, CompressedStorage.hpp:2199-2219 (no [conjugate]). *)
  Definition ccs_multiply_mrhs_t_low (N : nat) (A : CS O) (x y : list T) : res (list T) :=
    for_range Datatypes.O (psize A) (fun i y =>
      tmp <- row_iter A i (fun j v tmp =>
               blk_upd N Datatypes.O (fun k a => xj <- get x (Nat.add (Nat.mul j N) k) ;; Ok (a + xj * v)) tmp)
             (repeat 0 N) ;;
      blk_upd N (Nat.mul i N) (fun k _ => get tmp k) y) y.

  (** CCS::multiply_mrhs_t, CompressedStorage.hpp:2227-2234. *)
  Definition ccs_multiply_mrhs_t (N : nat) (A : CS O) (x y : list T) : res (list T) :=
    if negb (Nat.mul (ssize A) N =? length x) || negb (Nat.mul (psize A) N =? length y) then Err
    else if (psize A =? Datatypes.O) || (ssize A =? Datatypes.O) then Ok y
    else ccs_multiply_mrhs_t_low N A x y.

  (** ** Triangular solves (unit diagonal, not stored) *)

  (** Body of the row-oriented solves: [tmp = sum v*y[idx]; y[j] -= tmp]. *)
  Definition gsolve_row (h : T -> T) (A : CS O) (j : nat) (y : list T) : res (list T) :=
    tmp <- row_iter A j (fun i v tmp => yi <- get y i ;; Ok (tmp + h v * yi)) 0 ;;
    yj <- get y j ;;
    set y j (yj - tmp).

  (** Body of the column-oriented solves: [y_j = y[j]; y[idx] -= v*y_j]. *)
  Definition ssolve_col (h : T -> T) (A : CS O) (j : nat) (y : list T) : res (list T) :=
    yj <- get y j ;;
    row_iter A j (fun i v y => yi <- get y i ;; set y i (yi - h v * yj)) y.

  (** The same with the entries visited back to front. *)
  Definition ssolve_col_rev (h : T -> T) (A : CS O) (j : nat) (y : list T) : res (list T) :=
    yj <- get y j ;;
    row_iter_rev A j (fun i v y => yi <- get y i ;; set y i (yi - h v * yj)) y.

  Definition idT (a : T) : T := a.

  (** [for (size_type j = n - 1; j != 0; --j) body(j-1)]: for [n = 0] the
      unsigned [n - 1] wraps to the largest [size_t] and the first access is
      far outside the arrays. *)
  Definition down_pred {S} (n : nat) (body : nat -> S -> res S) (s : S) : res S :=
    match n with
    | Datatypes.O => UB
    | Datatypes.S n' => for_down Datatypes.O n' body s
    end.

  (** [for (size_type j = n - 1; j != 0; --j) body(j)] (body never runs for 0). *)
  Definition down_from (n : nat) {S} (body : nat -> S -> res S) (s : S) : res S :=
    match n with
    | Datatypes.O => UB
    | Datatypes.S n' => for_down (Datatypes.S Datatypes.O) n' body s
    end.

  (** CRS::solve_as_strict_lower, CompressedStorage.hpp:1357-1372. *)
  Definition crs_solve_strict_lower (A : CS O) (y : list T) : res (list T) :=
    for_range 1 (psize A) (gsolve_row idT A) y.

  (** CRS::solve_as_strict_lower_tran, CompressedStorage.hpp:1404-1418. *)
  Definition crs_solve_strict_lower_tran (A : CS O) (y : list T) : res (list T) :=
    for_down Datatypes.O (ssize A) (ssolve_col_rev (tconj O) A) y.

  (** CRS::solve_as_strict_upper, CompressedStorage.hpp:1450-1467. *)
  Definition crs_solve_strict_upper (A : CS O) (y : list T) : res (list T) :=
    down_pred (psize A) (gsolve_row idT A) y.

  (** CRS::solve_as_strict_upper_tran, CompressedStorage.hpp:1501-1510. *)
  Definition crs_solve_strict_upper_tran (A : CS O) (y : list T) : res (list T) :=
    for_range Datatypes.O (ssize A) (ssolve_col (tconj O) A) y.

  (** CCS::solve_as_strict_lower, CompressedStorage.hpp:2267-2279. *)
  Definition ccs_solve_strict_lower (A : CS O) (y : list T) : res (list T) :=
    for_range Datatypes.O (psize A) (ssolve_col idT A) y.

  (** CCS::solve_as_strict_lower_tran, CompressedStorage.hpp:2306-2323. *)
  Definition ccs_solve_strict_lower_tran (A : CS O) (y : list T) : res (list T) :=
    down_pred (ssize A) (gsolve_row (tconj O) A) y.

  (** CCS::solve_as_strict_upper, CompressedStorage.hpp:2356-2369. *)
  Definition ccs_solve_strict_upper (A : CS O) (y : list T) : res (list T) :=
    down_from (psize A) (ssolve_col_rev idT A) y.

  (** CCS::solve_as_strict_upper_tran, CompressedStorage.hpp:2398-2413. *)
  Definition ccs_solve_strict_upper_tran (A : CS O) (y : list T) : res (list T) :=
    for_range 1 (ssize A) (gsolve_row (tconj O) A) y.

  (** ** Triangular solves with a block of [N] interleaved vectors *)

  Definition gsolve_row_mrhs (N : nat) (h : T -> T) (A : CS O) (j : nat) (y : list T) : res (list T) :=
    tmp <- row_iter A j (fun i v tmp =>
             blk_upd N Datatypes.O (fun k a => yi <- get y (Nat.add (Nat.mul i N) k) ;; Ok (a + h v * yi)) tmp)
           (repeat 0 N) ;;
    blk_upd N (Nat.mul j N) (fun k a => tk <- get tmp k ;; Ok (a - tk)) y.

  (** [tmp = y[j]; for entries: y[idx][k] -= av * tmp[k]]. *)
  Definition load_blk (N : nat) (y : list T) (j : nat) : res (list T) :=
    blk_upd N Datatypes.O (fun k _ => get y (Nat.add (Nat.mul j N) k)) (repeat 0 N).

  Definition ssolve_col_mrhs (N : nat) (h : T -> T) (A : CS O) (j : nat) (y : list T) : res (list T) :=
    tmp <- load_blk N y j ;;
    row_iter A j (fun i v y =>
      blk_upd N (Nat.mul i N) (fun k a => tk <- get tmp k ;; Ok (a - h v * tk)) y) y.

  Definition ssolve_col_rev_mrhs (N : nat) (h : T -> T) (A : CS O) (j : nat) (y : list T) : res (list T) :=
    tmp <- load_blk N y j ;;
    row_iter_rev A j (fun i v y =>
      blk_upd N (Nat.mul i N) (fun k a => tk <- get tmp k ;; Ok (a - h v * tk)) y) y.

  (** CRS::solve_as_strict_lower_mrhs, CompressedStorage.hpp:1381-1399. *)
  Definition crs_solve_strict_lower_mrhs (N : nat) (A : CS O) (y : list T) : res (list T) :=
    for_range 1 (psize A) (gsolve_row_mrhs N idT A) y.

  (** CRS::solve_as_strict_lower_mrhs_tran, CompressedStorage.hpp:1425-1443:
      the loop starts at [_ncols - 1], not [_ncols]. *)
  Definition crs_solve_strict_lower_mrhs_tran (N : nat) (A : CS O) (y : list T) : res (list T) :=
    down_pred (ssize A) (ssolve_col_rev_mrhs N (tconj O) A) y.

  (** CRS::solve_as_strict_upper_mrhs, CompressedStorage.hpp:1476-1496. *)
  Definition crs_solve_strict_upper_mrhs (N : nat) (A : CS O) (y : list T) : res (list T) :=
    down_pred (psize A) (gsolve_row_mrhs N idT A) y.

  (** CRS::solve_as_strict_upper_mrhs_tran, CompressedStorage.hpp:1517-1530. *)
  Definition crs_solve_strict_upper_mrhs_tran (N : nat) (A : CS O) (y : list T) : res (list T) :=
    for_range Datatypes.O (ssize A) (ssolve_col_mrhs N (tconj O) A) y.

  (** CCS::solve_as_strict_lower_mrhs, CompressedStorage.hpp:2286-2301. *)
  Definition ccs_solve_strict_lower_mrhs (N : nat) (A : CS O) (y : list T) : res (list T) :=
    for_range Datatypes.O (psize A) (ssolve_col_mrhs N idT A) y.

  (** CCS::solve_as_strict_lower_mrhs_tran, CompressedStorage.hpp:2330-2349: in the
      inner loop [last = row_ind_cbegin(j1)], so it visits no entry and the
      body subtracts the zero block. *)
  Definition ccs_solve_strict_lower_mrhs_tran (N : nat) (A : CS O) (y : list T) : res (list T) :=
    down_pred (ssize A) (fun j y =>
      _b <- get (ind_start A) j ;;
      blk_upd N (Nat.mul j N) (fun k a => tk <- get (repeat 0 N) k ;; Ok (a - tk)) y) y.

  (** CCS::solve_as_strict_upper_mrhs, CompressedStorage.hpp:2376-2393. *)
  Definition ccs_solve_strict_upper_mrhs (N : nat) (A : CS O) (y : list T) : res (list T) :=
    down_from (psize A) (ssolve_col_rev_mrhs N idT A) y.

  (** CCS::solve_as_strict_upper_mrhs_tran, CompressedStorage.hpp:2420-2438. *)
  Definition ccs_solve_strict_upper_mrhs_tran (N : nat) (A : CS O) (y : list T) : res (list T) :=
    for_range 1 (ssize A) (gsolve_row_mrhs N (tconj O) A) y.

  (** ** Diagonal scaling *)

  (** [std::for_each(val_begin(i), val_end(i), v *= d)] on all primaries:
      CRS::scale_diag_left, CompressedStorage.hpp:1044-1055, and
      CCS::scale_diag_right, :2044-2055.  The loop runs over
      [ind_start.size() - 1] primaries. *)
  Definition scale_primary (A : CS O) (s : list T) : res (CS O) :=
    if Nat.add (length s) 1 <? length (ind_start A) then Err
    else
      vs <- for_range 1 (length (ind_start A)) (fun i vs =>
        d <- get s (Nat.sub i 1) ;;
        b <- get (ind_start A) (Nat.sub i 1) ;;
        e <- get (ind_start A) i ;;
        if e <? b then UB
        else for_range b e (fun k vs => v <- get vs k ;; set vs k (v * d)) vs) (vals A) ;;
      Ok (mkCS (psize A) (ssize A) (ind_start A) (indices A) vs).

  (** CRS::scale_diag_right, CompressedStorage.hpp:1065-1073, and
      CCS::scale_diag_left, :2026-2034. *)
  Definition scale_secondary (A : CS O) (t : list T) : res (CS O) :=
    if length t <? ssize A then Err
    else
      vs <- for_range Datatypes.O (length (indices A)) (fun k vs =>
        j <- get (indices A) k ;;
        v <- get vs k ;;
        tj <- get t j ;;
        set vs k (v * tj)) (vals A) ;;
      Ok (mkCS (psize A) (ssize A) (ind_start A) (indices A) vs).

  Definition crs_scale_diag_left := scale_primary.
  Definition crs_scale_diag_right := scale_secondary.
  Definition ccs_scale_diag_left := scale_secondary.
  Definition ccs_scale_diag_right := scale_primary.
End Kernels.
