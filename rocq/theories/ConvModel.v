(** * ConvModel: conversions between storages, permutation, splitting,
      leading-block extraction, assembly, dense copies.

    Models the rest of src/hif/ds/CompressedStorage.hpp,
    src/hif/utils/coo2compress.hpp, [find_sorted] of src/hif/utils/common.hpp and
    [copy_sparse] of src/hif/ds/DenseMatrix.hpp.

    Arrays that C++ resizes without initialising are filled with arbitrary
    "junk" values, which are parameters ([ji] for integers, [jv] for values): a
    theorem quantified over them says that the result does not depend on
    uninitialised memory.  Memory exhaustion ([DATA_UNDEF] after [resize]) is
    not modelled.  Indices are [nat]. *)

From Coq Require Import List Arith Lia Bool.
From Verif Require Import Base Scalar CSModel.
Import ListNotations.

(** [std::sort] on integers: the outcome is determined (the sorted
    rearrangement), so any sorting function models it; insertion sort here. *)
Fixpoint insert (x : nat) (l : list nat) : list nat :=
  match l with
  | [] => [x]
  | y :: t => if x <=? y then x :: l else y :: insert x t
  end.
Fixpoint isort (l : list nat) : list nat :=
  match l with
  | [] => []
  | x :: t => insert x (isort t)
  end.

(** [std::sort(a.begin()+lo, a.begin()+hi)]. *)
Definition sort_range (a : list nat) (lo hi : nat) : res (list nat) :=
  if (lo <=? hi) && (hi <=? length a)
  then Ok (firstn lo a ++ isort (slice lo (hi - lo) a) ++ skipn hi a)
  else UB.

(** [std::is_sorted] (non-strict, on integers). *)
Fixpoint is_sortedb (l : list nat) : bool :=
  match l with
  | x :: ((y :: _) as t) => (x <=? y) && is_sortedb t
  | _ => true
  end.

(** [std::lower_bound(a+first, a+first+len, v)], the textbook binary search
    (libstdc++ [__lower_bound]); returns the position found.  [fuel] bounds the
    recursion; [len] is always enough. *)
Fixpoint lower_bound_aux (fuel : nat) (a : list nat) (first len v : nat) : res nat :=
  match fuel with
  | 0 => Ok first
  | S f =>
    if len =? 0 then Ok first
    else
      let half := Nat.div2 len in
      let mid := first + half in
      x <- get a mid ;;
      if x <? v then lower_bound_aux f a (S mid) (len - half - 1) v
      else lower_bound_aux f a first half v
  end.
Definition lower_bound (a : list nat) (first last v : nat) : res nat :=
  if last <? first then UB else lower_bound_aux (last - first) a first (last - first) v.

(** [find_sorted], common.hpp:58-66: found flag and lower bound position. *)
Definition find_sorted (a : list nat) (first last v : nat) : res (bool * nat) :=
  lo <- lower_bound a first last v ;;
  if lo =? last then Ok (false, lo)
  else (x <- get a lo ;; Ok (x =? v, lo)).

Section Conv.
  Variable O : Ops.
  Notation T := (T O).

  (** ** Counting-sort pieces shared by the conversion routines *)

  (** [for (k : keys) ++p[k + 1]]: coo2compress.hpp:73,
      CompressedStorage.hpp:774-778. *)
  Definition count_keys (ks : list nat) (p : list nat) : res (list nat) :=
    for_list ks (fun k p => c <- get p (S k) ;; set p (S k) (S c)) p.

  (** [for (i = 0; i < n; ++i) p[i+1] += p[i]]: coo2compress.hpp:75,
      CompressedStorage.hpp:781. *)
  Definition accumulate (n : nat) (p : list nat) : res (list nat) :=
    for_range 0 n (fun i p =>
      a <- get p (S i) ;; b <- get p i ;; set p (S i) (a + b)) p.

  (** [pos = p[k]; ind[pos] = i; val[pos] = v; ++p[k]]: coo2compress.hpp:83-88,
      CompressedStorage.hpp:790-798. *)
  Definition place (k i : nat) (v : T) (s : list nat * list nat * list T)
    : res (list nat * list nat * list T) :=
    let '(p, ind, val) := s in
    pos <- get p k ;;
    ind <- set ind pos i ;;
    val <- set val pos v ;;
    p <- set p k (S pos) ;;
    Ok (p, ind, val).

  (** [tmp = 0; for (i = 0; i < n; ++i) swap(tmp, p[i])]:
      CompressedStorage.hpp:803-804. *)
  Definition shift_swap (n : nat) (p : list nat) : res (list nat) :=
    '(_, p) <- for_range 0 n (fun i (s : nat * list nat) =>
       let '(tmp, p) := s in
       a <- get p i ;; p <- set p i tmp ;; Ok (a, p)) (0, p) ;;
    Ok p.

  (** [internal::convert_storage], CompressedStorage.hpp:752-808.  Inputs
      [st ind val], outputs [op oind oval] (sizes already set by the caller). *)
  Definition convert_storage (st ind : list nat) (val : list T)
             (op oind : list nat) (oval : list T) : res (list nat * list nat * list T) :=
    last <- get st (length st - 1) ;;
    if negb (length ind =? last) then Err
    else if negb (length ind =? length val) then Err
    else if negb (length ind =? length oind) then Err
    else if negb (length oind =? length oval) then Err
    else
      let o_n := length op - 1 in
      let i_n := length st - 1 in
      op <- count_keys ind op ;;
      op <- accumulate o_n op ;;
      '(_, s) <- for_range 0 i_n (fun i (s : nat * (list nat * list nat * list T)) =>
        let '(pos, s) := s in
        b <- get st i ;;
        e <- get st (S i) ;;
        if e <? b then UB
        else
          s <- for_range pos (pos + (e - b)) (fun k s =>
                 j <- get ind k ;; v <- get val k ;; place j i v s) s ;;
          Ok (pos + (e - b), s)) (0, (op, oind, oval)) ;;
      let '(op, oind, oval) := s in
      op <- shift_swap o_n op ;;
      Ok (op, oind, oval).

  (** [nnz()], CompressedStorage.hpp:134-136 (an undefined array has size 0). *)
  Definition nnz (A : CS O) : res nat :=
    match indices A with
    | [] => Ok 0
    | _ => f <- get (ind_start A) 0 ;; l <- get (ind_start A) (length (ind_start A) - 1) ;;
           Ok (l - f)
    end.

  (** [CRS(const CCS&)], CompressedStorage.hpp:910-920 and [CCS(const CRS&)],
      1894-1902 (with the allocating constructor 95-112): the two are the same
      code with rows and columns exchanged. *)
  Definition other_storage (ji : nat) (jv : T) (A : CS O) : res (CS O) :=
    z <- nnz A ;;
    let p0 := repeat 0 (ssize A + 1) in
    if z =? 0 then Ok (mkCS (ssize A) (psize A) p0 [] [])
    else
      '(p, ind, val) <- convert_storage (ind_start A) (indices A) (vals A)
                          p0 (repeat ji z) (repeat jv z) ;;
      Ok (mkCS (ssize A) (psize A) p ind val).

  (** [convert_coo2cs], coo2compress.hpp:55-112. *)
  Definition coo_sort_row (sec : nat) (jv : T) (p : list nat) (i : nat)
             (s : list nat * list T) : res (list nat * list T) :=
    let '(ind, val) := s in
    b <- get p i ;;
    e <- get p (S i) ;;
    if is_sortedb (slice b (e - b) ind) then Ok (ind, val)
    else
      buf <- for_range b e (fun k buf =>
               j <- get ind k ;; v <- get val k ;; set buf j v) (repeat jv sec) ;;
      ind <- sort_range ind b e ;;
      val <- for_range b e (fun k val =>
               j <- get ind k ;; v <- get buf j ;; set val k v) val ;;
      Ok (ind, val).

  Definition convert_coo2cs (ji : nat) (jv : T) (prim sec : nat)
             (pidx sids : list nat) (coovals : list T) : res (CS O) :=
    let z := length pidx in
    p <- count_keys pidx (repeat 0 (prim + 1)) ;;
    p <- accumulate prim p ;;
    '(p, ind, val) <- for_range 0 z (fun i s =>
       k <- get pidx i ;; j <- get sids i ;; v <- get coovals i ;; place k j v s)
       (p, repeat ji z, repeat jv z) ;;
    (* for (i = prim; i != 0; --i) p[i] = p[i-1]; p[0] = 0 *)
    p <- for_down 0 prim (fun i p => a <- get p i ;; set p (S i) a) p ;;
    p <- set p 0 0 ;;
    '(ind, val) <- for_range 0 prim (coo_sort_row sec jv p) (ind, val) ;;
    Ok (mkCS prim sec p ind val).

  (** ** Splitting *)

  (** [_split<IsSecond>(m, start, indptr, indices, vals)],
      CompressedStorage.hpp:384-425.  [rd indptr i] reads [start[i]]: callers
      pass either a separate array or [indptr.data() + 1].  The two
      [std::copy] calls and the subtraction of [m] are one loop here; the
      subtraction is on [nat] (a wrong start position that makes an index
      negative is not represented). *)
  Definition split_start (second : bool) (m : nat) (A : CS O) (ji : nat) (jv : T)
             (rd : list nat -> nat -> res nat) (indptr : list nat) : res (CS O) :=
    let ncs := if second then ssize A - m else m in
    match ind_start A with
    | [] => Ok (mkCS (psize A) ncs [] [] [])
    | _ =>
      z <- for_range 0 (psize A) (fun i z =>
             s <- rd indptr i ;; b <- get (ind_start A) i ;; e <- get (ind_start A) (S i) ;;
             if (s <? b) || (e <? s) then UB
             else Ok (z + if second then e - s else s - b)) 0 ;;
      if z =? 0 then Ok (mkCS (psize A) ncs (repeat 0 (length indptr)) [] [])
      else
        indptr <- set indptr 0 0 ;;
        '(indptr, _, ind, val) <- for_range 0 (psize A)
          (fun i (s : list nat * nat * list nat * list T) =>
            let '(indptr, pos, ind, val) := s in
            q <- rd indptr i ;; b <- get (ind_start A) i ;; e <- get (ind_start A) (S i) ;;
            let lo := if second then q else b in
            let hi := if second then e else q in
            '(pos', ind, val) <- for_range lo hi (fun k (s : nat * list nat * list T) =>
               j <- get (indices A) k ;; v <- get (vals A) k ;;
               let '(pos, ind, val) := s in
               ind <- set ind pos (if second then j - m else j) ;;
               val <- set val pos v ;;
               Ok (S pos, ind, val)) (pos, ind, val) ;;
            d <- get indptr i ;;
            indptr <- set indptr (S i) (d + (pos' - pos)) ;;
            Ok (indptr, pos', ind, val))
          (indptr, 0, repeat ji z, repeat jv z) ;;
        Ok (mkCS (psize A) ncs indptr ind val)
    end.

  (** [_split<IsSecond>(m, indptr, indices, vals)], CompressedStorage.hpp:434-450:
      the split positions are stored in [indptr[1..]] and that array is passed
      as [start] (aliasing). *)
  Definition split_low (second : bool) (m : nat) (A : CS O) (ji : nat) (jv : T) : res (CS O) :=
    match ind_start A with
    | [] => Ok (mkCS (psize A) (if second then ssize A - m else m) [] [] [])
    | _ =>
      indptr <- for_range 0 (psize A) (fun i indptr =>
        b <- get (ind_start A) i ;; e <- get (ind_start A) (S i) ;;
        '(_, q) <- find_sorted (indices A) b e m ;;
        set indptr (S i) q) (repeat ji (length (ind_start A))) ;;
      split_start second m A ji jv (fun indptr i => get indptr (S i)) indptr
    end.

  (** [split<IsSecond>(m)], CompressedStorage.hpp:1590-1597 (CRS), 2495-2502 (CCS). *)
  Definition split (second : bool) (m : nat) (A : CS O) (ji : nat) (jv : T) : res (CS O) :=
    if ssize A <? m then Err else split_low second m A ji jv.

  (** [split<IsSecond>(m, start)], CompressedStorage.hpp:1606-1615 (CRS), 2507-2517 (CCS). *)
  Definition split_at (second : bool) (m : nat) (A : CS O) (start : list nat)
             (ji : nat) (jv : T) : res (CS O) :=
    if ssize A <? m then Err
    else if length start <? psize A then Err
    else split_start second m A ji jv (fun _ i => get start i)
           (repeat ji (length (ind_start A))).

  (** [_split_dual<IsSecond>(m, n, start, ...)], CompressedStorage.hpp:461-529,
      with [n = ssize A]. *)
  Definition split_dual_start (second : bool) (m : nat) (A : CS O) (start : list nat)
             (ji : nat) (jv : T) : res (CS O) :=
    let ncs := if second then ssize A - m else m in
    let off := if second then m else 0 in
    match ind_start A with
    | [] => Ok (mkCS ncs (psize A) [] [] [])
    | _ =>
      indptr <- for_range 0 (psize A) (fun i indptr =>
        s <- get start i ;; b <- get (ind_start A) i ;; e <- get (ind_start A) (S i) ;;
        if (s <? b) || (e <? s) then UB
        else for_range (if second then s else b) (if second then e else s) (fun k indptr =>
          j <- get (indices A) k ;;
          c <- get indptr (j - off + 1) ;;
          set indptr (j - off + 1) (S c)) indptr) (repeat 0 (ncs + 1)) ;;
      indptr <- accumulate ncs indptr ;;
      z <- get indptr ncs ;;
      if z =? 0 then Ok (mkCS ncs (psize A) (repeat 0 (ncs + 1)) [] [])
      else
        s <- for_range 0 (psize A) (fun i s =>
          q <- get start i ;; b <- get (ind_start A) i ;; e <- get (ind_start A) (S i) ;;
          for_range (if second then q else b) (if second then e else q) (fun k s =>
            j <- get (indices A) k ;; v <- get (vals A) k ;;
            place (j - off) i v s) s) (indptr, repeat ji z, repeat jv z) ;;
        let '(indptr, ind, val) := s in
        indptr <- shift_swap ncs indptr ;;
        Ok (mkCS ncs (psize A) indptr ind val)
    end.

  (** [_split_dual<IsSecond>(m, n, ...)] without start positions,
      CompressedStorage.hpp:538-551, and [split_ccs]/[split_crs], 1633-1642, 2535-2544. *)
  Definition split_dual (second : bool) (m : nat) (A : CS O) (ji : nat) (jv : T) : res (CS O) :=
    if ssize A <? m then Err
    else match ind_start A with
    | [] => Ok (mkCS (if second then ssize A - m else m) (psize A) [] [] [])
    | _ =>
      buf <- for_range 0 (psize A) (fun i buf =>
        b <- get (ind_start A) i ;; e <- get (ind_start A) (S i) ;;
        '(_, q) <- find_sorted (indices A) b e m ;;
        set buf i q) (repeat ji (psize A)) ;;
      split_dual_start second m A buf ji jv
    end.

  (** ** Permutation *)

  (** [_compute_perm<DoValue, OnlyLeading>], CompressedStorage.hpp:541-604.
      [p]: permuted to original primary index; [qt]: original to permuted
      secondary index. *)
  Definition compute_perm_low (dov onlyl : bool) (leading : nat) (A : CS O)
             (p qt : list nat) (ji : nat) (jv : T) : res (list nat * list nat * list T) :=
    if negb (length p =? psize A) then Err
    else
      let ps := if onlyl then leading else length p in
      let nb := if dov then (if onlyl then leading else length qt) else 0 in
      (* resizing an undefined array to 0 leaves it undefined: "memory allocation failed" *)
      if dov && (nb =? 0) then Err else
      let buf := repeat jv nb in
      z <- for_range 0 ps (fun i z =>
             pi <- get p i ;; b <- get (ind_start A) pi ;; e <- get (ind_start A) (S pi) ;;
             if e <? b then UB else Ok (z + (e - b))) 0 ;;
      if z =? 0 then Ok (repeat 0 (ps + 1), [], [])
      else
        indptr <- set (repeat ji (ps + 1)) 0 0 ;;
        '(indptr, pos, ind, vpos, val, _) <- for_range 0 ps
          (fun i (s : list nat * nat * list nat * nat * list T * list T) =>
            let '(indptr, pos0, ind, vpos, val, buf) := s in
            pi <- get p i ;;
            '(pos, ind, buf) <- row_iter O A pi (fun j v (s : nat * list nat * list T) =>
               let '(pos, ind, buf) := s in
               q <- get qt j ;;
               if negb onlyl || (q <? ps) then
                 ind <- set ind pos q ;;
                 buf <- (if dov then set buf q v else Ok buf) ;;
                 Ok (S pos, ind, buf)
               else Ok (pos, ind, buf)) (pos0, ind, buf) ;;
            d <- get indptr i ;;
            indptr <- set indptr (S i) (d + (pos - pos0)) ;;
            ind <- sort_range ind pos0 pos ;;
            '(vpos, val) <- (if dov then
               for_range pos0 pos (fun k (s : nat * list T) =>
                 let '(vpos, val) := s in
                 j <- get ind k ;; v <- get buf j ;; val <- set val vpos v ;;
                 Ok (S vpos, val)) (vpos, val)
             else Ok (vpos, val)) ;;
            Ok (indptr, pos, ind, vpos, val, buf))
          (indptr, 0, repeat ji z, 0, repeat jv (if dov then z else 0), buf) ;;
        Ok (indptr, firstn pos ind, if dov then firstn vpos val else []).

  (** [compute_perm(p, qt, leading, struct_only)], CompressedStorage.hpp:1679-1709
      (CRS), 2579-2609 (CCS, with the roles of the arguments exchanged). *)
  Definition compute_perm (A : CS O) (p qt : list nat) (leading : nat) (struct_only : bool)
             (ji : nat) (jv : T) : res (CS O) :=
    if negb (length qt =? ssize A) then Err
    else if (leading =? 0) || ((leading =? psize A) && (leading =? ssize A)) then
      '(ip, ind, val) <- compute_perm_low (negb struct_only) false leading A p qt ji jv ;;
      Ok (mkCS (psize A) (ssize A) ip ind val)
    else if Nat.min (psize A) (ssize A) <? leading then Err
    else
      '(ip, ind, val) <- compute_perm_low (negb struct_only) true leading A p qt ji jv ;;
      Ok (mkCS leading leading ip ind val).

  (** ** Leading block *)

  (** [_extract_leading_struct] and [_extract_leading],
      CompressedStorage.hpp:611-648, called by [extract_leading], 1710-1717. *)
  Definition extract_leading (m : nat) (A : CS O) (ji : nat) (jv : T) : res (CS O) :=
    indptr <- set (repeat ji (m + 1)) 0 0 ;;
    '(indptr, z) <- for_range 0 m (fun i (s : list nat * nat) =>
       let '(indptr, z) := s in
       b <- get (ind_start A) i ;; e <- get (ind_start A) (S i) ;;
       '(_, q) <- find_sorted (indices A) b e m ;;
       indptr <- set indptr (S i) q ;;
       Ok (indptr, z + (q - b))) (indptr, 0) ;;
    (* vals.resize(0) on an undefined array leaves it undefined: "memory allocation failed" *)
    if z =? 0 then Err else
    '(indptr, ind) <- (
        indptr <- set indptr 0 0 ;;
        '(indptr, _, ind) <- for_range 0 m (fun i (s : list nat * nat * list nat) =>
           let '(indptr, pos, ind) := s in
           q <- get indptr (S i) ;; b <- get (ind_start A) i ;;
           '(pos, ind) <- for_range b q (fun k (s : nat * list nat) =>
              let '(pos, ind) := s in
              j <- get (indices A) k ;; ind <- set ind pos j ;; Ok (S pos, ind)) (pos, ind) ;;
           d <- get indptr i ;;
           indptr <- set indptr (S i) (d + (q - b)) ;;
           Ok (indptr, pos, ind)) (indptr, 0, repeat ji z) ;;
        Ok (indptr, ind)) ;;
    '(_, val) <- for_range 0 m (fun i (s : nat * list T) =>
       let '(pos, val) := s in
       b <- get (ind_start A) i ;;
       c <- get indptr i ;; d <- get indptr (S i) ;;
       (* copy_n with a non-positive count copies nothing *)
       for_range 0 (d - c) (fun k (s : nat * list T) =>
         let '(pos, val) := s in
         v <- get (vals A) (b + k) ;; val <- set val pos v ;; Ok (S pos, val)) (pos, val))
       (0, repeat jv (length ind)) ;;
    Ok (mkCS m m indptr ind val).

  (** ** Assembly *)

  (** [_begin_assemble], CompressedStorage.hpp:230-236. *)
  Definition begin_assemble (A : CS O) : CS O :=
    mkCS (psize A) (ssize A) [0] [] [].

  (** [_push_back_primary_empty], CompressedStorage.hpp:265-270. *)
  Definition push_empty (A : CS O) : res (CS O) :=
    l <- get (ind_start A) (length (ind_start A) - 1) ;;
    Ok (mkCS (psize A) (ssize A) (ind_start A ++ [l]) (indices A) (vals A)).

  (** The values [v[*first]] of a list of indices. *)
  Definition pick (v : list T) (l : list nat) : res (list T) :=
    for_list l (fun j acc => x <- get v j ;; Ok (acc ++ [x])) [].

  (** [_push_back_primary(ii, first, last, v)], CompressedStorage.hpp:281-303. *)
  Definition push_primary (A : CS O) (l : list nat) (v : list T) : res (CS O) :=
    x <- pick v l ;;
    b <- get (ind_start A) (length (ind_start A) - 1) ;;
    Ok (mkCS (psize A) (ssize A) (ind_start A ++ [b + length l])
             (indices A ++ l) (vals A ++ x)).

  (** [_push_back_primary] with two lists, CompressedStorage.hpp:319-353. *)
  Definition push_primary2 (A : CS O) (l1 : list nat) (v1 : list T) (l2 : list nat) (v2 : list T)
    : res (CS O) :=
    x1 <- pick v1 l1 ;;
    x2 <- pick v2 l2 ;;
    b <- get (ind_start A) (length (ind_start A) - 1) ;;
    Ok (mkCS (psize A) (ssize A) (ind_start A ++ [b + length l1 + length l2])
             (indices A ++ l1 ++ l2) (vals A ++ x1 ++ x2)).

  (** [_end_assemble], CompressedStorage.hpp:240-261. *)
  Definition end_assemble (A : CS O) : CS O :=
    if psize A + 1 =? length (ind_start A) then A
    else mkCS (length (ind_start A) - 1) (ssize A) (ind_start A) (indices A) (vals A).

  (** The calls a user makes between [begin_assemble_rows] and
      [end_assemble_rows] (CompressedStorage.hpp:991-1034, columns 1973-2016). *)
  Inductive push :=
  | PushEmpty
  | Push (l : list nat) (v : list T)
  | Push2 (l1 : list nat) (v1 : list T) (l2 : list nat) (v2 : list T).

  Definition push_step (o : push) (A : CS O) : res (CS O) :=
    match o with
    | PushEmpty => push_empty A
    | Push l v => push_primary A l v
    | Push2 l1 v1 l2 v2 => push_primary2 A l1 v1 l2 v2
    end.

  Definition assemble (A : CS O) (ops : list push) : res (CS O) :=
    A <- for_list ops push_step (begin_assemble A) ;;
    Ok (end_assemble A).

  (** ** Dense copies *)

  (** [copy_sparse] for CRS, DenseMatrix.hpp:357-373: column-major data array. *)
  Definition dense_of_crs (A : CS O) : res (list T) :=
    for_range 0 (psize A) (fun r d =>
      row_iter O A r (fun j v d => set d (r + j * psize A) v) d)
      (repeat (t0 O) (psize A * ssize A)).

  (** [copy_sparse] for CCS, DenseMatrix.hpp:380-398. *)
  Definition dense_of_ccs (A : CS O) : res (list T) :=
    for_range 0 (psize A) (fun c d =>
      row_iter O A c (fun j v d => set d (c * ssize A + j) v) d)
      (repeat (t0 O) (ssize A * psize A)).
End Conv.
