(** * VecModel: permutation objects, the sparse accumulator, dropping.

    Models src/hif/ds/PermMatrix.hpp, src/hif/ds/SparseVec.hpp and
    src/hif/alg/thresholds.hpp.  Indices are [nat]; [hif_assert] is not modelled,
    an access outside an array is [UB] instead. *)
From Coq Require Import List Arith Lia Bool.
From Verif Require Import Base Scalar Mag.
Import ListNotations.

(** [std::swap(a[i], a[j])]. *)
Definition swap {X} (a : list X) (i j : nat) : res (list X) :=
  x <- get a i ;; y <- get a j ;;
  a <- set a i y ;; set a j x.

(** ** PermMatrix / BiPermMatrix *)

(** PermMatrix::make_eye, PermMatrix.hpp:96-99. *)
Definition make_eye (p : list nat) : res (list nat) :=
  for_range 0 (length p) (fun i p => set p i i) p.

(** [std::is_sorted(first, last)] with [operator<]. *)
Fixpoint is_sorted (p : list nat) : bool :=
  match p with
  | a :: ((b :: _) as t) => negb (b <? a) && is_sorted t
  | _ => true
  end.

(** PermMatrix::is_eye, PermMatrix.hpp:102-105. *)
Definition is_eye (p : list nat) : bool :=
  match p with
  | [] => true
  | a :: _ => (a =? 0) && is_sorted p
  end.

(** BiPermMatrix: the pair [_p], [_p_inv], PermMatrix.hpp:128-227. *)
Record BiPerm : Type := mkBP { bp : list nat; bpi : list nat }.

(** BiPermMatrix::make_eye, PermMatrix.hpp:187-191 ([std::copy] needs room for
    [_p.size()] elements; the assertion on equal sizes is compiled out). *)
Definition bi_make_eye (P : BiPerm) : res BiPerm :=
  p <- make_eye (bp P) ;;
  if length p <=? length (bpi P) then Ok (mkBP p (p ++ skipn (length p) (bpi P))) else UB.

(** BiPermMatrix::build_inv, PermMatrix.hpp:196-200. *)
Definition build_inv (P : BiPerm) : res BiPerm :=
  pi <- for_range 0 (length (bp P)) (fun i pi => pi_i <- get (bp P) i ;; set pi pi_i i) (bpi P) ;;
  Ok (mkBP (bp P) pi).

(** BiPermMatrix::interchange, PermMatrix.hpp:205-208 (and :91-93). *)
Definition interchange (P : BiPerm) (i j : nat) : res BiPerm :=
  p <- swap (bp P) i j ;;
  a <- get p i ;; b <- get p j ;;
  pi <- swap (bpi P) a b ;;
  Ok (mkBP p pi).

(** BiPermMatrix::interchange_inv, PermMatrix.hpp:213-216. *)
Definition interchange_inv (P : BiPerm) (i j : nat) : res BiPerm :=
  pi <- swap (bpi P) i j ;;
  a <- get pi i ;; b <- get pi j ;;
  p <- swap (bp P) a b ;;
  Ok (mkBP p pi).

(** ** SparseVector *)
Section SV.
  Context {O : Ops}.
  Notation T := (T O).

  (** SparseVec.hpp:232-235,338-343: [_vals], [_inds], [_counts], [_dense_tags]
      ([None] is the flag [_EMPTY]) and [_sparse_tags]. *)
  Record SV : Type := mkSV {
    sv_vals : list T; sv_inds : list nat; sv_cnt : nat;
    sv_dtags : list (option nat); sv_stags : list bool }.

  (** Constructor, SparseVec.hpp:269-272 with [s_n = 0] (the value array is not
      initialised: [junk]). *)
  Definition sv_new (n : nat) (junkv : list T) (junki : list nat) : SV :=
    mkSV junkv junki 0 (repeat None n) (repeat false (length junki)).

  (** reset_counter, SparseVec.hpp:103. *)
  Definition sv_reset (v : SV) : SV :=
    mkSV (sv_vals v) (sv_inds v) 0 (sv_dtags v) (sv_stags v).

  (** IndexValueArray::push_back(i), SparseVec.hpp:123-127. *)
  Definition sv_push1 (v : SV) (i : nat) : res SV :=
    inds <- set (sv_inds v) (sv_cnt v) i ;;
    Ok (mkSV (sv_vals v) inds (S (sv_cnt v)) (sv_dtags v) (sv_stags v)).

  (** SparseVector::push_back(i, step), SparseVec.hpp:320-329. *)
  Definition sv_push (v : SV) (i step : nat) : res (bool * SV) :=
    t <- get (sv_dtags v) i ;;
    if (match t with Some s => s =? step | None => false end) then Ok (false, v)
    else
      v <- sv_push1 v i ;;
      tags <- set (sv_dtags v) i (Some step) ;;
      Ok (true, mkSV (sv_vals v) (sv_inds v) (sv_cnt v) tags (sv_stags v)).

  (** restore_cur_state, SparseVec.hpp:332-335. *)
  Definition sv_restore (v : SV) : res SV :=
    tags <- for_range 0 (sv_cnt v) (fun i tags =>
      j <- get (sv_inds v) i ;; set tags j None) (sv_dtags v) ;;
    Ok (mkSV (sv_vals v) (sv_inds v) (sv_cnt v) tags (sv_stags v)).

  (** mark_delete, SparseVec.hpp:298-301. *)
  Definition sv_mark (v : SV) (i : nat) : res SV :=
    tags <- set (sv_stags v) i true ;;
    Ok (mkSV (sv_vals v) (sv_inds v) (sv_cnt v) (sv_dtags v) tags).

  (** compress_indices, SparseVec.hpp:304-313. *)
  Definition sv_compress (v : SV) : res SV :=
    '(i, inds, tags) <- for_range 0 (sv_cnt v) (fun j (s : nat * list nat * list bool) =>
      let '(i, inds, tags) := s in
      t <- get tags j ;;
      if negb t then
        x <- get inds j ;; inds <- set inds i x ;; Ok (S i, inds, tags)
      else tags <- set tags j false ;; Ok (i, inds, tags))
      (0, sv_inds v, sv_stags v) ;;
    Ok (mkSV (sv_vals v) inds i (sv_dtags v) tags).

  (** [v.val(i)], SparseVec.hpp:131-138. *)
  Definition sv_val (v : SV) (i : nat) : res T :=
    j <- get (sv_inds v) i ;; get (sv_vals v) j.

  (** [v[i]] as written to: the dense value slot, SparseVec.hpp:213-216. *)
  Definition sv_setval (v : SV) (i : nat) (x : T) : res SV :=
    vals <- set (sv_vals v) i x ;;
    Ok (mkSV vals (sv_inds v) (sv_cnt v) (sv_dtags v) (sv_stags v)).

  (** ** Dropping *)
  Variable G : Mag O.
  Variable mdiv : M G -> M G -> M G.

  (** apply_num_dropping, thresholds.hpp:48-61. *)
  Definition apply_num_dropping (tau kappa : M G) (v : SV) : res SV :=
    let coeff := mdiv tau kappa in
    if mle G coeff (m0 G) then Ok v
    else
      v <- for_range 0 (sv_cnt v) (fun i v =>
        x <- sv_val v i ;;
        if mle G (mabs G x) coeff then sv_mark v i else Ok v) v ;;
      sv_compress v.

  (** [std::max_element] over [first .. first+n) with the comparison of
      thresholds.hpp:99-103; returns the position of the first maximum. *)
  Definition max_pos (vals : list T) (inds : list nat) (n : nat) : res nat :=
    for_range 1 n (fun k best =>
      i <- get inds best ;; j <- get inds k ;;
      x <- get vals i ;; y <- get vals j ;;
      Ok (if mlt G (mabs G x) (mabs G y) then k else best)) 0.

  (** [std::nth_element(first, first + N - 1, last, |vals[i]| > |vals[j]|)]: the
      standard only fixes the partition property, so the routine is a parameter
      [nth_el key N l]; [VecSpec.nth_element_ok] is its contract.

      apply_space_dropping, thresholds.hpp:71-125; [ceil_mul alpha nnz] is
      [std::ceil(alpha*nnz)]. *)
  Variable ceil_mul : M G -> nat -> nat.
  Variable nth_el : (nat -> M G) -> nat -> list nat -> list nat.
  Definition space_limit (nnz : nat) (alpha : M G) (start : nat) : nat :=
    let N1 := ceil_mul alpha nnz in
    let N1 := if N1 <=? start then start + 1 else N1 in
    N1 - start.
  Definition apply_space_dropping (nnz : nat) (alpha : M G) (v : SV) (start : nat) : res SV :=
    if mle G alpha (m0 G) then Ok v
    else if sv_cnt v =? 0 then Ok v
    else
      let N := space_limit nnz alpha start in
      let n := sv_cnt v in
      if N <? n then
        inds <- (if N =? 1 then k <- max_pos (sv_vals v) (sv_inds v) n ;; swap (sv_inds v) 0 k
                 else
                   if forallb (fun i => i <? length (sv_vals v)) (firstn n (sv_inds v)) then
                     Ok (nth_el (fun i => mabs G (nth i (sv_vals v) (t0 O))) N (firstn n (sv_inds v))
                         ++ skipn n (sv_inds v))
                   else UB) ;;
        Ok (mkSV (sv_vals v) inds N (sv_dtags v) (sv_stags v))
      else Ok v.
End SV.
Arguments SV : clear implicits.
