(** * PreModel: preprocessing of one level.

    Models src/hif/pre/matching_scaling.hpp (static deferral, pattern of the
    leading block, the driver [do_maching]), src/hif/pre/driver.hpp
    ([do_preprocessing]) and src/hif/pre/a_priori_scaling.hpp
    ([scale_extreme_values]).  The matching kernel (EqlDriver.hpp) and the
    reordering routines are parameters here.  Indices are [nat]; arrays resized
    without initialisation hold junk ([ji]). *)
From Coq Require Import List Arith Lia Bool.
From Verif Require Import Base Scalar CSModel ConvModel Mag VecModel PruneModel.
Import ListNotations.

Section Pre.
  Context {O : Ops} (G : Mag O).
  Notation T := (T O).
  (** magnitudes: the constant one, [EPS] of the scalar type *)
  Variable mone eps : M G.

  (** [a == 0] on magnitudes. *)
  Definition mis0 (a : M G) : bool := mle G a (m0 G) && mle G (m0 G) a.

  (** [nnz_in_primary(i)] and [std::abs] of [*std::max_element] of primary [i],
      joined into [v = std::max(v, ...)], matching_scaling.hpp:111-122. *)
  Definition join_max (A : CS O) (i : nat) (v : M G) : res (M G) :=
    b <- get (ind_start A) i ;; e <- get (ind_start A) (S i) ;;
    if e =? b then Ok v
    else if e <? b then UB
    else (r <- row_max G (vals A) b e ;; Ok (mmax G v r)).

  (** lambda compute_max_mag, matching_scaling.hpp:109-125 (row [pi] of [A_crs],
      column [qi] of [A]). *)
  Definition max_mag (A A_crs : CS O) (pi qi : nat) : res (M G) :=
    v <- join_max A_crs pi (m0 G) ;;
    v <- join_max A qi v ;;
    Ok (if mis0 v then mone else v).

  (** lambda is_good_diag with IsSymm = false (the only instantiation used,
      matching_scaling.hpp:439), matching_scaling.hpp:128-155. *)
  Definition is_good_diag (A A_crs : CS O) (pi qi : nat) : res bool :=
    b <- get (ind_start A) qi ;; e <- get (ind_start A) (S qi) ;;
    '(found, pos) <- find_sorted (indices A) b e pi ;;
    if negb found then Ok false
    else
      v <- get (vals A) pos ;;
      mx <- max_mag A A_crs pi qi ;;
      Ok (negb (mle G (mabs G v) (mmul G mx eps))).

  (** Variables of the deferral loop: p, q, work_p, work_q, deferrals, m. *)
  Record dstate := mkDS { ds_p : list nat; ds_q : list nat; ds_wp : list nat; ds_wq : list nat; ds_def : nat; ds_m : nat }.

  Variable good : nat -> nat -> res bool.

  (** The inner while loop, matching_scaling.hpp:161-171. *)
  Fixpoint defer_inner (fuel m0 i : nat) (s : dstate) : res dstate :=
    match fuel with
    | 0 => UB
    | S fuel =>
      let k := i + ds_def s in
      pi <- get (ds_p s) k ;; qi <- get (ds_q s) k ;;
      g <- good pi qi ;;
      if g then Ok s
      else
        wp <- set (ds_wp s) (ds_def s) pi ;;
        wq <- set (ds_wq s) (ds_def s) qi ;;
        let def := S (ds_def s) in
        if m0 <=? i + def then Ok (mkDS (ds_p s) (ds_q s) wp wq def i)
        else defer_inner fuel m0 i (mkDS (ds_p s) (ds_q s) wp wq def (ds_m s - 1))
    end.

  (** The outer loop, matching_scaling.hpp:159-176. *)
  Fixpoint defer_outer (fuel m0 i : nat) (s : dstate) : res dstate :=
    match fuel with
    | 0 => UB
    | S fuel =>
      if i <? ds_m s then
        s <- defer_inner (S m0) m0 i s ;;
        if ds_m s =? i then Ok s
        else
          pi <- get (ds_p s) (i + ds_def s) ;; p <- set (ds_p s) i pi ;;
          qi <- get (ds_q s) (i + ds_def s) ;; q <- set (ds_q s) i qi ;;
          defer_outer fuel m0 (S i) (mkDS p q (ds_wp s) (ds_wq s) (ds_def s) (ds_m s))
      else Ok s
    end.

  (** defer_tiny_diags, matching_scaling.hpp:96-187; returns p, q, the two work
      arrays (which are the inverse arrays) and the new leading size. *)
  Definition defer_tiny_diags (m0 : nat) (p q wp wq : list nat) : res (list nat * list nat * list nat * list nat * nat) :=
    s <- defer_outer (S m0) m0 0 (mkDS p q wp wq 0 m0) ;;
    if ds_def s =? 0 then Ok (ds_p s, ds_q s, ds_wp s, ds_wq s, ds_m s)
    else
      '(p, q) <- for_range (ds_m s) m0 (fun i (pq : list nat * list nat) =>
        let '(p, q) := pq in
        pi <- get (ds_wp s) (i - ds_m s) ;; p <- set p i pi ;;
        qi <- get (ds_wq s) (i - ds_m s) ;; q <- set q i qi ;;
        Ok (p, q)) (ds_p s, ds_q s) ;;
      Ok (p, q, ds_wp s, ds_wq s, ds_m s).
End Pre.

Section Leading.
  Context {O : Ops}.

  (** One column of the non-symmetrised pattern: [std::count_if(... p.inv(i) < m)],
      matching_scaling.hpp:216-224. *)
  Definition count_col (A : CS O) (m : nat) (pinv : list nat) (col : nat) : res nat :=
    row_iter O A col (fun i _ c => k <- get pinv i ;; Ok (if k <? m then S c else c)) 0.

  (** compute_leading_block with apat = false, matching_scaling.hpp:203-247;
      the pattern only (B has no values): start array and indices. *)
  Definition leading_block (A : CS O) (m : nat) (pinv q : list nat) (ji : nat) : res (list nat * list nat) :=
    start <- set (repeat ji (m + 1)) 0 0 ;;
    start <- for_range 0 m (fun col start =>
      qc <- get q col ;;
      a <- get start col ;;
      c <- count_col A m pinv qc ;;
      set start (S col) (a + c)) start ;;
    nz <- get start m ;;
    '(ind, _) <- for_range 0 m (fun col (s : list nat * nat) =>
      let '(ind, pos) := s in
      qc <- get q col ;;
      '(ind, pos) <- row_iter O A qc (fun i _ (s : list nat * nat) =>
        let '(ind, pos) := s in
        k <- get pinv i ;;
        if k <? m then (ind <- set ind pos k ;; Ok (ind, S pos)) else Ok (ind, pos)) (ind, pos) ;;
      b <- get start col ;;
      ind <- sort_range ind b pos ;;
      Ok (ind, pos)) (repeat ji nz, 0) ;;
    Ok (start, ind).

  (** A use of [masks]: C++ evaluates [!masks[ind] && ind < m] left to right, so
      [masks[ind]] is read before the bound is tested. *)
  Definition unmasked (masks : list bool) (m ind : nat) : res bool :=
    b <- get masks ind ;; Ok (negb b && (ind <? m)).

  (** compute_leading_block with apat = true (pattern of A_m + A_m^T),
      matching_scaling.hpp:248-316. *)
  Definition leading_block_apat (A A_crs : CS O) (m : nat) (p pinv q qinv : list nat) (ji : nat)
    : res (list nat * list nat) :=
    start <- set (repeat ji (m + 1)) 0 0 ;;
    '(start, masks, _) <- for_range 0 m (fun i (s : list nat * list bool * list nat) =>
      let '(start, masks, buf) := s in
      col <- get q i ;;
      '(masks, buf, nnz) <- row_iter O A col (fun r _ (s : list bool * list nat * nat) =>
        let '(masks, buf, nnz) := s in
        ind <- get pinv r ;;
        if ind <? m then
          (masks <- set masks ind true ;; buf <- set buf nnz ind ;; Ok (masks, buf, S nnz))
        else Ok (masks, buf, nnz)) (masks, buf, 0) ;;
      row <- get p i ;;
      '(masks, buf, nnz) <- row_iter O A_crs row (fun c _ (s : list bool * list nat * nat) =>
        let '(masks, buf, nnz) := s in
        ind <- get qinv c ;;
        u <- unmasked masks m ind ;;
        if u then
          (masks <- set masks ind true ;; buf <- set buf nnz ind ;; Ok (masks, buf, S nnz))
        else Ok (masks, buf, nnz)) (masks, buf, nnz) ;;
      a <- get start i ;;
      start <- set start (S i) (a + nnz) ;;
      masks <- for_range 0 nnz (fun k masks => j <- get buf k ;; set masks j false) masks ;;
      Ok (start, masks, buf)) (start, repeat false m, repeat ji m) ;;
    nz <- get start m ;;
    '(ind, _, _) <- for_range 0 m (fun i (s : list nat * list bool * nat) =>
      let '(ind, masks, pos) := s in
      col <- get q i ;;
      '(ind, masks, pos) <- row_iter O A col (fun r _ (s : list nat * list bool * nat) =>
        let '(ind, masks, pos) := s in
        k <- get pinv r ;;
        if k <? m then
          (ind <- set ind pos k ;; masks <- set masks k true ;; Ok (ind, masks, S pos))
        else Ok (ind, masks, pos)) (ind, masks, pos) ;;
      row <- get p i ;;
      '(ind, masks, pos) <- row_iter O A_crs row (fun c _ (s : list nat * list bool * nat) =>
        let '(ind, masks, pos) := s in
        k <- get qinv c ;;
        u <- unmasked masks m k ;;
        if u then
          (masks <- set masks k true ;; ind <- set ind pos k ;; Ok (ind, masks, S pos))
        else Ok (ind, masks, pos)) (ind, masks, pos) ;;
      b <- get start i ;;
      ind <- sort_range ind b pos ;;
      e <- get start (S i) ;;
      masks <- (if e <? b then UB else for_range b e (fun k masks => j <- get ind k ;; set masks j false) masks) ;;
      Ok (ind, masks, pos)) (repeat ji nz, masks, 0) ;;
    Ok (start, ind).
End Leading.

Section Driver.
  (** lambda reorder_finalize_perm, driver.hpp:118-126: the inverse array is the
      buffer, then the arrays are swapped and the inverse rebuilt. *)
  Definition finalize_perm (P : list nat) (m : nat) (Q : BiPerm) : res BiPerm :=
    buf <- for_range 0 m (fun i buf => k <- get P i ;; x <- get (bp Q) k ;; set buf i x) (bpi Q) ;;
    buf <- for_range m (length (bp Q)) (fun i buf => x <- get (bp Q) i ;; set buf i x) buf ;;
    build_inv (mkBP buf (bp Q)).

  Variable good : nat -> nat -> res bool.

  (** The tail of do_maching, matching_scaling.hpp:415-441 and do_preprocessing,
      driver.hpp:88-134.  [p0], [q0]: the permutation arrays (length n) after the
      matching kernel filled their first [m0] entries; [pi0], [qi0] the inverse
      arrays (uninitialised).  [reordering m] is the array returned by
      run_amd/run_rcm for the leading block of size [m] ([None]: opt.reorder ==
      REORDER_OFF). *)
  Definition finish_preprocessing (m0 : nat) (p0 q0 pi0 qi0 : list nat) (reordering : option (nat -> list nat))
    : res (BiPerm * BiPerm * nat) :=
    p <- for_range m0 (length p0) (fun i p => set p i i) p0 ;;
    q <- for_range m0 (length q0) (fun i q => set q i i) q0 ;;
    '(p, q, pi, qi, m) <- defer_tiny_diags good m0 p q pi0 qi0 ;;
    match reordering with
    | Some f =>
      if m =? 0 then (P <- build_inv (mkBP p pi) ;; Q <- build_inv (mkBP q qi) ;; Ok (P, Q, m))
      else (P <- finalize_perm (f m) m (mkBP p pi) ;; Q <- finalize_perm (f m) m (mkBP q qi) ;; Ok (P, Q, m))
    | None => P <- build_inv (mkBP p pi) ;; Q <- build_inv (mkBP q qi) ;; Ok (P, Q, m)
    end.
End Driver.

Section Scale.
  Context {O : Ops} (G : Mag O).
  Notation T := (T O).
  (** [mrec a] = [1. / a] on magnitudes, [smul s v]: a value times a scaling
      factor, [mone]: the constant 1. *)
  Variable mone : M G.
  Variable mrec : M G -> M G.
  Variable smul : T -> M G -> T.

  (** scale_extreme_values<IsSymm>, a_priori_scaling.hpp:87-148, except the final
      shift to Fortran indices.  Returns the scaled matrix, rs and cs. *)
  Definition scale_extreme_values (symm : bool) (B : CS O) (rs cs : list (M G)) : res (CS O * list (M G) * list (M G)) :=
    let n := psize B in
    '(val, rs) <- for_range 0 n (fun row (s : list T * list (M G)) =>
      let '(val, rs) := s in
      b <- get (ind_start B) row ;; e <- get (ind_start B) (S row) ;;
      if e <? b then UB
      else
        tmp <- (if e =? b then Ok (m0 G) else row_max G val b e) ;;
        let tmp := if mis0 G tmp then mone else tmp in
        let tmp := mrec tmp in
        rs <- set rs row tmp ;;
        val <- for_range b e (fun k val => v <- get val k ;; set val k (smul v tmp)) val ;;
        Ok (val, rs)) (vals B, rs) ;;
    nz <- nnz O B ;;
    cs <- (if symm then
        (if (n <=? length rs) && (n <=? length cs) then Ok (firstn n rs ++ skipn n cs) else UB)
      else
        cs <- fill_n cs n (m0 G) ;;
        cs <- for_range 0 nz (fun i cs =>
          j <- get (indices B) i ;; v <- get val i ;; c <- get cs j ;;
          set cs j (mmax G (mabs G v) c)) cs ;;
        for_range 0 n (fun i cs =>
          c <- get cs i ;; set cs i (if mis0 G c then mone else mrec c)) cs) ;;
    val <- for_range 0 nz (fun i val =>
      j <- get (indices B) i ;; v <- get val i ;; c <- get cs j ;; set val i (smul v c)) val ;;
    Ok (mkCS (psize B) (ssize B) (ind_start B) (indices B) val, rs, cs).
End Scale.
