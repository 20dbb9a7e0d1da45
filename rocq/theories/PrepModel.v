(** * PrepModel: the preprocessing of one level, from the matrix to permutations and scaling.

    Models src/hif/pre/driver.hpp ([do_preprocessing]), src/hif/pre/matching_scaling.hpp
    ([do_maching], [fix_poor_scaling]), src/hif/pre/EqlDriver.hpp ([do_matching]) and the
    remaining part of src/hif/pre/a_priori_scaling.hpp ([scale_eye], [iterative_scale]), on top
    of the matching kernel (EqModel), static deferral and leading pattern (PreModel), extraction
    (ConvModel) and RCM (RcmModel).  AMD is a parameter.  Logging is not modelled, except the
    flag of the matching (warnings).  Arrays resized without initialisation hold the contents
    given by [un], [um], [ur] (by size). *)
From Coq Require Import List Arith ZArith Lia Bool.
From Verif Require Import Base Scalar CSModel ConvModel Mag VecModel PruneModel PreModel EqModel RcmModel.
Import ListNotations.
Local Open Scope nat_scope.

(** [enum ReorderTypes], Options.h:61-65. *)
Definition REORDER_OFF : Z := 0.
Definition REORDER_AUTO : Z := 1.
Definition REORDER_AMD : Z := 2.
Definition REORDER_RCM : Z := 3.
Definition REORDER_NULL : Z := 4.

(** The options read by preprocessing.  [po_beta]: [None] for values that disable the repair of
    the scaling ([beta0 <= 1]); a negative value is replaced by 1e3 before
    (matching_scaling.hpp:66). *)
Record popts (X : Type) := mkPO { po_reorder : Z; po_prescale : Z; po_beta : option X }.
Arguments mkPO {X}. Arguments po_reorder {X}. Arguments po_prescale {X}. Arguments po_beta {X}.

Section Prep.
  Context {O : Ops} (G : Mag O) (K : ROps).
  Notation T := (T O).
  (** constants 1 and [EPS], [1. / x], value times factor, [std::sqrt], [std::exp],
      [std::abs(1 - x)], [x > tol] *)
  Variable mone eps : M G.
  Variable mrec : M G -> M G.
  Variable smul : T -> M G -> T.
  Variable msqrt : M G -> M G.
  Variable mexp : RR K -> M G.
  Variable mdiff : M G -> M G.
  Variable mbig : M G -> bool.
  (** scalars as numbers of the matching kernel, its logarithm and constants *)
  Variable rmag : M G -> RR K.
  Variable rlog : RR K -> RR K.
  Variable rbig : nat -> RR K.
  Variable rhuge : RR K.
  (** uninitialised arrays of a given size *)
  Variable un : nat -> list nat.
  Variable um : nat -> list (M G).
  Variable ur : nat -> list (RR K).
  Variable ji : nat.
  Variable jv : T.
  (** run_amd: start array, indices, size; reordering.hpp:53-110 *)
  Variable amd : list nat -> list nat -> nat -> list nat.

  (** [scale_eye], a_priori_scaling.hpp:53-69, without the shift of the indices. *)
  Definition scale_eye (n : nat) (rs cs : list (M G)) : res (list (M G) * list (M G)) :=
    for_range 0 n (fun i '(rs, cs) => cs <- set cs i mone ;; rs <- set rs i mone ;; Ok (rs, cs)) (rs, cs).

  (** Entries [b..e-1] of primary [row], with their positions. *)
  Definition over_row {S} (B : CS O) (row : nat) (f : nat -> nat -> S -> res S) (s : S) : res S :=
    b <- get (ind_start B) row ;; e <- get (ind_start B) (Datatypes.S row) ;;
    if e <? b then UB else for_range b e (fun k s => j <- get (indices B) k ;; f k j s) s.

  (** One pass of the do-while loop of [iterative_scale_p], a_priori_scaling.hpp:174-230, for
      the identity permutation and a square matrix.  State: values, [rs], [cs], [local_rs],
      [local_cs], [res_rs], [res_cs]; also returns [res_r > tol || res_c > tol]. *)
  Definition iter_pass (symm : bool) (B : CS O) (st : list T * list (M G) * list (M G) * list (M G) * list (M G) * list (M G) * list (M G)) :=
    let n := psize B in
    let '(val, rs, cs, lrs, lcs, qrs, qcs) := st in
    let lcs := if symm then lcs else map (fun _ => m0 G) lcs in
    '(lrs, lcs) <- for_range 0 n (fun row '(lrs, lcs) =>
      '(tmp, lcs) <- over_row B row (fun k j '(tmp, lcs) =>
        v <- get val k ;;
        let tmp := mmax G (mabs G v) tmp in
        if symm then Ok (tmp, lcs)
        else (c <- get lcs j ;; lcs <- set lcs j (mmax G (mabs G v) c) ;; Ok (tmp, lcs))) (m0 G, lcs) ;;
      lrs <- set lrs row (mrec (msqrt tmp)) ;; Ok (lrs, lcs)) (lrs, lcs) ;;
    rs <- for_range 0 n (fun i rs => r <- get rs i ;; l <- get lrs i ;; set rs i (mmul G r l)) rs ;;
    '(lcs, cs) <- (if symm then Ok (lcs, cs) else
      for_range 0 n (fun i '(lcs, cs) =>
        c <- get lcs i ;;
        let tmp := mrec (msqrt c) in
        lcs <- set lcs i tmp ;; x <- get cs i ;; cs <- set cs i (mmul G x tmp) ;; Ok (lcs, cs)) (lcs, cs)) ;;
    let qcs := if symm then qcs else map (fun _ => m0 G) qcs in
    '(val, qrs, qcs) <- for_range 0 n (fun row '(val, qrs, qcs) =>
      r <- get lrs row ;;
      '(tmp, val, qcs) <- over_row B row (fun k j '(tmp, val, qcs) =>
        c <- (if symm then get lrs j else get lcs j) ;;
        v <- get val k ;;
        let w := smul v (mmul G r c) in
        val <- set val k w ;;
        let tmp := mmax G (mabs G w) tmp in
        if symm then Ok (tmp, val, qcs)
        else (c <- get qcs j ;; qcs <- set qcs j (mmax G (mabs G w) c) ;; Ok (tmp, val, qcs))) (m0 G, val, qcs) ;;
      qrs <- set qrs row tmp ;; Ok (val, qrs, qcs)) (val, qrs, qcs) ;;
    res_r <- for_range 0 n (fun i tmp => x <- get qrs i ;; Ok (mmax G (mdiff x) tmp)) (m0 G) ;;
    res_c <- (if symm then Ok res_r else for_range 0 n (fun i tmp => x <- get qcs i ;; Ok (mmax G (mdiff x) tmp)) (m0 G)) ;;
    Ok (mbig res_r || mbig res_c, (val, rs, cs, lrs, lcs, qrs, qcs)).

  (** [do ... while (... && iters < max_iters)]. *)
  Fixpoint iter_loop (iters : nat) (symm : bool) (B : CS O) st : res (list T * list (M G) * list (M G) * list (M G) * list (M G) * list (M G) * list (M G)) :=
    match iters with
    | 0 => Ok st
    | S k => '(go, st) <- iter_pass symm B st ;; if go then iter_loop k symm B st else Ok st
    end.

  (** [iterative_scale(B, s, t, 1e-10, 5)], a_priori_scaling.hpp:150-283, without the shift. *)
  Definition iterative_scale (symm : bool) (B : CS O) (rs cs : list (M G)) : res (CS O * list (M G) * list (M G)) :=
    let n := psize B in
    let z := if symm then 0 else n in
    rs <- fill_n rs n mone ;;
    cs <- (if symm then Ok cs else fill_n cs n mone) ;;
    '(val, rs, cs, _, _, _, _) <- iter_loop 5 symm B (vals B, rs, cs, um n, um z, um n, um z) ;;
    cs <- (if symm then (if (n <=? length rs) && (n <=? length cs) then Ok (firstn n rs ++ skipn n cs) else UB) else Ok cs) ;;
    Ok (mkCS (psize B) (ssize B) (ind_start B) (indices B) val, rs, cs).

  (** The a priori scaling chosen by [pre_scale], EqlDriver.hpp:82-92. *)
  Definition pre_scaling (symm : bool) (ps : Z) (B : CS O) (s t : list (M G)) : res (CS O * list (M G) * list (M G)) :=
    if (ps =? 0)%Z then ('(s, t) <- scale_eye (psize B) s t ;; Ok (B, s, t))
    else if (ps =? 1)%Z then scale_extreme_values G mone mrec smul symm B s t
    else iterative_scale symm B s t.

  (** [EqlDriver::do_matching<IsSymm>(B, p, q, s, t, pre_scale)], EqlDriver.hpp:68-134.  [B] is
      stored by rows and handed over as if stored by columns, so the first half of the scaling
      of the kernel belongs to the columns.  The indices are shifted by the a priori scaling.
      Also returns the flag (1, 2: warnings). *)
  Definition do_matching (symm : bool) (ps : Z) (B : CS O) (p q : list nat) (s t : list (M G))
    : res (list nat * list nat * list (M G) * list (M G) * nat) :=
    let n := psize B in
    nz <- nnz O B ;;
    '(B, s, t) <- pre_scaling symm ps B s t ;;
    r <- compute K T (fun v => rmag (mabs G v)) rlog rbig rhuge n nz (map S (ind_start B)) (map S (indices B)) (vals B)
           (un n) (un n) (ur n) (ur nz) ;;
    match r with
    | Bad _ => Err
    | Good _ info perm u d =>
      '(s, t) <- for_range 0 n (fun i '(s, t) =>
        x <- get s i ;; dl <- get d i ;; s <- set s i (mmul G x (mexp dl)) ;;
        y <- get t i ;; ul <- get u i ;; t <- set t i (mmul G y (mexp ul)) ;;
        Ok (s, t)) (s, t) ;;
      p <- for_range 0 n (fun i p => x <- get perm i ;; set p i (Z.abs_nat x - 1)) p ;;
      if symm then
        q <- for_range 0 n (fun i q => x <- get p i ;; set q i x) q ;;
        s <- for_range 0 n (fun i s => x <- get s i ;; y <- get t i ;; set s i (msqrt (mmul G x y))) s ;;
        t <- for_range 0 n (fun i t => x <- get s i ;; set t i x) t ;;
        Ok (p, q, s, t, info)
      else
        q <- for_range 0 n (fun i q => set q i i) q ;;
        Ok (p, q, s, t, info)
    end.

  (** [fix_poor_scaling], matching_scaling.hpp:59-76. *)
  Definition fix_poor_scaling (m0 level : nat) (p q : list nat) (s t : list (M G)) (beta : option (M G)) : res (list (M G) * list (M G)) :=
    match beta with
    | None => Ok (s, t)
    | Some b =>
      if 1 <? level then
        for_range 0 m0 (fun i '(s, t) =>
          pi <- get p i ;; qi <- get q i ;; x <- get s pi ;; y <- get t qi ;;
          if mlt G (mmul G (mmin G x y) b) (mmax G x y) then
            let r := msqrt (mmul G x y) in
            t <- set t qi r ;; s <- set s pi r ;; Ok (s, t)
          else Ok (s, t)) (s, t)
      else Ok (s, t)
    end.

  (** The matrix given to the matching, matching_scaling.hpp:381-412. *)
  Definition matching_input (A_crs : CS O) (m0 M : nat) (ps : Z) : res (CS O) :=
    if m0 =? M then
      if (ps =? 0)%Z then Ok (mkCS M M (ind_start A_crs) (indices A_crs) (vals A_crs))
      else
        nz <- nnz O A_crs ;;
        if length (vals A_crs) <=? nz then
          Ok (mkCS M M (ind_start A_crs) (indices A_crs) (vals A_crs ++ repeat jv (nz - length (vals A_crs))))
        else UB
    else extract_leading O m0 A_crs ji jv.

  (** [do_maching], matching_scaling.hpp:346-450.  Returns the pattern of the leading block if
      it is computed, its size, scaling, permutations (with inverse arrays) and the flag. *)
  Definition do_maching (symm : bool) (A A_crs : CS O) (m0 level : nat) (o : popts (Mag.M G))
    : res (option (list nat * list nat) * nat * list (M G) * list (M G) * BiPerm * BiPerm * nat) :=
    let M := ssize A in let N := psize A in
    B <- matching_input A_crs m0 M (po_prescale o) ;;
    '(p, q, s, t, info) <- do_matching symm (po_prescale o) B (un M) (un N) (um M) (um N) ;;
    '(p, s) <- for_range m0 M (fun i '(p, s) => p <- set p i i ;; s <- set s i mone ;; Ok (p, s)) (p, s) ;;
    '(q, t) <- for_range m0 N (fun i '(q, t) => q <- set q i i ;; t <- set t i mone ;; Ok (q, t)) (q, t) ;;
    '(s, t) <- fix_poor_scaling m0 level p q s t (po_beta o) ;;
    '(p, q, pi, qi, m) <- defer_tiny_diags (is_good_diag G mone eps A A_crs) m0 p q (un M) (un N) ;;
    if negb (po_reorder o =? REORDER_OFF)%Z && negb (m =? 0) then
      P <- build_inv (mkBP p pi) ;;
      if negb symm && (po_reorder o =? REORDER_RCM)%Z then
        Q <- build_inv (mkBP q qi) ;;
        BB <- leading_block_apat A A_crs m (bp P) (bpi P) (bp Q) (bpi Q) ji ;;
        Ok (Some BB, m, s, t, P, Q, info)
      else
        BB <- leading_block A m (bpi P) q ji ;;
        Ok (Some BB, m, s, t, P, mkBP q qi, info)
    else Ok (None, m, s, t, mkBP p pi, mkBP q qi, info).

  (** [run_rcm] on the pattern of the leading block. *)
  Definition order_rcm (m : nat) (BB : list nat * list nat) : res (list nat) :=
    '(P, _) <- run_rcm (@mkCS O m m (fst BB) (snd BB) []) (un m) ;; Ok P.

  (** [do_preprocessing], driver.hpp:66-137. *)
  Definition do_preprocessing (symm : bool) (A A_crs : CS O) (m0 level : nat) (o : popts (Mag.M G))
    : res (nat * list (M G) * list (M G) * BiPerm * BiPerm * nat) :=
    if ((po_reorder o <? 0) || (REORDER_NULL <=? po_reorder o))%Z then Err
    else
      '(BB, m, s, t, P, Q, info) <- do_maching symm A A_crs m0 level o ;;
      if negb (po_reorder o =? REORDER_OFF)%Z && negb (m =? 0) then
        match BB with
        | None => UB
        | Some BB =>
          let amd_of := amd (fst BB) (snd BB) m in
          R <- (if (po_reorder o =? REORDER_AUTO)%Z then
                  if symm && (level =? 1) && negb (m =? m0) then order_rcm m BB else Ok amd_of
                else if (po_reorder o =? REORDER_AMD)%Z then Ok amd_of
                else order_rcm m BB) ;;
          P <- finalize_perm R m P ;; Q <- finalize_perm R m Q ;;
          Ok (m, s, t, P, Q, info)
        end
      else
        P <- build_inv P ;; Q <- build_inv Q ;;
        Ok (m, s, t, P, Q, info).
End Prep.
