(** * SymmModel: the factorization with opts.is_symm.

    Models [symm_level_factorize] of src/hif/alg/symm_factor.hpp, the routines of
    src/hif/alg/Crout.hpp used only by it ([compute_symm], [update_diag<true>]) and
    the branch opts.is_symm of [_factorize_kernel] in src/hif/builder.hpp.

    The input is not transposed: [make_transpose] (symm_factor.hpp:74-104, called at
    line 160) makes the other storage by aliasing the three arrays of [A], so [A_crs]
    and [A_ccs] are the same record here.

    Not modelled: statistics, messages, timers, memory reservation and exhaustion,
    [destroy] calls.  Indices are [nat]; the mark [-1] of the index arrays is [None].
    The preprocessing, the tests on the pivots and condition estimates, the rule that
    closes the hierarchy and the symmetric dense solver are parameters. *)
From Coq Require Import List Arith Lia Bool.
From Verif Require Import Base Scalar CSModel ConvModel Mag VecModel PruneModel CroutModel SchurModel PrecModel FactorModel.
Import ListNotations.

Section Symm.
  Context {O : Ops}.
  Notation T := (T O).
  Infix "*" := (tmul O). Infix "-" := (tsub O). Infix "+" := (tadd O).

  (** Crout::compute_symm, Crout.hpp:359-405; the first entry of a listed column is
      skipped whatever its index. *)
  Definition compute_symm (step g : nat) (s : list T) (A_ccs : CS O) (t : list T) (pinv : list nat) (qk : nat)
    (L : Fac O) (d : list T) (l : SV O) : res (SV O) :=
    let l := sv_reset l in
    t_qk <- get t qk ;;
    l <- load_primary step g A_ccs qk pinv (fun j v => sj <- get s j ;; Ok (sj * v * t_qk)) l ;;
    if step =? 0 then Ok l
    else
      idx <- get (flist L) g ;;
      while_chain (fuel_of L) (fun c l =>
        dc <- get d c ;; '(pos, e) <- cur_pos L c ;; lv <- get (vals (fm L)) pos ;;
        let dlt := dc * lv in
        let pos := if negb (pos =? e) then S pos else pos in
        if e <? pos then UB
        else
          l <- for_range pos e (fun k l =>
            i <- get (indices (fm L)) k ;; v <- get (vals (fm L)) k ;;
            accum step l i (topp O dlt * v) (v * dlt)) l ;;
          nx <- get (flist L) c ;;
          Ok (l, nx)) idx l.

  (** Crout::update_diag<true>, Crout.hpp:585-605. *)
  Definition update_diag_symm (step : nat) (ut : SV O) (m : nat) (d : list T) : res (list T) :=
    dk <- get d step ;;
    for_range 0 (sv_cnt ut) (fun i d =>
      idx <- get (sv_inds ut) i ;;
      if idx <? m then
        x <- get d idx ;; u <- sv_val ut i ;; set d idx (x - dk * u * u)
      else Ok d) d.

  (** Variables of symm_level_factorize during the Crout update, symm_factor.hpp:230-300. *)
  Record SR : Type := mkSR {
    y_m : nat; y_def : nat; y_L : Fac O; y_d : list T;
    y_p : list nat; y_P : list (option nat); y_Pi : list nat;
    y_kl : list T; y_l : SV O }.

  Section Loop.
  (** [bad a]: is_bad_diag, symm_factor.hpp:285-288; [kbad a]: [|a| > kappa]; [drop]:
      the droppings applied to [l]. *)
  Variable bad : T -> bool.
  Variable klt : T -> T -> bool.
  Variable kbad : T -> bool.
  Variables is0 big : T -> bool.
  Variable drop : nat -> SR -> SV O -> res (SV O).
  Variables (n m2 : nat) (s t : list T) (A : CS O).

  (** update_kappa for [l], symm_factor.hpp:314 and :346. *)
  Definition symm_kappa (step : nat) (c : SR) : res SR :=
    kl <- update_kappa klt step (Nat.add (y_def c) step) (y_L c) (y_kl c) ;;
    Ok (mkSR (y_m c) (y_def c) (y_L c) (y_d c) (y_p c) (y_P c) (y_Pi c) kl (y_l c)).

  (** [std::abs(kappa_l[step]) > kappa], symm_factor.hpp:318,347. *)
  Definition symm_kbad (step : nat) (c : SR) : res bool :=
    kl <- get (y_kl c) step ;; Ok (kbad kl).

  (** The body of the deferral loop up to [increment_defer_counter],
      symm_factor.hpp:325-333. *)
  Definition symm_defer_one (step : nat) (c : SR) : res SR :=
    let g := Nat.add (y_def c) step in
    let tail := Nat.add n (y_def c) in
    L <- defer_entry tail step g (y_L c) ;;
    pg <- get (y_p c) g ;; P <- set (y_P c) tail (Some pg) ;;
    Pi <- set (y_Pi c) pg tail ;;
    P <- set P g None ;;
    Ok (mkSR (y_m c - 1)%nat (S (y_def c)) L (y_d c) (y_p c) P Pi (y_kl c) (y_l c)).

  Definition symm_with_m (m : nat) (c : SR) : SR :=
    mkSR m (y_def c) (y_L c) (y_d c) (y_p c) (y_P c) (y_Pi c) (y_kl c) (y_l c).

  (** The deferral loop, symm_factor.hpp:324-354. *)
  Fixpoint symm_defer_loop (fuel step : nat) (c : SR) : res SR :=
    match fuel with
    | 0 => UB
    | S fuel =>
      if step <? y_m c then
        c <- symm_defer_one step c ;;
        if m2 <=? Nat.add (y_def c) step then Ok (symm_with_m step c)
        else
          dg <- get (y_d c) (Nat.add (y_def c) step) ;;
          if bad dg then symm_defer_loop fuel step c
          else
            c <- symm_kappa step c ;;
            kb <- symm_kbad step c ;;
            if kb then symm_defer_loop fuel step c else Ok c
      else Ok c
    end.

  (** The part of a step after deferral, symm_factor.hpp:383-434. *)
  Definition symm_eliminate (step : nat) (c : SR) : res SR :=
    let g := Nat.add (y_def c) step in
    dg <- get (y_d c) g ;; d <- set (y_d c) step dg ;;
    pg <- get (y_p c) g ;; p <- set (y_p c) step pg ;;
    pk <- get p step ;;
    l <- compute_symm step g s A t (y_Pi c) pk (y_L c) d (y_l c) ;;
    l <- scale_inv_diag is0 big step d l ;;
    d <- update_diag_symm step l m2 d ;;
    let c1 := mkSR (y_m c) (y_def c) (y_L c) d p (y_P c) (y_Pi c) (y_kl c) l in
    l <- drop step c1 l ;; l <- sv_sort l ;;
    L <- push_sv (y_L c) l ;;
    L <- update_compress step (y_def c) L ;;
    Ok (mkSR (y_m c) (y_def c) L d p (y_P c) (y_Pi c) (y_kl c) l).

  (** [for (; step < m; ++step)], symm_factor.hpp:305-436; returns the final [step]. *)
  Fixpoint symm_loop (fuel step : nat) (c : SR) : res (nat * SR) :=
    match fuel with
    | 0 => UB
    | S fuel =>
      if step <? y_m c then
        dg <- get (y_d c) (Nat.add (y_def c) step) ;;
        let pvt := bad dg in
        c <- symm_kappa step c ;;
        pvt <- (if pvt then Ok true else symm_kbad step c) ;;
        c <- (if pvt then symm_defer_loop (S m2) step c else Ok c) ;;
        if pvt && (y_m c =? step) then Ok (step, c)
        else
          c <- symm_eliminate step c ;;
          symm_loop fuel (S step) c
      else Ok (step, c)
    end.

  (** Initial values, symm_factor.hpp:230-298; [j...] are uninitialised contents.  The
      permutation [q] of the preprocessing is used for the diagonal only. *)
  Definition symm_init (p q : BiPerm) (jd : T) (jk : list T) (js : list nat) (jP : list (option nat))
    (jv : list T) (ji : list nat) : res SR :=
    d <- extract_perm_diag s A t m2 (bp p) (bp q) jd ;;
    let L := mkFac (begin_assemble O (mkCS m2 (Nat.mul n 2) [] [] [])) (repeat None (Nat.mul n 2)) js in
    Ok (mkSR m2 0 L d (bp p) (map Some (firstn n (bp p)) ++ jP) (bpi p) jk (sv_new (Nat.mul n 2) jv ji)).

  (** symm_factor.hpp:438-455.  The upper factor is not stored: the outcome has it, like
      the column permutation, equal to its counterpart. *)
  Definition symm_finish (r : nat * SR) : res (CRout O) :=
    let '(step, c) := r in
    p <- assign_gap n step (y_def c) (y_P c) (y_p c) ;;
    p <- build_inv (mkBP p (y_Pi c)) ;;
    let L := end_assemble O (fm (y_L c)) in
    Ls <- globalise (y_m c) L (fstart (y_L c)) ;;
    L <- compress_tail L Ls (y_m c) (y_def c) ;;
    Ok (mkOut (y_m c) p p L Ls L Ls (y_d c) (y_def c) (y_l c) (y_l c)).

  Definition symm_crout (p q : BiPerm) jd jk js jP jv ji : res (CRout O) :=
    c <- symm_init p q jd jk js jP jv ji ;;
    r <- symm_loop (S m2) 0 c ;;
    symm_finish r.
  End Loop.

  Variable G : Mag O.

  (** apply_num_dropping then apply_space_dropping on [l], symm_factor.hpp:416-422. *)
  Definition symm_drop (mdiv : M G -> M G -> M G) (ceil_mul : M G -> nat -> nat) (nth_el : (nat -> M G) -> nat -> list nat -> list nat)
    (tau kappa_d alpha : M G) (row_sizes : list nat) (step : nat) (c : SR) (v : SV O) : res (SV O) :=
    k <- get (y_kl c) step ;;
    v <- apply_num_dropping G mdiv tau (mmul G (mabs G k) kappa_d) v ;;
    i <- get (y_p c) step ;; nz <- get row_sizes i ;;
    apply_space_dropping G ceil_mul nth_el nz alpha v 0.

  (** ** The level *)
  Variables root shrink times : M G -> nat -> M G.
  Variable bad : M G -> T -> bool.
  Variable big : T -> bool.
  Variable mdiv : M G -> M G -> M G.
  Variable ceil_mul : M G -> nat -> nat.
  Variable nth_el : (nat -> M G) -> nat -> list nat -> list nat.
  Variable opts : HOpts G.
  (** Symmetric preprocessing, do_preprocessing<true> or, with opts.no_pre, the identity. *)
  Variable pre : nat -> CS O -> CS O -> res (list T * list T * BiPerm * BiPerm * nat).
  Variable low : nat -> nat -> nat.
  Variable go_dense : nat -> nat -> nat -> bool.
  (** The symmetric last-level solver. *)
  Variable mk_symm : nat -> list T -> Dense O.
  Variable junkT : nat -> nat -> nat -> T.
  Variable junkN : nat -> nat -> nat -> nat.
  Variables (ji : nat) (jv : T).

  (** The Crout update of one level, symm_factor.hpp:279-455; the parameters are taken
      from the tuple by std::tie in this order (lines 279-281). *)
  Definition symm_phase (lvl n m2 : nat) (s t : list T) (A : CS O) (p q : BiPerm) (rs : list nat) : res (CRout O) :=
      let '(kappa_d, kappa, tau_L, tau_U, alpha_L, alpha_U) := determine_fac_pars G root shrink times opts lvl in
      symm_crout (bad kappa_d) (fun a b => mlt G (mabs G a) (mabs G b)) (fun a => mlt G kappa (mabs G a))
             (fun x => mle G (mabs G x) (m0 G)) big
             (symm_drop mdiv ceil_mul nth_el tau_L kappa_d alpha_L rs)
             n m2 s t A p q jv (jarrT junkT lvl 4 m2) (jarrN junkN lvl 3 m2) (map (fun k => Some k) (jarrN junkN lvl 4 n))
             (jarrT junkT lvl 5 (Nat.mul n 2)) (jarrN junkN lvl 5 (Nat.mul n 2)).

  (** make_transpose between two matrices of the same storage type with [do_conj],
      symm_factor.hpp:90-102: conversion to the other storage, reinterpreted, conjugated. *)
  Definition adjoint_storage (A : CS O) : res (CS O) :=
    B <- other_storage O ji jv A ;;
    Ok (mkCS (psize B) (ssize B) (ind_start B) (indices B) (map (tconj O) (vals B))).

  (** Splitting, offset dropping and the Schur complement, symm_factor.hpp:523-573:
      [L_B], [U_B], [S]. *)
  Definition symm_blocks (lvl n m : nat) (s t : list T) (A : CS O) (r : CRout O) (rs : list nat)
    : res (CS O * CS O * CS O) :=
    let p := bp (o_p r) in
    L_E <- split_dual_at ji jv true m (o_L r) (o_Ls r) ;;
    L_B <- split_at O false m (o_L r) (o_Ls r) ji jv ;;
    U_B <- adjoint_storage L_B ;;
    let a_L := if (lvl =? 1) && h_fat_schur_1st G opts then times (h_alpha_L G opts) 2 else h_alpha_L G opts in
    L_E <- (if m <? n then
        P <- ref_sizes m n p rs (jarrN junkN lvl 0 (Nat.mul n 2)) ;;
        drop_block G ceil_mul nth_el P a_L L_E (sv_vals (o_l r)) (sv_inds (o_l r))
      else Ok L_E) ;;
    U_F <- adjoint_storage L_E ;;
    let l := scratched (o_l r) (jarrN junkN lvl 2 (Nat.mul n 2)) (jarrT junkT lvl 2 (Nat.mul n 2)) in
    Sc <- compute_schur s t (o_d r) A p (bpi (o_p r)) m L_E U_F l (jarrT junkT lvl 3 (Nat.mul n 2)) ji jv ;;
    Ok (L_B, U_B, Sc).

  (** From the Schur complement to the new level, symm_factor.hpp:575-675; [moderate]:
      post_flag < 0. *)
  Definition symm_finish_level (lvl n m : nat) (rm moderate : bool) (A : CS O) (r : CRout O) (rs : list nat)
    (L_B U_B Sc : CS O) (s t : list T) (p : BiPerm) : res (Prec O * CS O * list nat) :=
      AmB <- for_range m n (fun i acc => pi <- get (bp p) i ;; a <- get rs pi ;; Ok (acc + Nat.mul a 2)%nat) 0 ;;
      let nm := (n - m)%nat in
      dense <- (if moderate || go_dense lvl nm AmB || (m =? 0) then
          D <- dense_of_crs O Sc ;;
          Ok (if psize Sc =? 0 then None else Some (mk_symm (psize Sc) D))
        else Ok None) ;;
      rs <- (match dense with
        | Some _ => Ok rs
        | None => next_sizes m n (bp p) rs (jarrN junkN lvl 6 (Nat.mul n 2))
        end) ;;
      E <- extract_E s A t m (bp p) (bpi p) ji jv ;;
      F <- other_storage O ji jv E ;;
      let P := mkPrec m n L_B (o_d r) U_B E F s t (bp p) (bpi p) (bp p) (bpi p) None dense in
      Sc <- (if is_last_level O P then Ok (mkCS 0 0 [] [] []) else if rm then Ok Sc else other_storage O ji jv Sc) ;;
      Ok (P, Sc, rs).

  (** symm_level_factorize, symm_factor.hpp:126-677, called with m0 = n (builder.hpp:537
      for a user who gave no leading block size); [rm] is [ROW_MAJOR] of the input type.
      Result: the new level, the Schur complement in the input type, the sizes. *)
  Definition symm_level (lvl : nat) (rm : bool) (A : CS O) (rs : list nat) : res (Prec O * CS O * list nat) :=
    if negb (psize A =? ssize A) then Err
    else
      let n := psize A in
      nz <- nnz O A ;;
      rs <- (if lvl =? 1 then first_sizes (low nz n) A else Ok rs) ;;
      '(s, t, p, q, m2) <- pre lvl A A ;;
      r <- symm_phase lvl n m2 s t A p q rs ;;
      (* post_flag, symm_factor.hpp:460-466: (double)m <= 0.25*m2, (double)m <= 0.4*m2 *)
      let pf2 := Nat.mul 4 (o_m r) <=? m2 in
      let m := if pf2 then 0 else o_m r in
      let moderate := negb pf2 && (Nat.mul 5 m <=? Nat.mul 2 m2) in
      '(L_B, U_B, Sc, s, t, p) <-
        (if negb (m =? 0) then
           '(L_B, U_B, Sc) <- symm_blocks lvl n m s t A r rs ;;
           Ok (L_B, U_B, Sc, s, t, o_p r)
         else
           p <- bi_make_eye (o_p r) ;;
           Ok (mkCS 0 0 [] [] [], mkCS 0 0 [] [] [], A, repeat (t1 O) (length s), repeat (t1 O) (length t), p)) ;;
      symm_finish_level lvl n m rm moderate A r rs L_B U_B Sc s t p.

  (** HIF::_factorize_kernel with opts.is_symm, builder.hpp:516-575. *)
  Fixpoint symm_kernel (fuel lvl : nat) (rm : bool) (A : CS O) (rs : list nat) : res (list (Prec O)) :=
    match fuel with
    | 0 => UB
    | S fuel =>
      if negb (psize A =? ssize A) then Err
      else
        '(P, Sc, rs) <- symm_level lvl rm A rs ;;
        if is_last_level O P then Ok [P]
        else rest <- symm_kernel fuel (S lvl) rm Sc rs ;; Ok (P :: rest)
    end.

  (** HIF::factorize with opts.is_symm, builder.hpp:255-365, for a 0-based input of the
      preconditioner's value type. *)
  Definition symm_factorize (rm : bool) (A : CS O) : res (list (Prec O)) :=
    symm_kernel (S (psize A)) 1 rm A [].
End Symm.
Arguments SR : clear implicits.
