(** * FactorModel: one complete level and the level recursion.

    Models [level_factorize] of src/hif/alg/factor.hpp (IsSymm = false, serial)
    around the Crout update of CroutModel, [pivot_level_factorize] of
    src/hif/alg/pivot_factor.hpp around the one of PivotModel, and
    [_factorize_kernel] of src/hif/builder.hpp (opts.is_symm off).

    Not modelled: statistics, messages, timers, memory exhaustion, [destroy] calls.
    Indices are [nat].  The preprocessing, the rule that closes the hierarchy with a
    dense level, and the dense factorization are parameters. *)
From Coq Require Import List Arith Lia Bool.
From Verif Require Import Base Scalar CSModel ConvModel Mag VecModel PruneModel CroutModel PivotModel SchurModel PrecModel.
Import ListNotations.

(** The values of opts.pivot, Options.h:71-75: HIF_PIVOTING_OFF, HIF_PIVOTING_ON, HIF_PIVOTING_AUTO. *)
Inductive pivoting : Type := PivOff | PivOn | PivAuto.

Section Factor.
  Context {O : Ops}.
  Notation T := (T O).
  Variable G : Mag O.

  (** The options used here, Options.h:81-131. *)
  Record HOpts : Type := mkHOpts {
    h_tau_L : M G; h_tau_U : M G; h_kappa_d : M G; h_kappa : M G; h_alpha_L : M G; h_alpha_U : M G;
    h_rf_par : bool; h_fat_schur_1st : bool; h_pivot : pivoting; h_gamma : M G }.

  (** [root x k] = [max(2, pow(x, 1/k))]; [shrink x lvl] = [x / min(10, 10^(lvl-1))];
      [times x k] = [x * k]. *)
  Variables root shrink times : M G -> nat -> M G.

  (** internal::determine_fac_pars, factor.hpp:79-105: the tuple in the order in
      which it is returned. *)
  Definition determine_fac_pars (o : HOpts) (lvl : nat) : M G * M G * M G * M G * M G * M G :=
    if h_rf_par o then
      let fac := Nat.min lvl 2 in
      let kappa_d := root (h_kappa_d o) fac in
      let kappa := root (h_kappa o) fac in
      let tau_U := shrink (h_tau_U o) lvl in
      let tau_L := shrink (h_tau_L o) lvl in
      let '(alpha_L, alpha_U) :=
        if 2 <? lvl then (h_alpha_L o, h_alpha_U o) else (times (h_alpha_L o) fac, times (h_alpha_U o) fac) in
      (kappa_d, kappa, tau_U, tau_L, alpha_L, alpha_U)
    else (h_kappa_d o, h_kappa o, h_tau_U o, h_tau_L o, h_alpha_L o, h_alpha_U o).

  (** [bad kappa_d a]: [|1/a| > kappa_d]; [big]: [|x| > safe_min]; [mdiv], [ceil_mul],
      [nth_el] as in VecModel. *)
  Variable bad : M G -> T -> bool.
  Variable big : T -> bool.
  Variable mdiv : M G -> M G -> M G.
  Variable ceil_mul : M G -> nat -> nat.
  Variable nth_el : (nat -> M G) -> nat -> list nat -> list nat.
  (** [srt vals inds]: the sort by decreasing magnitude of PivotModel. *)
  Variable srt : list T -> list nat -> list nat.
  Variable opts : HOpts.

  (** Preprocessing (do_preprocessing or, with opts.no_pre, the identity):
      [pre lvl A_ccs A_crs] gives [s], [t], [p], [q] and the leading size. *)
  Variable pre : nat -> CS O -> CS O -> res (list T * list T * BiPerm * BiPerm * nat).
  (** [std::ceil(0.85 * nnz / n)], factor.hpp:625-635. *)
  Variable low : nat -> nat -> nat.
  (** [go_dense lvl nm AmB_nnz]: the two tests against dense_thres1 and dense_thres2,
      factor.hpp:1211-1214. *)
  Variable go_dense : nat -> nat -> nat -> bool.
  (** set_matrix and factorize of the last-level solver on the [k] by [k]
      column-major array. *)
  Variable mk_dense : nat -> list T -> Dense O.
  (** Uninitialised memory: contents of array number [a] of level [lvl]. *)
  Variable junkT : nat -> nat -> nat -> T.
  Variable junkN : nat -> nat -> nat -> nat.
  Variables (ji : nat) (jv : T).

  Definition jarrT (lvl a len : nat) : list T := map (junkT lvl a) (seq 0 len).
  Definition jarrN (lvl a len : nat) : list nat := map (junkN lvl a) (seq 0 len).

  (** The branch for opts.no_pre, factor.hpp:666-677. *)
  Definition no_pre (A_ccs A_crs : CS O) : res (list T * list T * BiPerm * BiPerm * nat) :=
    let n := psize A_crs in
    p <- bi_make_eye (mkBP (repeat ji n) (repeat ji n)) ;;
    q <- bi_make_eye (mkBP (repeat ji (psize A_ccs)) (repeat ji (psize A_ccs))) ;;
    Ok (repeat (t1 O) n, repeat (t1 O) (psize A_ccs), p, q, n).

  (** Row (or column) sizes at the first level, factor.hpp:617-645:
      [nnz_in_row(i)], too small ones replaced by [lower]. *)
  Definition first_sizes (lower : nat) (A : CS O) : res (list nat) :=
    for_range 0 (psize A) (fun i rs =>
      b <- get (ind_start A) i ;; e <- get (ind_start A) (S i) ;;
      let c := (e - b)%nat in
      set rs i (if c <? lower then lower else c)) (repeat 0 (psize A)).

  (** [split_crs<IsSecond>(m, start)] / [split_ccs<IsSecond>(m, start)],
      CompressedStorage.hpp:1649-1659, 2549-2560. *)
  Definition split_dual_at (second : bool) (m : nat) (A : CS O) (start : list nat) : res (CS O) :=
    if ssize A <? m then Err
    else if length start <? psize A then Err
    else split_dual_start O second m A start ji jv.

  (** [P[0] = 0; P[i-m+1] = P[i-m] + row_sizes[p[i]]], factor.hpp:1148-1152. *)
  Definition ref_sizes (m n : nat) (p sizes : list nat) (buf : list nat) : res (list nat) :=
    buf <- set buf 0 0 ;;
    for_range m n (fun i buf =>
      a <- get buf (i - m) ;; pi <- get p i ;; z <- get sizes pi ;; set buf (i - m + 1) (a + z)%nat) buf.

  (** factor.hpp:1220-1231. *)
  Definition next_sizes (m n : nat) (p sizes : list nat) (buf : list nat) : res (list nat) :=
    buf <- for_range m n (fun i buf => pi <- get p i ;; z <- get sizes pi ;; set buf i z) buf ;;
    for_range m n (fun i sizes => z <- get buf i ;; set sizes (i - m) z) sizes.

  (** A work vector whose index and value arrays served as buffers; the next user
      (Schur.hpp:237) clears its counter first. *)
  Definition scratched (v : SV O) (inds : list nat) (vals : list T) : SV O :=
    mkSV vals inds 0 (sv_dtags v) (sv_stags v).

  (** Splitting, offset dropping and the Schur complement, factor.hpp:1112-1180 and,
      with four times the space factors, pivot_factor.hpp:585-651: [L_B], [U_B], [S]. *)
  Definition build_blocks (piv : bool) (lvl n m : nat) (s t : list T) (A_crs : CS O) (r : CRout O) (rs cs : list nat)
    : res (CS O * CS O * CS O) :=
    let p := bp (o_p r) in let q := bp (o_q r) in
    L_E <- split_dual_at true m (o_L r) (o_Ls r) ;;
    L_B <- split_at O false m (o_L r) (o_Ls r) ji jv ;;
    U_F2 <- split_dual_at true m (o_U r) (o_Us r) ;;
    U_B <- split_dual_at false m (o_U r) (o_Us r) ;;
    let a_L := if piv then times (h_alpha_L opts) 4 else h_alpha_L opts in
    let a_U := if piv then times (h_alpha_U opts) 4 else h_alpha_U opts in
    let a_L := if (lvl =? 1) && h_fat_schur_1st opts then times a_L 2 else a_L in
    let a_U := if (lvl =? 1) && h_fat_schur_1st opts then times a_U 2 else a_U in
    '(L_E, U_F2) <- (if m <? n then
        P <- ref_sizes m n p rs (jarrN lvl 0 (n * 2)) ;;
        Q <- ref_sizes m n q cs (jarrN lvl 1 (n * 2)) ;;
        L_E <- drop_block G ceil_mul nth_el P a_L L_E (sv_vals (o_l r)) (sv_inds (o_l r)) ;;
        U_F2 <- drop_block G ceil_mul nth_el Q a_U U_F2 (sv_vals (o_u r)) (sv_inds (o_u r)) ;;
        Ok (L_E, U_F2)
      else Ok (L_E, U_F2)) ;;
    U_F <- other_storage O ji jv U_F2 ;;
    let l := scratched (o_l r) (jarrN lvl 2 (n * 2)) (jarrT lvl 2 (n * 2)) in
    Sc <- compute_schur s t (o_d r) A_crs p (bpi (o_q r)) m L_E U_F l (jarrT lvl 3 (n * 2)) ji jv ;;
    Ok (L_B, U_B, Sc).

  (** The Crout update of one level, factor.hpp:779-1026 and pivot_factor.hpp:215-484:
      parameters by std::tie in this order (factor.hpp:779, pivot_factor.hpp:236-238). *)
  Definition crout_phase (piv : bool) (lvl n m2 : nat) (s t : list T) (A_crs A_ccs : CS O) (p q : BiPerm) (rs cs : list nat)
    : res (CRout O) :=
      let '(kappa_d, kappa, tau_L, tau_U, alpha_L, alpha_U) := determine_fac_pars opts lvl in
      let klt := fun a b => mlt G (mabs G a) (mabs G b) in
      let kbad := fun a => mlt G kappa (mabs G a) in
      let is0 := fun x => mle G (mabs G x) (m0 G) in
      let jk := jarrT lvl 4 m2 in let js := jarrN lvl 3 m2 in
      let jP := map (fun k => Some k) (jarrN lvl 4 n) in
      let jsv := jarrT lvl 5 (n * 2) in let jsi := jarrN lvl 5 (n * 2) in
      if piv then
        pivot_crout (bad kappa_d) klt kbad (fun a => mle G (mabs G a) kappa)
             (fun x dk => mlt G (mabs G dk) (mmul G (h_gamma opts) (if mlt G (mabs G x) (mabs G dk) then mabs G dk else mabs G x)))
             srt is0 big
             (piv_drop G mdiv ceil_mul nth_el tau_U kappa_d (times alpha_U 4) rs)
             (piv_drop G mdiv ceil_mul nth_el tau_L kappa_d (times alpha_L 4) cs)
             n m2 s t A_crs A_ccs p q (jarrT lvl 8 m2) jk js jP jsv jsi
      else
        crout (bad kappa_d) klt kbad is0 big
             (hif_dropU G mdiv ceil_mul nth_el tau_U kappa_d alpha_U rs)
             (hif_dropL G mdiv ceil_mul nth_el tau_L kappa_d alpha_L cs)
             n m2 s t A_crs A_ccs p q jv jk js jP jsv jsi.

  (** From the Schur complement to the new level, factor.hpp:1186-1300,
      pivot_factor.hpp:659-765; [moderate]: post_flag < 0. *)
  Definition finish_level (lvl n m : nat) (rm moderate : bool) (A_crs A_ccs : CS O) (r : CRout O) (rs cs : list nat)
    (L_B U_B Sc : CS O) (s t : list T) (p q : BiPerm) : res (Prec O * CS O * list nat * list nat) :=
      AmB <- for_range m n (fun i acc =>
        pi <- get (bp p) i ;; a <- get rs pi ;; qi <- get (bp q) i ;; b <- get cs qi ;; Ok (acc + (a + b))%nat) 0 ;;
      let nm := (n - m)%nat in
      dense <- (if moderate || go_dense lvl nm AmB || (m =? 0) then
          D <- dense_of_crs O Sc ;;
          Ok (if psize Sc =? 0 then None else Some (mk_dense (psize Sc) D))
        else Ok None) ;;
      rc <- (match dense with
        | Some _ => Ok (rs, cs)
        | None =>
          rs <- next_sizes m n (bp p) rs (jarrN lvl 6 (n * 2)) ;;
          cs <- next_sizes m n (bp q) cs (jarrN lvl 7 (n * 2)) ;;
          Ok (rs, cs)
        end) ;;
      E <- extract_E s A_crs t m (bp p) (bpi q) ji jv ;;
      F <- extract_F s A_ccs t m (bpi p) (bp q) (sv_vals (o_u r)) ji jv ;;
      let P := mkPrec m n L_B (o_d r) U_B E F s t (bp p) (bpi p) (bp q) (bpi q) dense None in
      Sc <- (if is_last_level O P then Ok (mkCS 0 0 [] [] []) else if rm then Ok Sc else other_storage O ji jv Sc) ;;
      Ok (P, Sc, fst rc, snd rc).

  (** level_factorize<false>, factor.hpp:561-1300, and with [piv]
      pivot_level_factorize, pivot_factor.hpp:65-765; [rm] is [ROW_MAJOR] of the
      input type.  Result: the new level, the Schur complement in the input type,
      the updated [row_sizes] and [col_sizes].  [retry] stands for
      [opts.pivot == PIVOTING_AUTO] in level_factorize: after many deferrals no level
      is made and the input is handed back (factor.hpp:1040-1050), here [None]; the
      sizes computed at the first level are then computed again by the next call. *)
  Definition level_factorize (piv retry : bool) (lvl : nat) (rm : bool) (A : CS O) (rs cs : list nat)
    : res (option (Prec O * CS O * list nat * list nat)) :=
    if negb (psize A =? ssize A) then Err
    else
      let n := psize A in
      B <- other_storage O ji jv A ;;
      let A_crs := if rm then A else B in
      let A_ccs := if rm then B else A in
      nz <- nnz O A ;;
      rs <- (if lvl =? 1 then first_sizes (low nz n) A_crs else Ok rs) ;;
      cs <- (if lvl =? 1 then first_sizes (low nz n) A_ccs else Ok cs) ;;
      '(s, t, p, q, m2) <- pre lvl A_ccs A_crs ;;
      r <- crout_phase piv lvl n m2 s t A_crs A_ccs p q rs cs ;;
      (* post_flag, factor.hpp:1031-1038: (double)m <= 0.25*m2, (double)m <= 0.4*m2 *)
      let pf2 := 4 * o_m r <=? m2 in
      let m := if pf2 then 0 else o_m r in
      let moderate := negb pf2 && (5 * m <=? 2 * m2) in
      if retry && (pf2 || moderate) then Ok None
      else
      '(L_B, U_B, Sc, s, t, p, q) <-
        (if negb (m =? 0) then
           '(L_B, U_B, Sc) <- build_blocks piv lvl n m s t A_crs r rs cs ;;
           Ok (L_B, U_B, Sc, s, t, o_p r, o_q r)
         else
           p <- bi_make_eye (o_p r) ;; q <- bi_make_eye (o_q r) ;;
           Ok (mkCS 0 0 [] [] [], mkCS 0 0 [] [] [], A_crs,
               repeat (t1 O) (length s), repeat (t1 O) (length t), p, q)) ;;
      x <- finish_level lvl n m rm moderate A_crs A_ccs r rs cs L_B U_B Sc s t p q ;;
      Ok (Some x).

  (** HIF::_factorize_kernel, builder.hpp:516-575 (opts.is_symm off, m0 = 0): the
      levels from [lvl] on; [must] is [must_pivot].  Running out of fuel stands for
      unbounded recursion. *)
  Fixpoint factorize_kernel (fuel lvl : nat) (must : bool) (rm : bool) (A : CS O) (rs cs : list nat) : res (list (Prec O)) :=
    match fuel with
    | 0 => UB
    | S fuel =>
      if negb (psize A =? ssize A) then Err
      else
        let piv := match h_pivot opts with PivOff => false | PivOn => true | PivAuto => must end in
        let retry := match h_pivot opts with PivAuto => negb must | _ => false end in
        r <- level_factorize piv retry lvl rm A rs cs ;;
        match r with
        | None => factorize_kernel fuel lvl true rm A rs cs
        | Some (P, Sc, rs, cs) =>
          if is_last_level O P then Ok [P]
          else rest <- factorize_kernel fuel (S lvl) must rm Sc rs cs ;; Ok (P :: rest)
        end
    end.

  (** HIF::factorize, builder.hpp:255-365, for a 0-based input of the preconditioner's
      value type: [row_sizes] and [col_sizes] start empty. *)
  Definition factorize (rm : bool) (A : CS O) : res (list (Prec O)) :=
    factorize_kernel (S (S (psize A))) 1 false rm A [] [].
End Factor.
