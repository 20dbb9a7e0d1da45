(** * PivotModel: one level of the factorization with rook pivoting.

    Models src/hif/alg/PivotCrout.hpp and the part of [pivot_level_factorize] in
    src/hif/alg/pivot_factor.hpp from the data set-up to the compression of the
    tails (lines 176-484).  The factors are augmented storages (AugModel.v); the
    accumulators, loading of rows of [A], scaling by the pivot and the final
    clean-up are those of CroutModel.v (PivotCrout derives from Crout).

    Not modelled: statistics counters, messages, timers, memory reservation.
    Indices are [nat]; the mark [-1] of the index arrays is [None].  Comparisons of
    magnitudes and the sort by magnitude are parameters. *)
From Coq Require Import List Arith Lia Bool.
From Verif Require Import Base Scalar CSModel ConvModel Mag VecModel PruneModel CroutModel AugModel.
Import ListNotations.

Section Pivot.
  Context {O : Ops}.
  Notation T := (T O).
  Infix "*" := (tmul O). Infix "-" := (tsub O). Infix "+" := (tadd O).

  (** One node of a secondary list: [primary_idx(id)], [val_from_aug_id(id)] and
      [next_aug_id(id)], AugmentedStorage.hpp:462-519. *)
  Definition node (F : aug O) (x : nat) : res (nat * T * option nat) :=
    c <- get (a_inds F) x ;;
    pos <- get (a_vp F) x ;; v <- get (vals (a_cs F)) pos ;;
    nx <- get (a_next F) x ;;
    Ok (c, v, nx).
  Definition fuel_aug (F : aug O) : nat := S (length (a_inds F)).

  (** [ind_begin(c) + start[c]] and [ind_end(c)]. *)
  Definition acur (F : aug O) (start : list nat) (c : nat) : res (nat * nat) :=
    b <- get (ind_start (a_cs F)) c ;; o <- get start c ;; e <- get (ind_start (a_cs F)) (S c) ;;
    Ok (Nat.add b o, e).

  (** The load of the diagonal entry, PivotCrout.hpp:103-119: the first entry of
      column [qk] of [A] whose row is at position [g]. *)
  Fixpoint load_dk (g : nat) (s : list T) (A : CS O) (pinv : list nat) (t_qk : T) (ks : list nat) : res T :=
    match ks with
    | [] => Ok (t0 O)
    | k :: ks =>
      i <- get (indices A) k ;; idx <- get pinv i ;;
      if idx =? g then si <- get s i ;; v <- get (vals A) k ;; Ok (si * v * t_qk)
      else load_dk g s A pinv t_qk ks
    end.

  (** PivotCrout::compute_dk, PivotCrout.hpp:92-142. *)
  Definition compute_dk (step g : nat) (s : list T) (A_ccs : CS O) (t : list T) (pinv : list nat) (qk : nat)
    (L : aug O) (Ls : list nat) (d : list T) (U : aug O) : res T :=
    b <- get (ind_start A_ccs) qk ;; e <- get (ind_start A_ccs) (S qk) ;;
    t_qk <- get t qk ;;
    if e <? b then UB
    else
      dk <- load_dk g s A_ccs pinv t_qk (seq b (Nat.sub e b)) ;;
      if step =? 0 then Ok dk
      else
        idx <- get (a_start U) g ;;
        while_chain (fuel_aug U) (fun x dk =>
          '(c, uv, nx) <- node U x ;;
          dc <- get d c ;;
          let du := dc * uv in
          '(lpos, le) <- acur L Ls c ;;
          dk <- (if negb (lpos =? le) then
                   i <- get (indices (a_cs L)) lpos ;;
                   if i =? g then lv <- get (vals (a_cs L)) lpos ;; Ok (dk - du * lv) else Ok dk
                 else Ok dk) ;;
          Ok (dk, nx)) idx dk.

  (** PivotCrout::compute_ut, PivotCrout.hpp:190-245. *)
  Definition pcompute_ut (step g : nat) (s : list T) (A_crs : CS O) (t : list T) (pk : nat) (qinv : list nat)
    (L : aug O) (d : list T) (U : aug O) (Us : list nat) (ut : SV O) : res (SV O) :=
    let ut := sv_reset ut in
    s_pk <- get s pk ;;
    ut <- load_primary step g A_crs pk qinv (fun j v => tj <- get t j ;; Ok (s_pk * v * tj)) ut ;;
    if step =? 0 then Ok ut
    else
      idx <- get (a_start L) g ;;
      while_chain (fuel_aug L) (fun x ut =>
        '(c, lv, nx) <- node L x ;;
        dc <- get d c ;;
        let ld := lv * dc in
        '(upos, ue) <- acur U Us c ;;
        upos <- (if negb (upos =? ue) then (i <- get (indices (a_cs U)) upos ;; Ok (if i =? g then S upos else upos)) else Ok upos) ;;
        if ue <? upos then UB
        else
          ut <- for_range upos ue (fun k ut =>
            i <- get (indices (a_cs U)) k ;; v <- get (vals (a_cs U)) k ;;
            accum step ut i (topp O ld * v) (ld * v)) ut ;;
          Ok (ut, nx)) idx ut.

  (** PivotCrout::compute_l, PivotCrout.hpp:292-350. *)
  Definition pcompute_l (step g : nat) (s : list T) (A_ccs : CS O) (t : list T) (pinv : list nat) (qk : nat)
    (L : aug O) (Ls : list nat) (d : list T) (U : aug O) (l : SV O) : res (SV O) :=
    let l := sv_reset l in
    t_qk <- get t qk ;;
    l <- load_primary step g A_ccs qk pinv (fun j v => sj <- get s j ;; Ok (sj * v * t_qk)) l ;;
    if step =? 0 then Ok l
    else
      idx <- get (a_start U) g ;;
      while_chain (fuel_aug U) (fun x l =>
        '(c, uv, nx) <- node U x ;;
        dc <- get d c ;;
        let du := dc * uv in
        '(lpos, le) <- acur L Ls c ;;
        lpos <- (if negb (lpos =? le) then (i <- get (indices (a_cs L)) lpos ;; Ok (if i =? g then S lpos else lpos)) else Ok lpos) ;;
        if le <? lpos then UB
        else
          l <- for_range lpos le (fun k l =>
            i <- get (indices (a_cs L)) k ;; v <- get (vals (a_cs L)) k ;;
            accum step l i (topp O du * v) (v * du)) l ;;
          Ok (l, nx)) idx l.

  (** PivotCrout::update_compress, PivotCrout.hpp:362-383. *)
  Definition pupdate_compress (step def : nat) (F : aug O) (start : list nat) : res (aug O * list nat) :=
    let g := Nat.add def step in
    idx <- get (a_start F) g ;;
    '(inds, start) <- while_chain (fuel_aug F) (fun x (st : list nat * list nat) =>
      let '(inds, start) := st in
      c <- get (a_inds F) x ;;
      b <- get (ind_start (a_cs F)) c ;; o <- get start c ;;
      let pos := Nat.add b o in
      i <- get inds pos ;;
      if i <? def then UB
      else
        inds <- set inds pos (Nat.sub i def) ;;
        start <- set start c (S o) ;;
        nx <- get (a_next F) x ;;
        Ok ((inds, start), nx)) idx (indices (a_cs F), start) ;;
    start <- set start step 0 ;;
    h <- get (a_start F) g ;; hd <- set (a_start F) step h ;;
    e <- get (a_end F) g ;; tl <- set (a_end F) step e ;;
    n <- get (a_cnt F) g ;; cnt <- set (a_cnt F) step n ;;
    let A := a_cs F in
    Ok (mkAug (mkCS (psize A) (ssize A) (ind_start A) inds (vals A)) (a_inds F) hd (a_next F) tl (a_vp F) (a_vpi F) cnt, start).

  (** PivotCrout::update_kappa, PivotCrout.hpp:395-430; [entry = 0] is the default
      argument and stands for the current position. *)
  Definition pupdate_kappa (klt : T -> T -> bool) (step g : nat) (F : aug O) (kappa : list T) (entry : nat) : res (list T) :=
    if step =? 0 then set kappa 0 (t1 O)
    else
      idx <- get (a_start F) (if entry =? 0 then g else entry) ;;
      sum <- while_chain (fuel_aug F) (fun x sum =>
        '(c, v, nx) <- node F x ;;
        k <- get kappa c ;;
        Ok (sum + k * v, nx)) idx (t0 O) ;;
      let k1 := t1 O - sum in
      let k2 := topp O (t1 O) - sum in
      set kappa step (if klt k1 k2 then k2 else k1).

  (** PivotCrout::interchange, PivotCrout.hpp:455-467. *)
  Definition pinterchange (g pvt : nat) (F : aug O) (p pinv : list nat) (d : list T) (a : SV O)
    : res (aug O * list nat * list nat * list T * SV O) :=
    P <- VecModel.interchange (mkBP p pinv) g pvt ;;
    F <- AugModel.interchange O g pvt F ;;
    x <- get d g ;; y <- get (sv_vals a) pvt ;;
    d <- set d g y ;; a <- sv_setval a pvt x ;;
    Ok (F, bp P, bpi P, d, a).

  (** Variables of pivot_level_factorize during the Crout update. *)
  Record PR : Type := mkPR {
    r_m : nat; r_def : nat; r_L : aug O; r_Ls : list nat; r_U : aug O; r_Us : list nat; r_d : list T;
    r_p : list nat; r_q : list nat;
    r_P : list (option nat); r_Q : list (option nat); r_Pi : list nat; r_Qi : list nat;
    r_kl : list T; r_ku : list T; r_l : SV O; r_u : SV O }.

  Section Loop.
  (** [bad a]: [|1/a| > kappa_d]; [kbad a]: [|a| > kappa]; [kok a]: [|a| <= kappa];
      [piv x dk]: [|dk| < gamma * max(|x|, |dk|)]; [srt vals inds]: std::sort by
      decreasing magnitude; the droppings see the step, the norm estimates, the
      permutation and the vector. *)
  Variable bad : T -> bool.
  Variable klt : T -> T -> bool.
  Variables kbad kok : T -> bool.
  Variable piv : T -> T -> bool.
  Variable srt : list T -> list nat -> list nat.
  Variables is0 big : T -> bool.
  Variable dropU dropL : nat -> list T -> list nat -> SV O -> res (SV O).
  Variables (n m2 : nat) (s t : list T) (A_crs A_ccs : CS O).

  (** [sort_indices(comparator)], SparseVec.hpp:158-166, with the comparators of
      PivotCrout.hpp:544-546,577-579. *)
  Definition sv_msort (v : SV O) : res (SV O) :=
    if (sv_cnt v <=? length (sv_inds v)) && forallb (fun i => i <? length (sv_vals v)) (firstn (sv_cnt v) (sv_inds v)) then
      Ok (mkSV (sv_vals v) (srt (sv_vals v) (firstn (sv_cnt v) (sv_inds v)) ++ skipn (sv_cnt v) (sv_inds v)) (sv_cnt v) (sv_dtags v) (sv_stags v))
    else UB.

  (** The predicates [pvt_l_op], [pvt_u_op], pivot_factor.hpp:267-278. *)
  Definition pvt_op (step g : nat) (F : aug O) (i : nat) (kappa : list T) : res (bool * list T) :=
    if m2 <=? i then Ok (false, kappa)
    else
      kappa <- pupdate_kappa klt step g F kappa i ;;
      k <- get kappa step ;;
      Ok (kok k, kappa).

  (** [find_if(op)], SparseVec.hpp:196-203: the first held index satisfying the
      predicate; the predicate writes the norm estimate. *)
  Fixpoint find_pvt (op : nat -> list T -> res (bool * list T)) (l : list nat) (kappa : list T) : res (option nat * list T) :=
    match l with
    | [] => Ok (None, kappa)
    | i :: l =>
      '(b, kappa) <- op i kappa ;;
      if b then Ok (Some i, kappa) else find_pvt op l kappa
    end.

  (** Row part of a pivoting round, PivotCrout.hpp:534-568: new state, whether rows
      were interchanged, whether the loop is left. *)
  Definition row_part (first : bool) (step : nat) (c : PR) : res (PR * bool * bool) :=
    let g := Nat.add (r_def c) step in
    l <- (if first then Ok (r_l c) else sv_restore (r_l c)) ;;
    qk <- get (r_q c) g ;;
    l <- pcompute_l step g s A_ccs t (r_Pi c) qk (r_L c) (r_Ls c) (r_d c) (r_U c) l ;;
    l <- sv_msort l ;;
    '(pv, kl) <- find_pvt (pvt_op step g (r_L c)) (firstn (sv_cnt l) (sv_inds l)) (r_kl c) ;;
    dk <- compute_dk step g s A_ccs t (r_Pi c) qk (r_L c) (r_Ls c) (r_d c) (r_U c) ;;
    d <- set (r_d c) g dk ;;
    let c1 := mkPR (r_m c) (r_def c) (r_L c) (r_Ls c) (r_U c) (r_Us c) d (r_p c) (r_q c) (r_P c) (r_Q c) (r_Pi c) (r_Qi c) kl (r_ku c) l (r_u c) in
    match pv with
    | Some j =>
      x <- get (sv_vals l) j ;;
      if piv x dk then
        '(L, p, Pi, d, l) <- pinterchange g j (r_L c) (r_p c) (r_Pi c) d l ;;
        Ok (mkPR (r_m c) (r_def c) L (r_Ls c) (r_U c) (r_Us c) d p (r_q c) (r_P c) (r_Q c) Pi (r_Qi c) kl (r_ku c) l (r_u c), true, false)
      else Ok (c1, false, negb first)
    | None => Ok (c1, false, negb first)
    end.

  (** Column part of a pivoting round, PivotCrout.hpp:570-601: new state, whether
      the loop is left. *)
  Definition col_part (first lpivot : bool) (step : nat) (c : PR) : res (PR * bool) :=
    let g := Nat.add (r_def c) step in
    ut <- (if first then Ok (r_u c) else sv_restore (r_u c)) ;;
    pk <- get (r_p c) g ;;
    ut <- pcompute_ut step g s A_crs t pk (r_Qi c) (r_L c) (r_d c) (r_U c) (r_Us c) ut ;;
    ut <- sv_msort ut ;;
    '(pv, ku) <- find_pvt (pvt_op step g (r_U c)) (firstn (sv_cnt ut) (sv_inds ut)) (r_ku c) ;;
    d <- (if lpivot then
            qk <- get (r_q c) g ;;
            dk <- compute_dk step g s A_ccs t (r_Pi c) qk (r_L c) (r_Ls c) (r_d c) (r_U c) ;;
            set (r_d c) g dk
          else Ok (r_d c)) ;;
    let c1 := mkPR (r_m c) (r_def c) (r_L c) (r_Ls c) (r_U c) (r_Us c) d (r_p c) (r_q c) (r_P c) (r_Q c) (r_Pi c) (r_Qi c) (r_kl c) ku (r_l c) ut in
    match pv with
    | Some j =>
      x <- get (sv_vals ut) j ;; dk <- get d g ;;
      if piv x dk then
        '(U, q, Qi, d, ut) <- pinterchange g j (r_U c) (r_q c) (r_Qi c) d ut ;;
        Ok (mkPR (r_m c) (r_def c) (r_L c) (r_Ls c) U (r_Us c) d (r_p c) q (r_P c) (r_Q c) (r_Pi c) Qi (r_kl c) ku (r_l c) ut, false)
      else Ok (c1, true)
    | None => Ok (c1, true)
    end.

  (** PivotCrout::apply_thres_pivot, PivotCrout.hpp:516-607; [fuel] is the number
      of rounds left of [max_steps]. *)
  Fixpoint pivot_rounds (fuel : nat) (first : bool) (step : nat) (c : PR) : res PR :=
    match fuel with
    | 0 => Ok c
    | S fuel =>
      '(c, lpivot, stop) <- row_part first step c ;;
      if (stop : bool) then Ok c
      else
        '(c, stop) <- col_part first lpivot step c ;;
        if (stop : bool) then Ok c else pivot_rounds fuel false step c
    end.

  (** The two update_kappa calls, pivot_factor.hpp:303-306,342-345. *)
  Definition pkappas (step : nat) (c : PR) : res PR :=
    let g := Nat.add (r_def c) step in
    ku <- pupdate_kappa klt step g (r_U c) (r_ku c) 0 ;;
    kl <- pupdate_kappa klt step g (r_L c) (r_kl c) 0 ;;
    Ok (mkPR (r_m c) (r_def c) (r_L c) (r_Ls c) (r_U c) (r_Us c) (r_d c) (r_p c) (r_q c) (r_P c) (r_Q c) (r_Pi c) (r_Qi c) kl ku (r_l c) (r_u c)).

  Definition pkappa_bad (step : nat) (c : PR) : res bool :=
    ku <- get (r_ku c) step ;; kl <- get (r_kl c) step ;; Ok (kbad ku || kbad kl).

  (** The body of the deferral loop up to [increment_defer_counter],
      pivot_factor.hpp:325-336. *)
  Definition pdefer_one (step : nat) (c : PR) : res PR :=
    let g := Nat.add (r_def c) step in
    let tail := Nat.add n (r_def c) in
    U <- AugModel.defer O g tail (r_U c) ;;
    L <- AugModel.defer O g tail (r_L c) ;;
    pg <- get (r_p c) g ;; P <- set (r_P c) tail (Some pg) ;;
    qg <- get (r_q c) g ;; Q <- set (r_Q c) tail (Some qg) ;;
    Pi <- set (r_Pi c) pg tail ;;
    Qi <- set (r_Qi c) qg tail ;;
    P <- set P g None ;; Q <- set Q g None ;;
    Ok (mkPR (Nat.sub (r_m c) 1) (S (r_def c)) L (r_Ls c) U (r_Us c) (r_d c) (r_p c) (r_q c) P Q Pi Qi (r_kl c) (r_ku c) (r_l c) (r_u c)).

  Definition pwith_m (m : nat) (c : PR) : PR :=
    mkPR m (r_def c) (r_L c) (r_Ls c) (r_U c) (r_Us c) (r_d c) (r_p c) (r_q c) (r_P c) (r_Q c) (r_Pi c) (r_Qi c) (r_kl c) (r_ku c) (r_l c) (r_u c).
  Definition pwith_d (d : list T) (c : PR) : PR :=
    mkPR (r_m c) (r_def c) (r_L c) (r_Ls c) (r_U c) (r_Us c) d (r_p c) (r_q c) (r_P c) (r_Q c) (r_Pi c) (r_Qi c) (r_kl c) (r_ku c) (r_l c) (r_u c).

  (** The deferral loop [while (m > step) {...}], pivot_factor.hpp:323-361. *)
  Fixpoint pdefer_loop (fuel step : nat) (c : PR) : res PR :=
    match fuel with
    | 0 => UB
    | S fuel =>
      if step <? r_m c then
        c <- pdefer_one step c ;;
        let g := Nat.add (r_def c) step in
        if m2 <=? g then Ok (pwith_m step c)
        else
          c <- pkappas step c ;;
          kb <- pkappa_bad step c ;;
          if kb then pdefer_loop fuel step c
          else
            qk <- get (r_q c) g ;;
            dk <- compute_dk step g s A_ccs t (r_Pi c) qk (r_L c) (r_Ls c) (r_d c) (r_U c) ;;
            d <- set (r_d c) g dk ;;
            if bad dk then pdefer_loop fuel step (pwith_d d c) else Ok (pwith_d d c)
      else Ok c
    end.

  (** [push_back_row/col(step, inds, inds + size, vals)] of an accumulator. *)
  Definition push_aug (step : nat) (F : aug O) (v : SV O) : res (aug O) :=
    if sv_cnt v <=? length (sv_inds v) then
      aug_push O step (Push O (firstn (sv_cnt v) (sv_inds v)) (sv_vals v)) F
    else UB.

  (** The part of a step after deferral, pivot_factor.hpp:381-447. *)
  Definition peliminate (step : nat) (c : PR) : res PR :=
    let g := Nat.add (r_def c) step in
    l <- sv_restore (r_l c) ;;
    qk <- get (r_q c) g ;;
    l <- pcompute_l step g s A_ccs t (r_Pi c) qk (r_L c) (r_Ls c) (r_d c) (r_U c) l ;;
    ut <- sv_restore (r_u c) ;;
    pk <- get (r_p c) g ;;
    ut <- pcompute_ut step g s A_crs t pk (r_Qi c) (r_L c) (r_d c) (r_U c) (r_Us c) ut ;;
    dg <- get (r_d c) g ;; d <- set (r_d c) step dg ;;
    pg <- get (r_p c) g ;; p <- set (r_p c) step pg ;;
    qg <- get (r_q c) g ;; q <- set (r_q c) step qg ;;
    ut <- scale_inv_diag is0 big step d ut ;;
    l <- scale_inv_diag is0 big step d l ;;
    ut <- dropU step (r_ku c) p ut ;; ut <- sv_sort ut ;;
    U <- push_aug step (r_U c) ut ;;
    l <- dropL step (r_kl c) q l ;; l <- sv_sort l ;;
    L <- push_aug step (r_L c) l ;;
    '(U, Us) <- pupdate_compress step (r_def c) U (r_Us c) ;;
    '(L, Ls) <- pupdate_compress step (r_def c) L (r_Ls c) ;;
    Ok (mkPR (r_m c) (r_def c) L Ls U Us d p q (r_P c) (r_Q c) (r_Pi c) (r_Qi c) (r_kl c) (r_ku c) l ut).

  (** [for (; step < m; ++step)], pivot_factor.hpp:279-450. *)
  Fixpoint pivot_loop (fuel step : nat) (c : PR) : res (nat * PR) :=
    match fuel with
    | 0 => UB
    | S fuel =>
      if step <? r_m c then
        c <- pivot_rounds 4 true step c ;;
        dg <- get (r_d c) (Nat.add (r_def c) step) ;;
        let bd := bad dg in
        c <- pkappas step c ;;
        bd <- (if bd then Ok true else pkappa_bad step c) ;;
        c <- (if bd then pdefer_loop (S m2) step c else Ok c) ;;
        if bd && (r_m c =? step) then Ok (step, c)
        else
          c <- peliminate step c ;;
          pivot_loop fuel (S step) c
      else Ok (step, c)
    end.

  (** Initial values, pivot_factor.hpp:176-257; [j...] are uninitialised contents. *)
  Definition pivot_init (p q : BiPerm) (jd jk : list T) (js : list nat) (jP : list (option nat))
    (jv : list T) (ji : list nat) : PR :=
    let U := aug_begin O (mkCS m2 (Nat.mul (psize A_ccs) 2) [] [] []) in
    let L := aug_begin O (mkCS m2 (Nat.mul (ssize A_ccs) 2) [] [] []) in
    mkPR m2 0 L js U js jd (bp p) (bp q) (map Some (firstn n (bp p)) ++ jP) (map Some (firstn n (bp q)) ++ jP)
         (bpi p) (bpi q) jk jk (sv_new (Nat.mul n 2) jv ji) (sv_new (Nat.mul n 2) jv ji).

  (** pivot_factor.hpp:452-476: the same statements as factor.hpp:1003-1026. *)
  Definition pivot_finish (r : nat * PR) : res (CRout O) :=
    let '(step, c) := r in
    p <- assign_gap n step (r_def c) (r_P c) (r_p c) ;;
    q <- assign_gap n step (r_def c) (r_Q c) (r_q c) ;;
    p <- build_inv (mkBP p (r_Pi c)) ;;
    q <- build_inv (mkBP q (r_Qi c)) ;;
    let U := end_assemble O (a_cs (r_U c)) in
    let L := end_assemble O (a_cs (r_L c)) in
    Ls <- globalise (r_m c) L (r_Ls c) ;;
    Us <- globalise (r_m c) U (r_Us c) ;;
    U <- compress_tail U Us (r_m c) (r_def c) ;;
    L <- compress_tail L Ls (r_m c) (r_def c) ;;
    Ok (mkOut (r_m c) p q L Ls U Us (r_d c) (r_def c) (r_l c) (r_u c)).

  Definition pivot_crout (p q : BiPerm) jd jk js jP jv ji : res (CRout O) :=
    r <- pivot_loop (S m2) 0 (pivot_init p q jd jk js jP jv ji) ;;
    pivot_finish r.
  End Loop.

  (** ** The dropping actually applied, pivot_factor.hpp:411-417,430-436 *)
  Section Drop.
  Variable G : Mag O.
  Variable mdiv : M G -> M G -> M G.
  Variable ceil_mul : M G -> nat -> nat.
  Variable nth_el : (nat -> M G) -> nat -> list nat -> list nat.
  Definition piv_drop (tau kappa_d alpha : M G) (sizes : list nat) (step : nat) (kappa : list T) (p : list nat) (v : SV O) : res (SV O) :=
    k <- get kappa step ;;
    v <- apply_num_dropping G mdiv tau (mmul G (mabs G k) kappa_d) v ;;
    i <- get p step ;; nz <- get sizes i ;;
    apply_space_dropping G ceil_mul nth_el nz alpha v 0.
  End Drop.
End Pivot.
Arguments PR : clear implicits.
