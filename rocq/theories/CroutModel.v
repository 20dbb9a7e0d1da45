(** * CroutModel: one level of the factorization.

    Models src/hif/alg/Crout.hpp (the class Crout, except the routines used only
    with IsSymm = true) and the part of [level_factorize] in
    src/hif/alg/factor.hpp from the extraction of the diagonal to the compression
    of the tails (lines 691-1026), with IsSymm = false.

    Not modelled here: statistics counters, messages, timers, memory reservation.
    Indices are [nat]; the mark [-1] of the index arrays is [None].  Comparisons of
    magnitudes that decide whether a diagonal is deferred are parameters. *)
From Coq Require Import List Arith Lia Bool.
From Verif Require Import Base Scalar CSModel ConvModel Mag VecModel PruneModel.
Import ListNotations.

(** [while (idx != nil) { ...; idx = next; }]; the body returns the next node.  A
    chain with a cycle does not terminate: out of fuel is [UB]. *)
Fixpoint while_chain {S} (fuel : nat) (body : nat -> S -> res (S * option nat)) (idx : option nat) (s : S) : res S :=
  match idx with
  | None => Ok s
  | Some c =>
    match fuel with
    | 0 => UB
    | Datatypes.S fuel => '(s, next) <- body c s ;; while_chain fuel body next s
    end
  end.

Section Crout.
  Context {O : Ops}.
  Notation T := (T O).
  Infix "*" := (tmul O). Infix "-" := (tsub O). Infix "+" := (tadd O).

  (** A factor under construction with its linked list and its starting positions:
      [L], [L_list], [L_start] or [U], [U_list], [U_start], factor.hpp:697-775. *)
  Record Fac : Type := mkFac { fm : CS O; flist : list (option nat); fstart : list nat }.

  (** Position of the current entry of primary [c]: [ind_start[c] + start[c]], and
      the end of the primary. *)
  Definition cur_pos (F : Fac) (c : nat) : res (nat * nat) :=
    b <- get (ind_start (fm F)) c ;; o <- get (fstart F) c ;; e <- get (ind_start (fm F)) (S c) ;;
    Ok (Nat.add b o, e).

  Definition fuel_of (F : Fac) : nat := S (length (flist F)).

  (** Crout::update_kappa, Crout.hpp:484-513.  [klt a b] is [|a| < |b|].  The
      returned flag is not used by the caller. *)
  Definition update_kappa (klt : T -> T -> bool) (step g : nat) (F : Fac) (kappa : list T) : res (list T) :=
    if step =? 0 then set kappa 0 (t1 O)
    else
      idx <- get (flist F) g ;;
      sum <- while_chain (fuel_of F) (fun c sum =>
        k <- get kappa c ;;
        '(pos, _) <- cur_pos F c ;; v <- get (vals (fm F)) pos ;;
        nx <- get (flist F) c ;;
        Ok (sum + k * v, nx)) idx (t0 O) ;;
      let k1 := t1 O - sum in
      let k2 := topp O (t1 O) - sum in
      set kappa step (if klt k1 k2 then k2 else k1).

  (** Crout::defer_entry, Crout.hpp:652-681. *)
  Definition defer_entry (to_idx step g : nat) (F : Fac) : res Fac :=
    idx <- get (flist F) g ;;
    F <- while_chain (fuel_of F) (fun c F =>
      '(pos, e) <- cur_pos F c ;;
      if e <? pos then UB
      else
        let n := (e - pos)%nat in
        inds <- set (indices (fm F)) pos to_idx ;;
        inds <- rotate_left n pos inds ;;
        vals <- rotate_left n pos (vals (fm F)) ;;
        j <- get inds pos ;;
        next <- get (flist F) c ;;
        lj <- get (flist F) j ;;
        li <- set (flist F) c lj ;;
        li <- set li j (Some c) ;;
        Ok (mkFac (mkCS (psize (fm F)) (ssize (fm F)) (ind_start (fm F)) inds vals) li (fstart F), next)) idx F ;;
    li <- set (flist F) step None ;;
    Ok (mkFac (fm F) li (fstart F)).

  (** Crout::update_compress, Crout.hpp:429-457. *)
  Definition update_compress (step def : nat) (F : Fac) : res Fac :=
    idx <- get (flist F) (Nat.add def step) ;;
    F <- while_chain (fuel_of F) (fun c F =>
      '(pos, e) <- cur_pos F c ;;
      i <- get (indices (fm F)) pos ;;
      if i <? def then UB
      else
        inds <- set (indices (fm F)) pos (i - def)%nat ;;
        o <- get (fstart F) c ;;
        start <- set (fstart F) c (S o) ;;
        next <- get (flist F) c ;;
        li <- (if negb (S pos =? e) then
                 j <- get inds (S pos) ;;
                 lj <- get (flist F) j ;;
                 li <- set (flist F) c lj ;;
                 set li j (Some c)
               else set (flist F) c None) ;;
        Ok (mkFac (mkCS (psize (fm F)) (ssize (fm F)) (ind_start (fm F)) inds (vals (fm F))) li start, next)) idx F ;;
    li <- set (flist F) step None ;;
    start <- set (fstart F) step 0 ;;
    b <- get (ind_start (fm F)) step ;; e <- get (ind_start (fm F)) (S step) ;;
    li <- (if e =? b then Ok li
           else
             first <- get (indices (fm F)) b ;;
             lf <- get li first ;;
             li <- (match lf with Some _ => set li step lf | None => Ok li end) ;;
             set li first (Some step)) ;;
    Ok (mkFac (fm F) li start).

  (** Crout::_load_arow and (IsSymm = false) _load_acol, Crout.hpp:740-767,784-812:
      primary [pk] of [A], inverse permutation [qinv] of the other side; the value
      [s * v * t] is formed by [sc]. *)
  Definition load_primary (step g : nat) (A : CS O) (pk : nat) (qinv : list nat)
    (sc : nat -> T -> res T) (w : SV O) : res (SV O) :=
    row_iter O A pk (fun j v w =>
      idx <- get qinv j ;;
      if g <? idx then
        '(_, w) <- sv_push w idx step ;;
        x <- sc j v ;;
        sv_setval w idx x
      else Ok w) w.

  (** [if (w.push_back(idx, step)) w.vals()[idx] = a; else w.vals()[idx] -= b;]. *)
  Definition accum (step : nat) (w : SV O) (idx : nat) (a b : T) : res (SV O) :=
    '(isnew, w) <- sv_push w idx step ;;
    if isnew then sv_setval w idx a
    else x <- get (sv_vals w) idx ;; sv_setval w idx (x - b).

  (** Crout::compute_ut, Crout.hpp:171-222. *)
  Definition compute_ut (step g : nat) (s : list T) (A_crs : CS O) (t : list T) (pk : nat) (qinv : list nat)
    (L : Fac) (d : list T) (U : Fac) (ut : SV O) : res (SV O) :=
    let ut := sv_reset ut in
    s_pk <- get s pk ;;
    ut <- load_primary step g A_crs pk qinv (fun j v => tj <- get t j ;; Ok (s_pk * v * tj)) ut ;;
    if step =? 0 then Ok ut
    else
      idx <- get (flist L) g ;;
      while_chain (fuel_of L) (fun c ut =>
        '(pos, _) <- cur_pos L c ;; lv <- get (vals (fm L)) pos ;; dc <- get d c ;;
        let ld := lv * dc in
        '(upos, ue) <- cur_pos U c ;;
        upos <- (if negb (upos =? ue) then (i <- get (indices (fm U)) upos ;; Ok (if i =? g then S upos else upos)) else Ok upos) ;;
        if ue <? upos then UB
        else
          ut <- for_range upos ue (fun k ut =>
            i <- get (indices (fm U)) k ;; v <- get (vals (fm U)) k ;;
            accum step ut i (topp O ld * v) (ld * v)) ut ;;
          nx <- get (flist L) c ;;
          Ok (ut, nx)) idx ut.

  (** Crout::compute_l<false>, Crout.hpp:261-317. *)
  Definition compute_l (step g : nat) (s : list T) (A_ccs : CS O) (t : list T) (pinv : list nat) (qk : nat)
    (L : Fac) (d : list T) (U : Fac) (l : SV O) : res (SV O) :=
    let l := sv_reset l in
    t_qk <- get t qk ;;
    l <- load_primary step g A_ccs qk pinv (fun j v => sj <- get s j ;; Ok (sj * v * t_qk)) l ;;
    if step =? 0 then Ok l
    else
      idx <- get (flist U) g ;;
      while_chain (fuel_of U) (fun c l =>
        dc <- get d c ;; '(pos, _) <- cur_pos U c ;; uv <- get (vals (fm U)) pos ;;
        let du := dc * uv in
        '(lpos, le) <- cur_pos L c ;;
        lpos <- (if negb (lpos =? le) then (i <- get (indices (fm L)) lpos ;; Ok (if i =? g then S lpos else lpos)) else Ok lpos) ;;
        if le <? lpos then UB
        else
          l <- for_range lpos le (fun k l =>
            i <- get (indices (fm L)) k ;; v <- get (vals (fm L)) k ;;
            accum step l i (topp O du * v) (v * du)) l ;;
          nx <- get (flist U) c ;;
          Ok (l, nx)) idx l.

  (** Crout::scale_inv_diag, Crout.hpp:611-636; [is0 x]: [|x| == 0], [big x]:
      [|x| > safe_min]. *)
  Definition scale_inv_diag (is0 big : T -> bool) (step : nat) (d : list T) (v : SV O) : res (SV O) :=
    dk <- get d step ;;
    if is0 dk then Ok v
    else if big dk then
      let dk_inv := tdiv O (t1 O) dk in
      for_range 0 (sv_cnt v) (fun i v =>
        j <- get (sv_inds v) i ;; x <- get (sv_vals v) j ;; sv_setval v j (x * dk_inv)) v
    else
      for_range 0 (sv_cnt v) (fun i v =>
        j <- get (sv_inds v) i ;; x <- get (sv_vals v) j ;; sv_setval v j (tdiv O x dk)) v.

  (** Crout::update_diag<false>, Crout.hpp:540-583. *)
  Definition update_diag (step : nat) (l ut : SV O) (m : nat) (d : list T) : res (list T) :=
    if sv_cnt ut <=? sv_cnt l then
      for_range 0 (sv_cnt ut) (fun i d =>
        idx <- get (sv_inds ut) i ;;
        if idx <? m then
          tag <- get (sv_dtags l) idx ;;
          if (match tag with Some s => s =? step | None => false end) then
            x <- get d idx ;; u <- sv_val ut i ;; w <- get (sv_vals l) idx ;; set d idx (x - u * w)
          else Ok d
        else Ok d) d
    else
      for_range 0 (sv_cnt l) (fun i d =>
        idx <- get (sv_inds l) i ;;
        if idx <? m then
          tag <- get (sv_dtags ut) idx ;;
          if (match tag with Some s => s =? step | None => false end) then
            x <- get d idx ;; u <- get (sv_vals ut) idx ;; w <- sv_val l i ;; set d idx (x - u * w)
          else Ok d
        else Ok d) d.

  (** SparseVector::sort_indices (SparseVec.hpp:149-156): [std::sort] of the held indices. *)
  Definition sv_sort (v : SV O) : res (SV O) :=
    inds <- sort_range (sv_inds v) 0 (sv_cnt v) ;;
    Ok (mkSV (sv_vals v) inds (sv_cnt v) (sv_dtags v) (sv_stags v)).

  (** [push_back_row/col(step, inds, inds + size, vals)] of an accumulator. *)
  Definition push_sv (F : Fac) (v : SV O) : res Fac :=
    if sv_cnt v <=? length (sv_inds v) then
      A <- push_primary O (fm F) (firstn (sv_cnt v) (sv_inds v)) (sv_vals v) ;;
      Ok (mkFac A (flist F) (fstart F))
    else UB.

  (** extract_perm_diag, factor.hpp:131-165, called with m0 = 0: M = m. *)
  Definition extract_perm_diag (s : list T) (A : CS O) (t : list T) (m : nat) (p q : list nat) (jd : T) : res (list T) :=
    if (ssize A <? m) || (psize A <? m) then Err
    else
      for_range 0 m (fun i diag =>
        qi <- get q i ;; pi <- get p i ;;
        b <- get (ind_start A) qi ;; e <- get (ind_start A) (S qi) ;;
        '(found, pos) <- find_sorted (indices A) b e pi ;;
        if found then
          si <- get s pi ;; v <- get (vals A) pos ;; ti <- get t qi ;;
          set diag i (si * v * ti)
        else set diag i (t0 O)) (repeat jd m).

  (** ** The main loop *)
  (** Variables of level_factorize during the Crout update. *)
  Record CR : Type := mkCR {
    c_m : nat; c_def : nat; c_L : Fac; c_U : Fac; c_d : list T;
    c_p : list nat; c_q : list nat;
    c_P : list (option nat); c_Q : list (option nat); c_Pi : list nat; c_Qi : list nat;
    c_kl : list T; c_ku : list T; c_l : SV O; c_u : SV O }.

  Section Loop.
  (** [bad a]: [|1/a| > kappa_d]; [kbad a]: [|a| > kappa]; the droppings applied to
      [ut] and [l] before they are stored (they may depend on the whole state). *)
  Variable bad : T -> bool.
  Variable klt : T -> T -> bool.
  Variable kbad : T -> bool.
  Variables is0 big : T -> bool.
  Variable dropU dropL : nat -> CR -> SV O -> res (SV O).
  Variables (n m2 : nat) (s t : list T) (A_crs A_ccs : CS O).

  (** The two update_kappa calls, factor.hpp:833-836 and :874-876. *)
  Definition kappas (step : nat) (c : CR) : res CR :=
    let g := Nat.add (c_def c) step in
    ku <- update_kappa klt step g (c_U c) (c_ku c) ;;
    kl <- update_kappa klt step g (c_L c) (c_kl c) ;;
    Ok (mkCR (c_m c) (c_def c) (c_L c) (c_U c) (c_d c) (c_p c) (c_q c) (c_P c) (c_Q c) (c_Pi c) (c_Qi c) kl ku (c_l c) (c_u c)).

  (** [std::abs(kappa_ut[step]) > kappa || std::abs(kappa_l[step]) > kappa]. *)
  Definition kappa_bad (step : nat) (c : CR) : res bool :=
    ku <- get (c_ku c) step ;; kl <- get (c_kl c) step ;; Ok (kbad ku || kbad kl).

  (** The body of the deferral loop up to [increment_defer_counter],
      factor.hpp:849-864. *)
  Definition defer_one (step : nat) (c : CR) : res CR :=
    let g := Nat.add (c_def c) step in
    let tail := Nat.add n (c_def c) in
    U <- defer_entry tail step g (c_U c) ;;
    L <- defer_entry tail step g (c_L c) ;;
    pg <- get (c_p c) g ;; P <- set (c_P c) tail (Some pg) ;;
    qg <- get (c_q c) g ;; Q <- set (c_Q c) tail (Some qg) ;;
    Pi <- set (c_Pi c) pg tail ;;
    Qi <- set (c_Qi c) qg tail ;;
    P <- set P g None ;; Q <- set Q g None ;;
    Ok (mkCR (c_m c - 1) (S (c_def c)) L U (c_d c) (c_p c) (c_q c) P Q Pi Qi (c_kl c) (c_ku c) (c_l c) (c_u c)).

  Definition with_m (m : nat) (c : CR) : CR :=
    mkCR m (c_def c) (c_L c) (c_U c) (c_d c) (c_p c) (c_q c) (c_P c) (c_Q c) (c_Pi c) (c_Qi c) (c_kl c) (c_ku c) (c_l c) (c_u c).

  (** The deferral loop [while (m > step) {...}], factor.hpp:848-886. *)
  Fixpoint defer_loop (fuel step : nat) (c : CR) : res CR :=
    match fuel with
    | 0 => UB
    | S fuel =>
      if step <? c_m c then
        c <- defer_one step c ;;
        if m2 <=? Nat.add (c_def c) step then Ok (with_m step c)
        else
          dg <- get (c_d c) (Nat.add (c_def c) step) ;;
          if bad dg then defer_loop fuel step c
          else
            c <- kappas step c ;;
            kb <- kappa_bad step c ;;
            if kb then defer_loop fuel step c else Ok c
      else Ok c
    end.

  (** The part of a step after deferral: compress, compute, drop, store,
      factor.hpp:905-999. *)
  Definition eliminate (step : nat) (c : CR) : res CR :=
    let g := Nat.add (c_def c) step in
    dg <- get (c_d c) g ;; d <- set (c_d c) step dg ;;
    pg <- get (c_p c) g ;; p <- set (c_p c) step pg ;;
    qg <- get (c_q c) g ;; q <- set (c_q c) step qg ;;
    pk <- get p step ;;
    ut <- compute_ut step g s A_crs t pk (c_Qi c) (c_L c) d (c_U c) (c_u c) ;;
    qk <- get q step ;;
    l <- compute_l step g s A_ccs t (c_Pi c) qk (c_L c) d (c_U c) (c_l c) ;;
    ut <- scale_inv_diag is0 big step d ut ;;
    d <- update_diag step l ut m2 d ;;
    l <- scale_inv_diag is0 big step d l ;;
    let c1 := mkCR (c_m c) (c_def c) (c_L c) (c_U c) d p q (c_P c) (c_Q c) (c_Pi c) (c_Qi c) (c_kl c) (c_ku c) l ut in
    ut <- dropU step c1 ut ;; ut <- sv_sort ut ;;
    U <- push_sv (c_U c) ut ;;
    l <- dropL step c1 l ;; l <- sv_sort l ;;
    L <- push_sv (c_L c) l ;;
    U <- update_compress step (c_def c) U ;;
    L <- update_compress step (c_def c) L ;;
    Ok (mkCR (c_m c) (c_def c) L U d p q (c_P c) (c_Q c) (c_Pi c) (c_Qi c) (c_kl c) (c_ku c) l ut).

  (** [for (; step < m; ++step)], factor.hpp:820-1001; returns the final [step]. *)
  Fixpoint crout_loop (fuel step : nat) (c : CR) : res (nat * CR) :=
    match fuel with
    | 0 => UB
    | S fuel =>
      if step <? c_m c then
        dg <- get (c_d c) (Nat.add (c_def c) step) ;;
        let pvt := bad dg in
        c <- kappas step c ;;
        pvt <- (if pvt then Ok true else kappa_bad step c) ;;
        c <- (if pvt then defer_loop (S m2) step c else Ok c) ;;
        if pvt && (c_m c =? step) then Ok (step, c)
        else
          c <- eliminate step c ;;
          crout_loop fuel (S step) c
      else Ok (step, c)
    end.

  (** Initial values, factor.hpp:691-813; [j...] are uninitialised contents. *)
  Definition crout_init (p q : BiPerm) (jd : T) (jk : list T) (js : list nat) (jP : list (option nat))
    (jv : list T) (ji : list nat) : res CR :=
    d <- extract_perm_diag s A_ccs t m2 (bp p) (bp q) jd ;;
    let U := mkFac (begin_assemble O (mkCS m2 (Nat.mul (psize A_ccs) 2) [] [] [])) (repeat None (Nat.mul (psize A_ccs) 2)) js in
    let L := mkFac (begin_assemble O (mkCS m2 (Nat.mul (ssize A_ccs) 2) [] [] [])) (repeat None (Nat.mul (ssize A_ccs) 2)) js in
    Ok (mkCR m2 0 L U d (bp p) (bp q) (map Some (firstn n (bp p)) ++ jP) (map Some (firstn n (bp q)) ++ jP)
         (bpi p) (bpi q) jk jk (sv_new (Nat.mul n 2) jv ji) (sv_new (Nat.mul n 2) jv ji)).

  (** assign_gap_array for [step..n), factor.hpp:1003-1007.  A mark [-1] would be
      copied as an index; the model treats that as [UB] (it never happens). *)
  Definition assign_gap (step def : nat) (P : list (option nat)) (p : list nat) : res (list nat) :=
    for_range step n (fun i p =>
      x <- get P (Nat.add i def) ;;
      match x with Some v => set p i v | None => UB end) p.

  (** Starting positions made global, factor.hpp:1019-1022. *)
  Definition globalise (m : nat) (A : CS O) (start : list nat) : res (list nat) :=
    for_range 0 m (fun i start => a <- get start i ;; b <- get (ind_start A) i ;; set start i (Nat.add a b)) start.

  (** compress_tails for one factor, factor.hpp:442-468 ([resize_nrows(nrows/2)]
      changes the secondary size only). *)
  Definition compress_tail (A : CS O) (start : list nat) (m def : nat) : res (CS O) :=
    inds <- (if def =? 0 then Ok (indices A)
      else for_range 0 m (fun i inds =>
        b <- get start i ;; e <- get (ind_start A) (S i) ;;
        if e <? b then UB
        else for_range b e (fun k inds => j <- get inds k ;; if j <? def then UB else set inds k (j - def)%nat) inds) (indices A)) ;;
    Ok (mkCS (psize A) (Nat.div (ssize A) 2) (ind_start A) inds (vals A)).

  (** Result of the Crout update: leading size, p, q with inverses, L, U with the
      starting positions of their tails, d. *)
  Record CRout : Type := mkOut {
    o_m : nat; o_p : BiPerm; o_q : BiPerm; o_L : CS O; o_Ls : list nat; o_U : CS O; o_Us : list nat; o_d : list T;
    o_def : nat;
    (* the work vectors l, ut, reused afterwards *)
    o_l : SV O; o_u : SV O }.

  (** factor.hpp:1003-1026. *)
  Definition crout_finish (r : nat * CR) : res CRout :=
    let '(step, c) := r in
    p <- assign_gap step (c_def c) (c_P c) (c_p c) ;;
    q <- assign_gap step (c_def c) (c_Q c) (c_q c) ;;
    p <- build_inv (mkBP p (c_Pi c)) ;;
    q <- build_inv (mkBP q (c_Qi c)) ;;
    let U := end_assemble O (fm (c_U c)) in
    let L := end_assemble O (fm (c_L c)) in
    Ls <- globalise (c_m c) L (fstart (c_L c)) ;;
    Us <- globalise (c_m c) U (fstart (c_U c)) ;;
    U <- compress_tail U Us (c_m c) (c_def c) ;;
    L <- compress_tail L Ls (c_m c) (c_def c) ;;
    Ok (mkOut (c_m c) p q L Ls U Us (c_d c) (c_def c) (c_l c) (c_u c)).

  Definition crout (p q : BiPerm) jd jk js jP jv ji : res CRout :=
    c <- crout_init p q jd jk js jP jv ji ;;
    r <- crout_loop (S m2) 0 c ;;
    crout_finish r.
  End Loop.

  (** ** The dropping actually applied *)
  Section Drop.
  Variable G : Mag O.
  Variable mdiv : M G -> M G -> M G.
  Variable ceil_mul : M G -> nat -> nat.
  Variable nth_el : (nat -> M G) -> nat -> list nat -> list nat.

  (** apply_num_dropping then apply_space_dropping on [ut], factor.hpp:939-944. *)
  Definition hif_dropU (tau kappa_d alpha : M G) (row_sizes : list nat) (step : nat) (c : CR) (v : SV O) : res (SV O) :=
    k <- get (c_ku c) step ;;
    v <- apply_num_dropping G mdiv tau (mmul G (mabs G k) kappa_d) v ;;
    i <- get (c_p c) step ;; nz <- get row_sizes i ;;
    apply_space_dropping G ceil_mul nth_el nz alpha v 0.
  (** The same on [l], factor.hpp:956,982-986 (IsSymm = false). *)
  Definition hif_dropL (tau kappa_d alpha : M G) (col_sizes : list nat) (step : nat) (c : CR) (v : SV O) : res (SV O) :=
    k <- get (c_kl c) step ;;
    v <- apply_num_dropping G mdiv tau (mmul G (mabs G k) kappa_d) v ;;
    j <- get (c_q c) step ;; nz <- get col_sizes j ;;
    apply_space_dropping G ceil_mul nth_el nz alpha v 0.
  End Drop.
End Crout.
Arguments Fac : clear implicits. Arguments CR : clear implicits. Arguments CRout : clear implicits.
