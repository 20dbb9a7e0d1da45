(** * SchurModel: off-diagonal blocks, offset dropping, Schur complement.

    Models [extract_E], [extract_F] of src/hif/alg/factor.hpp and
    src/hif/alg/Schur.hpp.  Conventions as in ConvModel: uninitialised memory is
    [ji]/[jv]; memory exhaustion is not modelled; indices are [nat]; products in a
    wider type ("boost" precision) are products in [T]. *)
From Coq Require Import List Arith Lia Bool.
From Verif Require Import Base Scalar CSModel ConvModel Mag VecModel CroutModel.
Import ListNotations.

Section Schur.
  Context {O : Ops}.
  Notation T := (T O).
  Infix "*" := (tmul O). Infix "-" := (tsub O).

  (** ** Blocks *)

  (** extract_E, factor.hpp:186-258: rows [p[m..n)] of a CRS matrix, columns
      [q[0..m)], into a CCS with [n-m] rows and [m] columns.  [qinv] is [q.inv]. *)
  Definition extract_E (s : list T) (A : CS O) (t : list T) (m : nat) (p qinv : list nat)
    (ji : nat) (jv : T) : res (CS O) :=
    let n := psize A in
    if (n <? m) || (ssize A <? m) then Err
    else
      let N := (n - m)%nat in
      if N =? 0 then Ok (mkCS m N (repeat 0 (m + 1)) [] [])
      else
        cs <- for_range m n (fun i cs =>
          pi <- get p i ;;
          row_iter O A pi (fun j _ cs =>
            qi <- get qinv j ;;
            if qi <? m then c <- get cs (S qi) ;; set cs (S qi) (S c) else Ok cs) cs) (repeat 0 (m + 1)) ;;
        cs <- accumulate m cs ;;
        z <- get cs m ;;
        if z =? 0 then Ok (mkCS m N cs [] [])
        else
          '(cs, ind, val) <- for_range m n (fun i st =>
            pi <- get p i ;; si <- get s pi ;;
            row_iter O A pi (fun j v st =>
              qi <- get qinv j ;;
              if qi <? m then tj <- get t j ;; place O qi (i - m)%nat (si * v * tj) st else Ok st) st)
            (cs, repeat ji z, repeat jv z) ;;
          cs <- shift_swap m cs ;;
          Ok (mkCS m N cs ind val).

  (** extract_F, factor.hpp:290-371: columns [q[m..n)] of a CCS matrix, rows
      [p[0..m)], into a CCS with [m] rows and [n-m] columns.  [pinv] is [p.inv],
      [buf] the work array. *)
  Definition extract_F (s : list T) (A : CS O) (t : list T) (m : nat) (pinv q : list nat)
    (buf : list T) (ji : nat) (jv : T) : res (CS O) :=
    let n := psize A in
    if (n <? m) || (ssize A <? m) then Err
    else
      let N := (n - m)%nat in
      if N =? 0 then Ok (mkCS N m (repeat 0 (N + 1)) [] [])
      else
        cs <- set (repeat ji (N + 1)) 0 0 ;;
        cs <- for_range 0 N (fun i cs =>
          qi <- get q (i + m) ;;
          nnz <- row_iter O A qi (fun j _ nnz =>
            pi <- get pinv j ;; Ok (if pi <? m then S nnz else nnz)) 0 ;;
          c <- get cs i ;; set cs (S i) (c + nnz)%nat) cs ;;
        z <- get cs N ;;
        if z =? 0 then Ok (mkCS N m cs [] [])
        else
          '(ind, val, _, _) <- for_range 0 N (fun i (st : list nat * list T * list T * nat) =>
            let '(ind, val, buf, vpos) := st in
            qi <- get q (i + m) ;; b <- get cs i ;; e <- get cs (S i) ;; ti <- get t qi ;;
            '(pos, ind, buf) <- row_iter O A qi (fun j v (st : nat * list nat * list T) =>
              let '(pos, ind, buf) := st in
              pi <- get pinv j ;;
              if pi <? m then
                ind <- set ind pos pi ;; sj <- get s j ;;
                buf <- set buf pi (sj * v * ti) ;; Ok (S pos, ind, buf)
              else Ok (pos, ind, buf)) (b, ind, buf) ;;
            ind <- sort_range ind b pos ;;
            '(vpos, val) <- for_range b e (fun k (st : nat * list T) =>
              let '(vpos, val) := st in
              j <- get ind k ;; v <- get buf j ;; val <- set val vpos v ;; Ok (S vpos, val)) (vpos, val) ;;
            Ok (ind, val, buf, vpos)) (repeat ji z, repeat jv z, buf, 0) ;;
          Ok (mkCS N m cs ind val).

  (** ** Offset dropping *)
  Section Drop.
  Variable G : Mag O.
  (** [std::ceil(alpha * A_sz)] and [std::nth_element] as in VecModel. *)
  Variable ceil_mul : M G -> nat -> nat.
  Variable nth_el : (nat -> M G) -> nat -> list nat -> list nat.

  (** First loop of internal::drop_offsets_kernel, Schur.hpp:69-93, one primary.
      With a threshold of zero the position handed to [nth_element] lies before the
      range: [UB]. *)
  Definition drop_select (ref : list nat) (alpha : M G) (indptr : list nat) (i : nat)
    (st : list nat * list nat * list T * list T) : res (list nat * list nat * list T * list T) :=
    let '(gaps, ind, val, buf) := st in
    r1 <- get ref (S i) ;; r0 <- get ref i ;;
    e <- get indptr (S i) ;; b <- get indptr i ;;
    if (r1 <? r0) || (e <? b) then UB
    else
      let thr := ceil_mul alpha (r1 - r0)%nat in
      let nnz := (e - b)%nat in
      if nnz <=? thr then gaps <- set gaps i 0 ;; Ok (gaps, ind, val, buf)
      else
        gaps <- set gaps i (nnz - thr)%nat ;;
        buf <- for_range b e (fun k buf => j <- get ind k ;; v <- get val k ;; set buf j v) buf ;;
        if (thr =? 0) || (length ind <? e) then UB
        else
          let ind := firstn b ind ++ nth_el (fun j => mabs G (nth j buf (t0 O))) thr (slice b nnz ind) ++ skipn e ind in
          val <- for_range b (b + thr) (fun k val => j <- get ind k ;; v <- get buf j ;; set val k v) val ;;
          Ok (gaps, ind, val, buf).

  (** Compression, Schur.hpp:95-112, one primary: [prev] is the old start. *)
  Definition drop_compress (gaps : list nat) (i : nat)
    (st : list nat * nat * nat * list nat * list T) : res (list nat * nat * nat * list nat * list T) :=
    let '(indptr, prev, pos, ind, val) := st in
    last <- get indptr (S i) ;; g <- get gaps i ;;
    if (last <? g) || (last - g <? prev)%nat then UB
    else
      '(pos', ind, val) <- for_range prev (last - g)%nat (fun k (st : nat * list nat * list T) =>
        let '(pos, ind, val) := st in
        j <- get ind k ;; v <- get val k ;;
        ind <- set ind pos j ;; val <- set val pos v ;; Ok (S pos, ind, val)) (pos, ind, val) ;;
      a <- get indptr i ;;
      indptr <- set indptr (S i) (a + (pos' - pos))%nat ;;
      Ok (indptr, last, pos', ind, val).

  (** internal::drop_offsets_kernel, Schur.hpp:58-113; [buf], [gaps] are the work
      arrays, the final resize only shrinks. *)
  Definition drop_offsets (ref : list nat) (alpha : M G) (A : CS O) (buf : list T) (gaps : list nat) : res (CS O) :=
    let n := (length (ind_start A) - 1)%nat in
    '(gaps, ind, val, buf) <- for_range 0 n (drop_select ref alpha (ind_start A)) (gaps, indices A, vals A, buf) ;;
    prev <- get (ind_start A) 0 ;;
    '(indptr, _, _, ind, val) <- for_range 0 n (drop_compress gaps) (ind_start A, prev, 0, ind, val) ;;
    z <- get indptr n ;;
    Ok (mkCS (psize A) (ssize A) indptr (firstn z ind) (firstn z val)).

  (** drop_L_E and drop_U_F, Schur.hpp:133-181 (the same code for rows and columns). *)
  Definition drop_block (ref : list nat) (alpha : M G) (A : CS O) (buf : list T) (gaps : list nat) : res (CS O) :=
    if mlt G (m0 G) alpha then drop_offsets ref alpha A buf gaps
    else
      ip <- fill_n (ind_start A) (psize A + 1) 0 ;;
      Ok (mkCS (psize A) (ssize A) ip [] []).
  End Drop.

  (** ** Schur complement *)
  Section S.
  Variables (s t d : list T) (A : CS O) (p qinv : list nat) (m : nat) (L_E U_F : CS O).

  (** The pattern of row [i]: Schur.hpp:237-255, :277-302, without the counters. *)
  Definition schur_pattern (i tag : nat) (buf : SV O) : res (SV O) :=
    let push j buf := '(_, buf) <- sv_push buf j tag ;; Ok buf in
    buf <- row_iter O L_E i (fun c _ buf => row_iter O U_F c (fun j _ buf => push j buf) buf) (sv_reset buf) ;;
    pi <- get p (m + i) ;;
    row_iter O A pi (fun j _ buf =>
      iq <- get qinv j ;; if m <=? iq then push (iq - m)%nat buf else Ok buf) buf.

  (** The values of row [i]: C fetched into the dense work array [bv] and the
      products subtracted, Schur.hpp:335-359. *)
  Definition schur_fill (i : nat) (bv : list T) : res (list T) :=
    pi <- get p (m + i) ;; s_pi <- get s pi ;;
    bv <- row_iter O A pi (fun j v bv =>
      iq <- get qinv j ;;
      if m <=? iq then tj <- get t j ;; set bv (iq - m)%nat (s_pi * v * tj) else Ok bv) bv ;;
    row_iter O L_E i (fun c lv bv =>
      dc <- get d c ;;
      let ld := lv * dc in
      row_iter O U_F c (fun j uv bv => x <- get bv j ;; set bv j (x - ld * uv)) bv) bv.

  (** The same after zeroing the positions [inds] of the row, Schur.hpp:327-359. *)
  Definition schur_row (i : nat) (inds : list nat) (bv : list T) : res (list T) :=
    bv <- for_list inds (fun j bv => set bv j (t0 O)) bv ;;
    schur_fill i bv.

  (** Writing the values of row [i] into [SC], Schur.hpp:361-366. *)
  Definition schur_store (rs ci : list nat) (i : nat) (bv : list T) (vs : list T) : res (list T) :=
    b <- get rs i ;; e <- get rs (S i) ;;
    for_range b e (fun k vs => j <- get ci k ;; v <- get bv j ;; set vs k v) vs.

  (** compute_Schur_simple(..., buf), Schur.hpp:214-367 and :372-393, from a default
      constructed [SC]; [bv] is [buf.vals()] or the separate array of the wider type. *)
  Definition compute_schur (buf : SV O) (bv : list T) (ji : nat) (jv : T) : res (CS O) :=
    let n := psize A in
    if m =? n then Ok (mkCS 0 0 [] [] [])
    else if n <? m then UB
    else
      let N := (n - m)%nat in
      rs <- set (repeat ji (N + 1)) 0 0 ;;
      '(rs, tag, buf) <- for_range 0 N (fun i (st : list nat * nat * SV O) =>
        let '(rs, tag, buf) := st in
        buf <- schur_pattern i tag buf ;;
        a <- get rs i ;; rs <- set rs (S i) (a + sv_cnt buf)%nat ;;
        Ok (rs, S tag, buf)) (rs, n, buf) ;;
      z <- get rs N ;;
      if z =? 0 then Ok (mkCS N N rs [] [])
      else
        '(ci, tag, buf) <- for_range 0 N (fun i (st : list nat * nat * SV O) =>
          let '(ci, tag, buf) := st in
          buf <- schur_pattern i tag buf ;;
          buf <- sv_sort buf ;;
          if sv_cnt buf <=? length (sv_inds buf) then
            Ok (ci ++ firstn (sv_cnt buf) (sv_inds buf), S tag, buf)
          else UB) ([], tag, buf) ;;
        '(vs, bv) <- for_range 0 N (fun i (st : list T * list T) =>
          let '(vs, bv) := st in
          b <- get rs i ;; e <- get rs (S i) ;;
          if (e <? b) || (length ci <? e) then UB
          else
            bv <- schur_row i (slice b (e - b)%nat ci) bv ;;
            vs <- schur_store rs ci i bv vs ;;
            Ok (vs, bv)) (repeat jv (length ci), bv) ;;
        Ok (mkCS N N rs ci vs).
  End S.
End Schur.
