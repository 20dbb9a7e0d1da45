(** * EqModel: the matching kernel of the preprocessing (MC64).

    Models src/hif/pre/equilibrate.hpp ([kernel_], [kernel__], [kernel___], [cleanup],
    [kernel], [compute]).  The arrays are 1-based as in the code ([g1], [s1]); index 0 or an
    index past the end is [UB].  In the code [jperm], [out], [pr], [q], [l] are consecutive
    segments of one work array, so that e.g. [q[0]] is [pr[n]]: such an access is [UB] here.
    Costs are values of an arbitrary type with arbitrary comparisons (no laws: floating-point
    numbers with NaN included).  Integer overflow is not modelled. *)
From Coq Require Import List Arith ZArith Bool Lia.
From Verif Require Import Base.
Import ListNotations.

(** Arithmetic of [_Real]. *)
Record ROps := mkROps {
  RR : Type;
  rlt : RR -> RR -> bool; rle : RR -> RR -> bool; req : RR -> RR -> bool;
  rsub : RR -> RR -> RR; radd : RR -> RR -> RR;
  r0 : RR; rinf : RR }.

(** 1-based access ([--q;] at the start of each routine). *)
Definition g1 {A} (l : list A) (i : nat) : res A := match i with 0 => UB | S k => get l k end.
Definition s1 {A} (l : list A) (i : nat) (v : A) : res (list A) := match i with 0 => UB | S k => set l k v end.

(** [for (i = 1; i <= n; ++i) { ... if (...) break; ... }] where the body does not use [i];
    the body answers whether to go on. *)
Fixpoint loop {S} (n : nat) (f : S -> res (bool * S)) (s : S) : res S :=
  match n with
  | 0 => Ok s
  | Datatypes.S n => '(go, s) <- f s ;; if go then loop n f s else Ok s
  end.

(** [for (;;)]: running out of fuel is reported as [UB]. *)
Fixpoint forever {S} (fuel : nat) (f : S -> res (bool * S)) (s : S) : res S :=
  match fuel with
  | 0 => UB
  | Datatypes.S n => '(go, s) <- f s ;; if go then forever n f s else Ok s
  end.

Section Eq.
  Variable K : ROps.
  Notation R := (RR K).

  (** ** The heap: [q] positions to rows, [l] rows to positions, [d] keys (flag = false only;
      the code never passes true) *)

  (** Body of the upward loops, equilibrate.hpp:178-186, 288-297. *)
  Definition sift_up (d : list R) (dj : R) (s : list nat * list nat * nat) : res (bool * (list nat * list nat * nat)) :=
    let '(q, l, pos) := s in
    let pos_h := Nat.div2 pos in
    qk <- g1 q pos_h ;;
    dk <- g1 d qk ;;
    if rle K dk dj then Ok (false, (q, l, pos))
    else q <- s1 q pos qk ;; l <- s1 l qk pos ;; Ok (1 <? pos_h, (q, l, pos_h)).

  (** Body of the downward loops, equilibrate.hpp:229-244, 302-318. *)
  Definition sift_down (d : list R) (dj : R) (ql : nat) (s : list nat * list nat * nat) : res (bool * (list nat * list nat * nat)) :=
    let '(q, l, pos) := s in
    let pos2 := 2 * pos in
    if ql <? pos2 then Ok (false, s)
    else
      qa <- g1 q pos2 ;; dk <- g1 d qa ;;
      '(pos2, dk) <- (if pos2 <? ql then
          qb <- g1 q (S pos2) ;; dr <- g1 d qb ;;
          Ok (if rlt K dr dk then (S pos2, dr) else (pos2, dk))
        else Ok (pos2, dk)) ;;
      if rle K dj dk then Ok (false, (q, l, pos))
      else qk <- g1 q pos2 ;; q <- s1 q pos qk ;; l <- s1 l qk pos ;; Ok (true, (q, l, pos2)).

  (** [q[pos] = j; l[j] = pos]. *)
  Definition place (j : nat) (s : list nat * list nat * nat) : res (list nat * list nat) :=
    let '(q, l, pos) := s in
    q <- s1 q pos j ;; l <- s1 l j pos ;; Ok (q, l).

  (** [kernel_]: node [j] moves up, equilibrate.hpp:156-192. *)
  Definition heap_up (j n : nat) (q : list nat) (d : list R) (l : list nat) : res (list nat * list nat) :=
    pos <- g1 l j ;;
    s <- (if 1 <? pos then dj <- g1 d j ;; loop n (sift_up d dj) (q, l, pos) else Ok (q, l, pos)) ;;
    place j s.

  (** [kernel__]: remove the root, equilibrate.hpp:195-247. *)
  Definition heap_pop (ql n : nat) (q : list nat) (d : list R) (l : list nat) : res (list nat * list nat * nat) :=
    j <- g1 q ql ;; dj <- g1 d j ;;
    let ql := ql - 1 in
    s <- loop n (sift_down d dj ql) (q, l, 1) ;;
    '(q, l) <- place j s ;;
    Ok (q, l, ql).

  (** [kernel___]: remove the node at position [pos_in], equilibrate.hpp:250-323. *)
  Definition heap_del (pos_in qlen n : nat) (q : list nat) (d : list R) (l : list nat) : res (list nat * list nat * nat) :=
    if qlen =? pos_in then Ok (q, l, qlen - 1)
    else
      j <- g1 q qlen ;; dj <- g1 d j ;;
      let qlen := qlen - 1 in
      '(q, l, pos) <- (if 1 <? pos_in then loop n (sift_up d dj) (q, l, pos_in) else Ok (q, l, pos_in)) ;;
      '(q, l) <- place j (q, l, pos) ;;
      if negb (pos =? pos_in) then Ok (q, l, qlen)
      else
        s <- loop n (sift_down d dj qlen) (q, l, pos) ;;
        '(q, l) <- place j s ;;
        Ok (q, l, qlen).

  (** ** The kernel.  [ip], [irn], [a]: column starts, row indices, costs (1-based). *)
  Variable n : nat.
  Variables ip irn : list nat.
  Variable a : list R.

  (** Entries of column [j]: [for (k = ip[j]; k <= ip[j+1] - 1; ++k)]. *)
  Definition over_col {S} (j : nat) (f : nat -> S -> res S) (s : S) : res S :=
    b <- g1 ip j ;; e <- g1 ip (Datatypes.S j) ;; for_range b e f s.

  (** [a[k] - u[irn[k]]]. *)
  Definition reduced (u : list R) (k : nat) : res R := i <- g1 irn k ;; ak <- g1 a k ;; ui <- g1 u i ;; Ok (rsub K ak ui).

  (** Initialise [u], equilibrate.hpp:424-434; returns [u], [iperm], [l]. *)
  Definition init_u : res (list R * list nat * list nat) :=
    for_range 1 (S n) (fun j s =>
      over_col j (fun k '(u, iperm, l) =>
        i <- g1 irn k ;; ak <- g1 a k ;; ui <- g1 u i ;;
        if rlt K ui ak then Ok (u, iperm, l)
        else
          u <- s1 u i ak ;; iperm <- s1 iperm i j ;; l <- s1 l i k ;; Ok (u, iperm, l)) s)
      (repeat (rinf K) n, repeat 0 n, repeat 0 n).

  (** Cheap assignment, equilibrate.hpp:435-447; returns [iperm], [jperm], [num]. *)
  Definition cheap (iperm l : list nat) : res (list nat * list nat * nat) :=
    for_range 1 (S n) (fun i '(iperm, jperm, num) =>
      j <- g1 iperm i ;;
      if j =? 0 then Ok (iperm, jperm, num)
      else
        iperm <- s1 iperm i 0 ;;
        k <- g1 jperm j ;;
        if negb (k =? 0) then Ok (iperm, jperm, num)
        else
          b <- g1 ip j ;; e <- g1 ip (S j) ;;
          if (n / 10 <? e - b) && (50 <? n) then Ok (iperm, jperm, num)
          else
            iperm <- s1 iperm i j ;;
            li <- g1 l i ;;
            jperm <- s1 jperm j li ;;
            Ok (iperm, jperm, S num)) (iperm, repeat 0 n, 0).

  (** Matching state of the second phase; [pr] holds positions. *)
  Record ast := mkAst { a_iperm : list nat; a_jperm : list nat; a_pr : list nat; a_d : list R; a_num : nat }.

  (** Smallest reduced cost of column [j], unmatched rows preferred on ties,
      equilibrate.hpp:460-479; returns [vj], [i0], [k0]. *)
  Definition col_min (iperm : list nat) (u : list R) (b e : nat) : res (R * nat * nat) :=
    i0 <- g1 irn b ;; v0 <- reduced u b ;;
    for_range (S b) e (fun k '(vj, i0, k0) =>
      i <- g1 irn k ;; di <- reduced u k ;;
      if rlt K vj di then Ok (vj, i0, k0)
      else if rlt K di vj || req K di (rinf K) then Ok (di, i, k)
      else
        x <- g1 iperm i ;; y <- g1 iperm i0 ;;
        if negb (x =? 0) || (y =? 0) then Ok (vj, i0, k0)
        else Ok (di, i, k)) (v0, i0, b).

  (** Scan the rest of column [jj] (matched to the row of entry [k] of column [j]) for a free
      row, equilibrate.hpp:499-514; the answer says whether none was found. *)
  Definition try_steal (u : list R) (j k i jj kk1 kkend : nat) (s : ast) : res (bool * ast) :=
    '(_, going, s) <- loop (kkend - kk1) (fun '(kk, going, s) =>
      ii <- g1 irn kk ;;
      x <- g1 (a_iperm s) ii ;;
      if 0 <? x then Ok (true, (S kk, going, s))
      else
        r <- reduced u kk ;; dj <- g1 (a_d s) jj ;;
        if rle K r dj then
          jperm <- s1 (a_jperm s) jj kk ;;
          iperm <- s1 (a_iperm s) ii jj ;;
          pr <- s1 (a_pr s) jj (S kk) ;;
          jperm <- s1 jperm j k ;;
          iperm <- s1 iperm i j ;;
          pr <- s1 pr j (S k) ;;
          Ok (false, (kk, false, mkAst iperm jperm pr (a_d s) (S (a_num s))))
        else Ok (true, (S kk, going, s))) (kk1, true, s) ;;
    Ok (going, s).

  (** One unassigned column, equilibrate.hpp:455-519. *)
  Definition scan_col (u : list R) (j : nat) (s : ast) : res ast :=
    x <- g1 (a_jperm s) j ;;
    if negb (x =? 0) then Ok s
    else
      b <- g1 ip j ;; e <- g1 ip (S j) ;;
      if e <=? b then Ok s
      else
        '(vj, i0, k0) <- col_min (a_iperm s) u b e ;;
        d <- s1 (a_d s) j vj ;;
        let s := mkAst (a_iperm s) (a_jperm s) (a_pr s) d (a_num s) in
        y <- g1 (a_iperm s) i0 ;;
        if y =? 0 then
          jperm <- s1 (a_jperm s) j k0 ;;
          iperm <- s1 (a_iperm s) i0 j ;;
          pr <- s1 (a_pr s) j (S k0) ;;
          Ok (mkAst iperm jperm pr d (S (a_num s)))
        else
          '(_, s) <- loop (e - k0) (fun '(k, s) =>
            i <- g1 irn k ;;
            r <- reduced u k ;;
            if rlt K vj r then Ok (true, (S k, s))
            else
              jj <- g1 (a_iperm s) i ;;
              kk1 <- g1 (a_pr s) jj ;;
              kkend <- g1 ip (S jj) ;;
              if kkend <=? kk1 then Ok (true, (S k, s))
              else
                '(going, s) <- try_steal u j k i jj kk1 kkend s ;;
                if going then
                  pr <- s1 (a_pr s) jj kkend ;;
                  Ok (true, (S k, mkAst (a_iperm s) (a_jperm s) pr (a_d s) (a_num s)))
                else Ok (false, (k, s))) (k0, s) ;;
          Ok s.

  (** State of one shortest-path search.  [t_pr]: [None] is -1. *)
  Record sst := mkSst {
    t_q : list nat; t_l : list nat; t_out : list nat; t_pr : list (option nat); t_d : list R;
    t_dmin : R; t_csp : R; t_isp : nat; t_jsp : nat; t_qlen : nat; t_low : nat; t_up : nat }.

  (** Scan of the starting column [j], equilibrate.hpp:540-555: entries of matched rows go to
      [q] (as positions [k]), the best unmatched one to [isp]. *)
  Definition scan_first (iperm : list nat) (u : list R) (j : nat) (s : sst) : res sst :=
    over_col j (fun k s =>
      i <- g1 irn k ;; dnew <- reduced u k ;;
      if rle K (t_csp s) dnew then Ok s
      else
        x <- g1 iperm i ;;
        if x =? 0 then Ok (mkSst (t_q s) (t_l s) (t_out s) (t_pr s) (t_d s) (t_dmin s) dnew k j (t_qlen s) (t_low s) (t_up s))
        else
          let dmin := if rlt K dnew (t_dmin s) then dnew else t_dmin s in
          d <- s1 (t_d s) i dnew ;;
          q <- s1 (t_q s) (S (t_qlen s)) k ;;
          Ok (mkSst q (t_l s) (t_out s) (t_pr s) d dmin (t_csp s) (t_isp s) (t_jsp s) (S (t_qlen s)) (t_low s) (t_up s))) s.

  (** [out[jj] = k; pr[jj] = j] with [jj = iperm[i]]. *)
  Definition set_tree (iperm : list nat) (i k j : nat) (out : list nat) (pr : list (option nat)) : res (list nat * list (option nat)) :=
    jj <- g1 iperm i ;; out <- s1 out jj k ;; pr <- s1 pr jj (Some j) ;; Ok (out, pr).

  (** Build the heap from the positions left in [q], equilibrate.hpp:556-579.  The same array
      [q] is read at [kk] and written at both ends. *)
  Definition build_heap (iperm : list nat) (j : nat) (s : sst) : res sst :=
    let kkstop := t_qlen s in
    for_range 1 (S kkstop) (fun kk s =>
      k <- g1 (t_q s) kk ;;
      i <- g1 irn k ;;
      di <- g1 (t_d s) i ;;
      if rle K (t_csp s) di then
        d <- s1 (t_d s) i (rinf K) ;;
        Ok (mkSst (t_q s) (t_l s) (t_out s) (t_pr s) d (t_dmin s) (t_csp s) (t_isp s) (t_jsp s) (t_qlen s) (t_low s) (t_up s))
      else
        '(q, l, qlen, low) <- (if rle K di (t_dmin s) then
            let low := t_low s - 1 in
            q <- s1 (t_q s) low i ;; l <- s1 (t_l s) i low ;; Ok (q, l, t_qlen s, low)
          else
            l <- s1 (t_l s) i (S (t_qlen s)) ;;
            '(q, l) <- heap_up i n (t_q s) (t_d s) l ;; Ok (q, l, S (t_qlen s), t_low s)) ;;
        '(out, pr) <- set_tree iperm i k j (t_out s) (t_pr s) ;;
        Ok (mkSst q l out pr (t_d s) (t_dmin s) (t_csp s) (t_isp s) (t_jsp s) qlen low (t_up s)))
      (mkSst (t_q s) (t_l s) (t_out s) (t_pr s) (t_d s) (t_dmin s) (t_csp s) (t_isp s) (t_jsp s) 0 (t_low s) (t_up s)).

  (** Rows of smallest key go from the heap to the upper part of [q], equilibrate.hpp:583-597;
      the answer is whether the search goes on. *)
  Definition refill (s : sst) : res (bool * sst) :=
    if negb (t_low s =? t_up s) then Ok (true, s)
    else if t_qlen s =? 0 then Ok (false, s)
    else
      i <- g1 (t_q s) 1 ;; di <- g1 (t_d s) i ;;
      if rle K (t_csp s) di then Ok (false, s)
      else
        '(q, l, qlen, low, _) <- forever (S (t_qlen s)) (fun '(q, l, qlen, low, i) =>
          '(q, l, qlen) <- heap_pop qlen n q (t_d s) l ;;
          let low := low - 1 in
          q <- s1 q low i ;; l <- s1 l i low ;;
          if qlen =? 0 then Ok (false, (q, l, qlen, low, i))
          else
            i <- g1 q 1 ;; dj <- g1 (t_d s) i ;;
            Ok (negb (rlt K di dj), (q, l, qlen, low, i))) (t_q s, t_l s, t_qlen s, t_low s, i) ;;
        Ok (true, mkSst q l (t_out s) (t_pr s) (t_d s) di (t_csp s) (t_isp s) (t_jsp s) qlen low (t_up s)).

  (** Scan of the column [j] matched to the row taken out, equilibrate.hpp:607-644. *)
  Definition scan_next (iperm : list nat) (u : list R) (j : nat) (vj : R) (s : sst) : res sst :=
    over_col j (fun k s =>
      i <- g1 irn k ;;
      li <- g1 (t_l s) i ;;
      if t_up s <=? li then Ok s
      else
        ak <- g1 a k ;; ui <- g1 u i ;;
        let dnew := rsub K (radd K vj ak) ui in
        if rle K (t_csp s) dnew then Ok s
        else
          x <- g1 iperm i ;;
          if x =? 0 then Ok (mkSst (t_q s) (t_l s) (t_out s) (t_pr s) (t_d s) (t_dmin s) dnew k j (t_qlen s) (t_low s) (t_up s))
          else
            di <- g1 (t_d s) i ;;
            if rle K di dnew then Ok s
            else if t_low s <=? li then Ok s
            else
              d <- s1 (t_d s) i dnew ;;
              '(q, l, qlen, low) <- (if rle K dnew (t_dmin s) then
                  '(q, l, qlen) <- (if negb (li =? 0) then heap_del li (t_qlen s) n (t_q s) d (t_l s)
                    else Ok (t_q s, t_l s, t_qlen s)) ;;
                  let low := t_low s - 1 in
                  q <- s1 q low i ;; l <- s1 l i low ;; Ok (q, l, qlen, low)
                else
                  '(l, qlen) <- (if li =? 0 then l <- s1 (t_l s) i (S (t_qlen s)) ;; Ok (l, S (t_qlen s))
                    else Ok (t_l s, t_qlen s)) ;;
                  '(q, l) <- heap_up i n (t_q s) d l ;;
                  Ok (q, l, qlen, t_low s)) ;;
              '(out, pr) <- set_tree iperm i k j (t_out s) (t_pr s) ;;
              Ok (mkSst q l out pr d (t_dmin s) (t_csp s) (t_isp s) (t_jsp s) qlen low (t_up s))) s.

  (** One step of the search, equilibrate.hpp:582-645. *)
  Definition search_step (iperm jperm : list nat) (u : list R) (s : sst) : res (bool * sst) :=
    '(go, s) <- refill s ;;
    if negb go then Ok (false, s)
    else
      q0 <- g1 (t_q s) (t_up s - 1) ;;
      dq0 <- g1 (t_d s) q0 ;;
      if rle K (t_csp s) dq0 then Ok (false, s)
      else
        let s := mkSst (t_q s) (t_l s) (t_out s) (t_pr s) (t_d s) (t_dmin s) (t_csp s) (t_isp s) (t_jsp s) (t_qlen s) (t_low s) (t_up s - 1) in
        j <- g1 iperm q0 ;;
        kj <- g1 jperm j ;; akj <- g1 a kj ;; uq <- g1 u q0 ;;
        s <- scan_next iperm u j (radd K (rsub K dq0 akj) uq) s ;;
        Ok (true, s).

  (** Trace the augmenting path back, equilibrate.hpp:650-666. *)
  Definition augment (num : nat) (s : sst) (iperm jperm : list nat) : res (list nat * list nat) :=
    i <- g1 irn (t_isp s) ;;
    iperm <- s1 iperm i (t_jsp s) ;;
    jperm <- s1 jperm (t_jsp s) (t_isp s) ;;
    '(iperm, jperm, _) <- loop num (fun '(iperm, jperm, j) =>
      jj <- g1 (t_pr s) j ;;
      match jj with
      | None => Ok (false, (iperm, jperm, j))
      | Some jj =>
        k <- g1 (t_out s) j ;;
        i <- g1 irn k ;;
        iperm <- s1 iperm i jj ;;
        jperm <- s1 jperm jj k ;;
        Ok (true, (iperm, jperm, jj))
      end) (iperm, jperm, t_jsp s) ;;
    Ok (iperm, jperm).

  (** State kept between searches. *)
  Record mst := mkMst {
    m_iperm : list nat; m_jperm : list nat; m_num : nat; m_u : list R;
    m_q : list nat; m_l : list nat; m_out : list nat; m_pr : list (option nat); m_d : list R; m_isp : nat; m_jsp : nat }.

  (** Clear [d] and [l] for the rows at positions [b..e-1] of [q]. *)
  Definition clear_rows (b e : nat) (q : list nat) (dl : list R * list nat) : res (list R * list nat) :=
    for_range b e (fun kk '(d, l) => i <- g1 q kk ;; d <- s1 d i (rinf K) ;; l <- s1 l i 0 ;; Ok (d, l)) dl.

  (** One pass of the main loop, equilibrate.hpp:529-684. *)
  Definition main_step (jord : nat) (s : mst) : res mst :=
    x <- g1 (m_jperm s) jord ;;
    if negb (x =? 0) then Ok s
    else
      pr <- s1 (m_pr s) jord None ;;
      let t := mkSst (m_q s) (m_l s) (m_out s) pr (m_d s) (rinf K) (rinf K) (m_isp s) (m_jsp s) 0 (S n) (S n) in
      t <- scan_first (m_iperm s) (m_u s) jord t ;;
      t <- build_heap (m_iperm s) jord t ;;
      t <- loop (m_num s) (search_step (m_iperm s) (m_jperm s) (m_u s)) t ;;
      '(iperm, jperm, num, u) <- (if negb (req K (t_csp t) (rinf K)) then
          '(iperm, jperm) <- augment (S (m_num s)) t (m_iperm s) (m_jperm s) ;;
          u <- for_range (t_up t) (S n) (fun kk u =>
            i <- g1 (t_q t) kk ;; ui <- g1 u i ;; di <- g1 (t_d t) i ;;
            s1 u i (rsub K (radd K ui di) (t_csp t))) (m_u s) ;;
          Ok (iperm, jperm, S (m_num s), u)
        else Ok (m_iperm s, m_jperm s, m_num s, m_u s)) ;;
      '(d, l) <- clear_rows (t_low t) (S n) (t_q t) (t_d t, t_l t) ;;
      '(d, l) <- clear_rows 1 (S (t_qlen t)) (t_q t) (d, l) ;;
      Ok (mkMst iperm jperm num u (t_q t) l (t_out t) (t_pr t) d (t_isp t) (t_jsp t)).

  (** [cleanup], equilibrate.hpp:327-363: dual variables and, for an incomplete matching,
      completion of [iperm] by negative entries.  Returns [iperm], [u], [d]. *)
  Definition cleanup (num : nat) (iperm jperm out : list nat) (u d : list R) : res (list Z * list R * list R) :=
    '(u, d) <- for_range 1 (S n) (fun j '(u, d) =>
      k <- g1 jperm j ;;
      dj <- (if negb (k =? 0) then reduced u k else Ok (r0 K)) ;;
      d <- s1 d j dj ;;
      x <- g1 iperm j ;;
      u <- (if x =? 0 then s1 u j (r0 K) else Ok u) ;;
      Ok (u, d)) (u, d) ;;
    if num =? n then Ok (map Z.of_nat iperm, u, d)
    else
      jperm <- for_range 1 (S n) (fun j jperm => s1 jperm j 0) jperm ;;
      '(jperm, out, _) <- for_range 1 (S n) (fun i '(jperm, out, k) =>
        x <- g1 iperm i ;;
        if x =? 0 then (out <- s1 out (S k) i ;; Ok (jperm, out, S k))
        else (jperm <- s1 jperm x i ;; Ok (jperm, out, k))) (jperm, out, 0) ;;
      '(perm, _) <- for_range 1 (S n) (fun j '(perm, k) =>
        x <- g1 jperm j ;;
        if negb (x =? 0) then Ok (perm, k)
        else
          o <- g1 out (S k) ;;
          perm <- s1 perm o (- Z.of_nat j)%Z ;;
          Ok (perm, S k)) (map Z.of_nat iperm, 0) ;;
      Ok (perm, u, d).

  (** [kernel], equilibrate.hpp:366-688; [jo], [jq]: uninitialised contents of [out] and [q].
      Returns [iperm], [num], [u], [d]. *)
  Definition kernel (jo jq : list nat) : res (list Z * nat * list R * list R) :=
    let d := repeat (r0 K) n in
    '(u, iperm, l) <- init_u ;;
    '(iperm, jperm, num) <- cheap iperm l ;;
    if num =? n then ('(p, u, d) <- cleanup num iperm jperm jo u d ;; Ok (p, num, u, d))
    else
      let s := mkAst iperm jperm (firstn n ip) d num in
      s <- for_range 1 (S n) (scan_col u) s ;;
      if a_num s =? n then ('(p, u, d) <- cleanup (a_num s) (a_iperm s) (a_jperm s) jo u (a_d s) ;; Ok (p, a_num s, u, d))
      else
        m <- for_range 1 (S n) main_step
          (mkMst (a_iperm s) (a_jperm s) (a_num s) u jq (repeat 0 n) jo (map Some (a_pr s)) (repeat (rinf K) n) 0 0) ;;
        '(p, u, d) <- cleanup (m_num m) (m_iperm m) (m_jperm m) (m_out m) (m_u m) (m_d m) ;;
        Ok (p, m_num m, u, d).
End Eq.

Section Compute.
  Variable K : ROps.
  Variable V : Type.
  (** [std::abs] of a value, [std::log], [rinf / n], [std::log(rinf) * .5]. *)
  Variable rabs : V -> RR K.
  Variable rlog : RR K -> RR K.
  Variable rbig : nat -> RR K.
  Variable rhuge : RR K.
  Notation R := (RR K).

  (** The costs, equilibrate.hpp:108-124: [log(max of the column) - log |v|], [rinf / n] for
      zero values.  Returns the array of column maxima and the costs. *)
  Definition costs (n : nat) (ip : list nat) (vals : list V) (mx c : list R) : res (list R * list R) :=
    for_range 1 (S n) (fun j '(mx, c) =>
      '(fact, c) <- over_col ip j (fun k '(fact, c) =>
        v <- g1 vals k ;;
        let w := rabs v in
        c <- s1 c k w ;;
        Ok (if rlt K fact w then w else fact, c)) (r0 K, c) ;;
      mx <- s1 mx j fact ;;
      let fact := if negb (req K fact (r0 K)) then rlog fact else rbig n in
      c <- over_col ip j (fun k c =>
        w <- g1 c k ;;
        s1 c k (if negb (req K w (r0 K)) then rsub K fact (rlog w) else rbig n)) c ;;
      Ok (mx, c)) (mx, c).

  (** Outcome of [compute]: a negative flag (nothing computed), or the flag (0, 1: structurally
      singular, 2: overflow), the permutation and the two halves of the scaling (logarithms). *)
  Inductive eqres := Bad | Good (info : nat) (perm : list Z) (u d : list R).

  (** [compute], equilibrate.hpp:67-151, for work arrays of the sizes of [_init] and the
      settings of [Equilibrator::compute] without HIF_DEBUG (no check of the input).
      [nnz]: number of stored entries.  [junk...]: uninitialised work arrays. *)
  Definition compute (n nnz : nat) (ip irn : list nat) (vals : list V) (jo jq : list nat) (jmx jc : list R) : res eqres :=
    if n <? 1 then Ok Bad
    else if nnz <? 1 then Ok Bad
    else
      '(mx, c) <- costs n ip vals jmx jc ;;
      '(perm, num, u, d) <- kernel K n ip irn c jo jq ;;
      d <- (if num =? n then
          for_range 1 (S n) (fun j d =>
            m <- g1 mx j ;; dj <- g1 d j ;;
            s1 d j (if negb (req K m (r0 K)) then rsub K dj (rlog m) else r0 K)) d
        else Ok d) ;;
      over <- for_range 1 (S n) (fun j over =>
        x <- g1 u j ;; y <- g1 d j ;;
        Ok (over || negb (rlt K x rhuge && rlt K y rhuge))) false ;;
      let info := if over then 2 else if num <? n then 1 else 0 in
      Ok (Good info perm u d).
End Compute.

(** The arithmetic used by the examples: integers and infinity ([None]); [HUGE_VAL / n] and
    [log(HUGE_VAL) / 2] are infinity. *)
Definition zlt (a b : option Z) : bool := match a, b with Some x, Some y => (x <? y)%Z | Some _, None => true | None, _ => false end.
Definition zle (a b : option Z) : bool := match a, b with Some x, Some y => (x <=? y)%Z | _, None => true | None, Some _ => false end.
Definition zeq (a b : option Z) : bool := match a, b with Some x, Some y => (x =? y)%Z | None, None => true | _, _ => false end.
Definition zop (f : Z -> Z -> Z) (a b : option Z) : option Z := match a, b with Some x, Some y => Some (f x y) | _, _ => None end.
Definition KZ : ROps := mkROps (option Z) zlt zle zeq (zop Z.sub) (zop Z.add) (Some 0%Z) None.
Definition compute_z (n : nat) (ip irn : list nat) (vals : list Z) (junk : nat) : res (eqres KZ) :=
  compute KZ Z (fun v => Some (Z.abs v)) (option_map Z.log2) (fun _ => None) None n (length vals) ip irn vals
    (repeat junk n) (repeat junk n) (repeat None n) (repeat None (length vals)).
