(** * RcmModel: reverse Cuthill-McKee ordering.

    Models src/hif/pre/rcm.hpp (f2c style code: arrays are addressed from 1 through
    decremented pointers, nodes are numbered 1..n, visited nodes are marked in
    [degree_] by negating their start offset) and [run_rcm] of
    src/hif/pre/reordering.hpp.

    Simplifications: integers do not overflow; [for(;;)] loops carry a step bound,
    running out of it is [UB]. *)
From Coq Require Import List Arith Lia Bool ZArith.
From Verif Require Import Base Scalar CSModel.
Import ListNotations.

(** [a[i]] with [--a] applied before: element [i-1]. *)
Definition get1 {X} (a : list X) (i : nat) : res X := match i with 0 => UB | S k => get a k end.
Definition set1 {X} (a : list X) (i : nat) (v : X) : res (list X) := match i with 0 => UB | S k => set a k v end.

(** A start offset used as an index. *)
Definition idx (z : Z) : res nat := if (z <? 0)%Z then UB else Ok (Z.to_nat z).

Section Rcm.
  (** [xadj] is a parameter where it is only read; [adj] is [adjncy]. *)
  Variable adj : list nat.

  (** [for (j = xadj[node]; j <= xadj[node+1]-1; ++j) { nbr = adjncy[j]; ... }]. *)
  Definition neighbors {S} (xadj : list Z) (node : nat) (f : nat -> S -> res S) (s : S) : res S :=
    b <- get1 xadj node ;; b <- idx b ;;
    e <- get1 xadj (node + 1) ;; e <- idx e ;;
    for_range b e (fun j s => nbr <- get1 adj j ;; f nbr s) s.

  (** Level loop of [rootls_], rcm.hpp:69-91. *)
  Fixpoint rootls_loop (fuel : nat) (xadj : list Z) (off lvlend ccsize nlvl : nat)
    (mask : list bool) (xls perm : list nat) : res (nat * nat * nat * list bool * list nat * list nat) :=
    match fuel with
    | 0 => UB
    | S f =>
      let lbegin := lvlend + 1 in
      let lvlend := ccsize in
      let nlvl := nlvl + 1 in
      xls <- set1 xls nlvl lbegin ;;
      '(ccsize, mask, perm) <-
        for_range lbegin (lvlend + 1) (fun i (s : nat * list bool * list nat) =>
          let '(ccsize, mask, perm) := s in
          node <- get1 perm (off + i) ;;
          neighbors xadj node (fun nbr (s : nat * list bool * list nat) =>
            let '(ccsize, mask, perm) := s in
            m <- get mask nbr ;;
            if negb m then Ok (ccsize, mask, perm)
            else
              let ccsize := ccsize + 1 in
              perm <- set1 perm (off + ccsize) nbr ;;
              mask <- set mask nbr false ;;
              Ok (ccsize, mask, perm)) (ccsize, mask, perm)) (ccsize, mask, perm) ;;
      if 0 <? ccsize - lvlend then rootls_loop f xadj off lvlend ccsize nlvl mask xls perm
      else Ok (lvlend, ccsize, nlvl, mask, xls, perm)
    end.

  (** [rootls_(root, ...)] with [ls = &perm[off+1]], rcm.hpp:56-99. *)
  Definition rootls (root : nat) (xadj : list Z) (off : nat) (mask : list bool) (xls perm : list nat)
    : res (nat * list bool * list nat * list nat) :=
    mask <- set mask root false ;;
    perm <- set1 perm (off + 1) root ;;
    '(lvlend, ccsize, nlvl, mask, xls, perm) <-
      rootls_loop (S (length perm)) xadj off 0 1 0 mask xls perm ;;
    xls <- set1 xls (nlvl + 1) (lvlend + 1) ;;
    mask <- for_range 1 (ccsize + 1) (fun i mask =>
      node <- get1 perm (off + i) ;; set mask node true) mask ;;
    Ok (nlvl, mask, xls, perm).

  (** Search loop of [fnroot_], rcm.hpp:113-138. *)
  Fixpoint fnroot_loop (fuel : nat) (xadj : list Z) (off ccsize root nlvl : nat)
    (mask : list bool) (xls perm : list nat) : res (nat * list bool * list nat * list nat) :=
    match fuel with
    | 0 => UB
    | S f =>
      jstrt <- get1 xls nlvl ;;
      r0 <- get1 perm (off + jstrt) ;;
      '(root, _) <- (if ccsize =? jstrt then Ok (r0, ccsize)
        else for_range jstrt (ccsize + 1) (fun j (s : nat * nat) =>
          let '(root, mindeg) := s in
          node <- get1 perm (off + j) ;;
          ndeg <- neighbors xadj node (fun nbr ndeg =>
            m <- get mask nbr ;; Ok (if m then ndeg + 1 else ndeg)) 0 ;;
          if mindeg <=? ndeg then Ok (root, mindeg) else Ok (node, ndeg)) (r0, ccsize)) ;;
      '(nunlvl, mask, xls, perm) <- rootls root xadj off mask xls perm ;;
      if nunlvl <=? nlvl then Ok (root, mask, xls, perm)
      else if nunlvl <? ccsize then fnroot_loop f xadj off ccsize root nunlvl mask xls perm
      else Ok (root, mask, xls, perm)
    end.

  (** [fnroot_(&root, ...)], rcm.hpp:102-140. *)
  Definition fnroot (root : nat) (xadj : list Z) (off : nat) (mask : list bool) (xls perm : list nat)
    : res (nat * list bool * list nat * list nat) :=
    '(nlvl, mask, xls, perm) <- rootls root xadj off mask xls perm ;;
    c <- get1 xls (nlvl + 1) ;;
    let ccsize := c - 1 in
    if (nlvl =? 1) || (nlvl =? ccsize) then Ok (root, mask, xls, perm)
    else fnroot_loop (S (length perm)) xadj off ccsize root nlvl mask xls perm.

  (** Level loop of [degree_], rcm.hpp:155-181. *)
  Fixpoint degree_loop (fuel : nat) (off lvlend ccsize : nat) (mask : list bool)
    (xadj : list Z) (deg perm : list nat) : res (nat * list Z * list nat * list nat) :=
    match fuel with
    | 0 => UB
    | S f =>
      let lbegin := lvlend + 1 in
      let lvlend := ccsize in
      '(ccsize, xadj, deg, perm) <-
        for_range lbegin (lvlend + 1) (fun i (s : nat * list Z * list nat * list nat) =>
          let '(ccsize, xadj, deg, perm) := s in
          node <- get1 perm (off + i) ;;
          b <- get1 xadj node ;; b <- idx (- b) ;;
          e <- get1 xadj (node + 1) ;;
          let e := Z.to_nat (Z.abs e) in
          '(ccsize, xadj, perm, ideg) <-
            for_range b e (fun j (s : nat * list Z * list nat * nat) =>
              let '(ccsize, xadj, perm, ideg) := s in
              nbr <- get1 adj j ;;
              m <- get mask nbr ;;
              if negb m then Ok (ccsize, xadj, perm, ideg)
              else
                let ideg := ideg + 1 in
                x <- get1 xadj nbr ;;
                if (x <? 0)%Z then Ok (ccsize, xadj, perm, ideg)
                else
                  xadj <- set1 xadj nbr (- x)%Z ;;
                  let ccsize := ccsize + 1 in
                  perm <- set1 perm (off + ccsize) nbr ;;
                  Ok (ccsize, xadj, perm, ideg)) (ccsize, xadj, perm, 0) ;;
          deg <- set1 deg node ideg ;;
          Ok (ccsize, xadj, deg, perm)) (ccsize, xadj, deg, perm) ;;
      if 0 <? ccsize - lvlend then degree_loop f off lvlend ccsize mask xadj deg perm
      else Ok (ccsize, xadj, deg, perm)
    end.

  (** [degree_(root, ...)], rcm.hpp:142-188. *)
  Definition degree (root : nat) (off : nat) (mask : list bool) (xadj : list Z) (deg perm : list nat)
    : res (nat * list Z * list nat * list nat) :=
    perm <- set1 perm (off + 1) root ;;
    x <- get1 xadj root ;;
    xadj <- set1 xadj root (- x)%Z ;;
    '(ccsize, xadj, deg, perm) <- degree_loop (S (length perm)) off 0 1 mask xadj deg perm ;;
    xadj <- for_range 1 (ccsize + 1) (fun i xadj =>
      node <- get1 perm (off + i) ;;
      x <- get1 xadj node ;; set1 xadj node (- x)%Z) xadj ;;
    Ok (ccsize, xadj, deg, perm).

  (** Inner loop of the insertion sort, rcm.hpp:228-234: [l] runs down. *)
  Fixpoint insert_down (off fnbr nbr : nat) (deg : list nat) (l : nat) (perm : list nat)
    : res (nat * list nat) :=
    if l <? fnbr then Ok (l, perm)
    else
      match l with
      | 0 => UB
      | S l' =>
        lperm <- get1 perm (off + l) ;;
        a <- get1 deg lperm ;; b <- get1 deg nbr ;;
        if a <=? b then Ok (l, perm)
        else
          perm <- set1 perm (off + (l + 1)) lperm ;;
          insert_down off fnbr nbr deg l' perm
      end.

  (** Sorting the new neighbours [fnbr..lnbr] by degree, rcm.hpp:222-238. *)
  Definition sort_new (off fnbr lnbr : nat) (deg : list nat) (perm : list nat) : res (list nat) :=
    for_range fnbr lnbr (fun l perm =>
      nbr <- get1 perm (off + (l + 1)) ;;
      '(l, perm) <- insert_down off fnbr nbr deg l perm ;;
      set1 perm (off + (l + 1)) nbr) perm.

  (** Numbering loop of [rcm_], rcm.hpp:206-242. *)
  Fixpoint rcm_loop (fuel : nat) (xadj : list Z) (off lvlend lnbr : nat) (deg : list nat)
    (mask : list bool) (perm : list nat) : res (list bool * list nat) :=
    match fuel with
    | 0 => UB
    | S f =>
      let lbegin := lvlend + 1 in
      let lvlend := lnbr in
      '(lnbr, mask, perm) <-
        for_range lbegin (lvlend + 1) (fun i (s : nat * list bool * list nat) =>
          let '(lnbr, mask, perm) := s in
          node <- get1 perm (off + i) ;;
          let fnbr := lnbr + 1 in
          '(lnbr, mask, perm) <- neighbors xadj node (fun nbr (s : nat * list bool * list nat) =>
            let '(lnbr, mask, perm) := s in
            m <- get mask nbr ;;
            if negb m then Ok (lnbr, mask, perm)
            else
              let lnbr := lnbr + 1 in
              mask <- set mask nbr false ;;
              perm <- set1 perm (off + lnbr) nbr ;;
              Ok (lnbr, mask, perm)) (lnbr, mask, perm) ;;
          perm <- (if lnbr <=? fnbr then Ok perm else sort_new off fnbr lnbr deg perm) ;;
          Ok (lnbr, mask, perm)) (lnbr, mask, perm) ;;
      if lvlend <? lnbr then rcm_loop f xadj off lvlend lnbr deg mask perm
      else Ok (mask, perm)
    end.

  (** Reversal, rcm.hpp:243-251. *)
  Definition reverse_part (off ccsize : nat) (perm : list nat) : res (list nat) :=
    for_range 1 (ccsize / 2 + 1) (fun i perm =>
      let l := ccsize + 1 - i in
      lperm <- get1 perm (off + l) ;;
      x <- get1 perm (off + i) ;;
      perm <- set1 perm (off + l) x ;;
      set1 perm (off + i) lperm) perm.

  (** [rcm_(root, ...)], rcm.hpp:191-253. *)
  Definition rcm (root : nat) (off : nat) (xadj : list Z) (mask : list bool) (deg perm : list nat)
    : res (nat * list Z * list bool * list nat * list nat) :=
    '(ccsize, xadj, deg, perm) <- degree root off mask xadj deg perm ;;
    mask <- set mask root false ;;
    if ccsize <=? 1 then Ok (ccsize, xadj, mask, deg, perm)
    else
      '(mask, perm) <- rcm_loop (S (length perm)) xadj off 0 1 deg mask perm ;;
      perm <- reverse_part off ccsize perm ;;
      Ok (ccsize, xadj, mask, deg, perm).

  (** Loop of [genrcm_], rcm.hpp:268-275; [off] is [num-1]; [cnt] iterations left. *)
  Fixpoint gen_loop (cnt i n off : nat) (xadj : list Z) (mask : list bool) (xls perm : list nat)
    : res (list Z * list nat) :=
    match cnt with
    | 0 => Ok (xadj, perm)
    | S c =>
      m <- get mask i ;;
      if negb m then gen_loop c (S i) n off xadj mask xls perm
      else
        '(root, mask, xls, perm) <- fnroot i xadj off mask xls perm ;;
        '(ccsize, xadj, mask, xls, perm) <- rcm root off xadj mask xls perm ;;
        let off := off + ccsize in
        if n <? off + 1 then Ok (xadj, perm)
        else gen_loop c (S i) n off xadj mask xls perm
    end.

  (** [genrcm_], rcm.hpp:255-277, with the workspace of [RCM::apply], 296-315
      ([_mask], [_xls] of length n+1). *)
  Definition genrcm (n : nat) (xadj : list Z) (perm : list nat) : res (list Z * list nat) :=
    mask <- for_range 1 (n + 1) (fun i mask => set mask i true) (repeat false (n + 1)) ;;
    gen_loop n 1 n 0 xadj mask (repeat 0 (n + 1)) perm.
End Rcm.

(** [run_rcm(B, opt)], reordering.hpp:113-136.  [P] starts uninitialised ([p0]).
    Returns the ordering and the start array of [B] as it is left behind (the
    function writes through a [const_cast]). *)
Definition run_rcm {O : Ops} (B : CS O) (p0 : list nat) : res (list nat * list Z) :=
  let n := ssize B in
  let xadj := map (fun v => Z.of_nat (S v)) (ind_start B) in
  let adj := map S (indices B) in
  '(xadj, P) <- (if n =? 0 then Ok (xadj, p0) else genrcm adj n xadj p0) ;;
  Ok (map (fun v => v - 1) P, xadj).
