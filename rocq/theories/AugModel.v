(** * AugModel: augmented compressed storage (column lists next to a row storage).

    Models src/hif/ds/AugmentedStorage.hpp: [AugmentedCore] (62-364) and [AugCRS]
    (373-751).  [AugCCS] (760-1129) is the same text with rows and columns
    exchanged, so the model speaks of "primary" (row of AugCRS, column of AugCCS)
    and "secondary" (column of AugCRS, row of AugCCS).

    Simplifications: the handle [_NIL] (largest integer) is [None]; memory handed
    out by [resize] is filled with 0 / [None] (every such cell is written before it
    is read); [hif_assert] is not modelled; the walk and the two list loops carry
    a step bound, running out of it is [UB]. *)
From Coq Require Import List Arith Lia Bool.
From Verif Require Import Base Scalar CSModel ConvModel PruneModel.
Import ListNotations.

(** Members of [AugmentedCore] (352-358) next to the compressed storage. *)
Record aug (O : Ops) : Type := mkAug {
  a_cs : CS O;
  a_inds : list nat;
  a_start : list (option nat);
  a_next : list (option nat);
  a_end : list (option nat);
  a_vp : list nat;
  a_vpi : list nat;
  a_cnt : list nat
}.
Arguments mkAug {O}. Arguments a_cs {O}. Arguments a_inds {O}. Arguments a_start {O}.
Arguments a_next {O}. Arguments a_end {O}. Arguments a_vp {O}. Arguments a_vpi {O}.
Arguments a_cnt {O}.

(** [std::swap(a[p], a[q])]. *)
Definition swap_at {X} (a : list X) (p q : nat) : res (list X) :=
  x <- get a p ;; y <- get a q ;;
  a <- set a p y ;; set a q x.

(** [_push_back_nodes(entry, first, last)], 181-212.  State: node indices, heads,
    next, tails, value positions, inverse, counts. *)
Definition push_nodes (entry : nat) (l : list nat)
  (s : list nat * list (option nat) * list (option nat) * list (option nat) * list nat * list nat * list nat)
  : res (list nat * list (option nat) * list (option nat) * list (option nat) * list nat * list nat * list nat) :=
  let '(inds, hd, nx, tl, vp, vpi, cnt) := s in
  let start := length inds in
  let n := start + length l in
  let inds := inds ++ repeat entry (length l) in
  let vp := firstn n (vp ++ repeat 0 (n - length vp)) in
  let nx := firstn n (nx ++ repeat None (n - length nx)) in
  let vpi := firstn n (vpi ++ repeat 0 (n - length vpi)) in
  '(_, hd, nx, tl, vp, vpi, cnt) <-
    for_list l (fun j (s : nat * list (option nat) * list (option nat) * list (option nat)
                          * list nat * list nat * list nat) =>
      let '(i, hd, nx, tl, vp, vpi, cnt) := s in
      vp <- set vp i i ;;
      vpi <- set vpi i i ;;
      nx <- set nx i None ;;
      e <- get tl j ;;
      nx <- match e with None => Ok nx | Some x => set nx x (Some i) end ;;
      tl <- set tl j (Some i) ;;
      h <- get hd j ;;
      hd <- match h with None => set hd j (Some i) | Some _ => Ok hd end ;;
      c <- get cnt j ;;
      cnt <- set cnt j (S c) ;;
      Ok (S i, hd, nx, tl, vp, vpi, cnt)) (start, hd, nx, tl, vp, vpi, cnt) ;;
  Ok (inds, hd, nx, tl, vp, vpi, cnt).

(** [_swap_val_pos_exp(p1, p2)], 241-250. *)
Definition swap_val_pos (p1 p2 : nat) (vp vpi : list nat) : res (list nat * list nat) :=
  a <- get vpi p1 ;; b <- get vpi p2 ;;
  vp <- swap_at vp a b ;;
  vpi <- swap_at vpi p1 p2 ;;
  Ok (vp, vpi).

(** Shared tail of the two rotations: [_val_pos[_val_pos_inv[start+i]] = start+i]. *)
Definition renumber (start n : nat) (vp vpi : list nat) : res (list nat) :=
  for_range 0 n (fun i vp => x <- get vpi (start + i) ;; set vp x (i + start)) vp.

(** [_rotate_val_pos_left(n, src)], 260-275. *)
Definition rotate_vp_left (n src : nat) (vp vpi : list nat) : res (list nat * list nat) :=
  vpi <- rotate_left n src vpi ;;
  vp <- renumber src n vp vpi ;;
  Ok (vp, vpi).

(** [_rotate_val_pos_right(n, src)], 285-303. *)
Definition rotate_vp_right (n src : nat) (vp vpi : list nat) : res (list nat * list nat) :=
  vpi <- rotate_right n src vpi ;;
  vp <- renumber (src + 1 - n) n vp vpi ;;
  Ok (vp, vpi).

(** The storage arrays that the column operations move: indices, values, value
    positions and their inverse. *)
Record cells (X : Type) : Type := mkCells {
  c_ind : list nat; c_val : list X; c_vp : list nat; c_vpi : list nat }.
Arguments mkCells {X}. Arguments c_ind {X}. Arguments c_val {X}. Arguments c_vp {X}. Arguments c_vpi {X}.

Section Aug.
  Variable O : Ops.
  Notation T := (T O).

  (** [begin_assemble_rows()], 712-715 with [_begin_assemble_nodes], 158-173. *)
  Definition aug_begin (A : CS O) : aug O :=
    mkAug (begin_assemble O A) [] (repeat None (ssize A)) [] (repeat None (ssize A)) [] []
      (repeat 0 (ssize A)).

  Definition with_nodes (A : CS O) (entry : nat) (ls : list (list nat)) (s : aug O) : res (aug O) :=
    '(inds, hd, nx, tl, vp, vpi, cnt) <-
      for_list ls (push_nodes entry)
        (a_inds s, a_start s, a_next s, a_end s, a_vp s, a_vpi s, a_cnt s) ;;
    Ok (mkAug A inds hd nx tl vp vpi cnt).

  (** The [push_back_row] overloads, 725-750, and [push_back_empty_row] inherited
      from the compressed storage (CompressedStorage.hpp:998-1002). *)
  Definition aug_push (row : nat) (p : push O) (s : aug O) : res (aug O) :=
    A <- push_step O p (a_cs s) ;;
    match p with
    | PushEmpty _ => with_nodes A row [] s
    | Push _ l _ => with_nodes A row [l] s
    | Push2 _ l1 _ l2 _ => with_nodes A row [l1; l2] s
    end.

  (** [_build_aug], 324-342: nodes for a finished storage. *)
  Definition build_aug (A : CS O) : res (aug O) :=
    let s0 := mkAug A [] (repeat None (ssize A)) [] (repeat None (ssize A)) [] [] (repeat 0 (ssize A)) in
    '(inds, hd, nx, tl, vp, vpi, cnt) <-
      for_range 0 (length (ind_start A) - 1) (fun i s =>
        b <- get (ind_start A) i ;; e <- get (ind_start A) (S i) ;;
        if (e <? b) || (length (indices A) <? e) then UB
        else push_nodes i (slice b (e - b) (indices A)) s)
        (a_inds s0, a_start s0, a_next s0, a_end s0, a_vp s0, a_vpi s0, a_cnt s0) ;;
    Ok (mkAug A inds hd nx tl vp vpi cnt).

  (** Both columns have the row: 558-566. *)
  Definition swap_cells (iv kv : nat) (c : cells T) : res (cells T) :=
    v <- swap_at (c_val c) iv kv ;;
    '(vp, vpi) <- swap_val_pos iv kv (c_vp c) (c_vpi c) ;;
    Ok (mkCells (c_ind c) v vp vpi).

  (** Only one column has the row [row]: its entry at [pos] gets index [k] and is
      rotated to its place, 567-613 (and 614-652 with i and k exchanged). *)
  Definition move_cell (st : list nat) (row pos k : nat) (c : cells T) : res (cells T) :=
    b <- get st row ;; e <- get st (S row) ;;
    '(_, second) <- find_sorted (c_ind c) b e k ;;
    ind <- set (c_ind c) pos k ;;
    if pos =? second then Ok (mkCells ind (c_val c) (c_vp c) (c_vpi c))
    else if pos <? second then
      let n := second - pos in
      '(vp, vpi) <- rotate_vp_left n pos (c_vp c) (c_vpi c) ;;
      ind <- rotate_left n pos ind ;;
      v <- rotate_left n pos (c_val c) ;;
      Ok (mkCells ind v vp vpi)
    else
      let n := pos - second in
      '(vp, vpi) <- rotate_vp_right (n + 1) pos (c_vp c) (c_vpi c) ;;
      ind <- rotate_right (n + 1) pos ind ;;
      v <- rotate_right (n + 1) pos (c_val c) ;;
      Ok (mkCells ind v vp vpi).

  (** The loop of [interchange_cols], 547-653. *)
  Fixpoint interchange_loop (fuel : nat) (st inds : list nat) (nx : list (option nat)) (i k : nat)
    (ic kc : option nat) (c : cells T) : res (cells T) :=
    match fuel with
    | 0 => UB
    | S f =>
      match ic, kc with
      | None, None => Ok c
      | Some x, Some y =>
        ir <- get inds x ;; kr <- get inds y ;;
        iv <- get (c_vp c) x ;; kv <- get (c_vp c) y ;;
        if ir =? kr then
          c <- swap_cells iv kv c ;;
          x' <- get nx x ;; y' <- get nx y ;;
          interchange_loop f st inds nx i k x' y' c
        else if ir <? kr then
          c <- move_cell st ir iv k c ;;
          x' <- get nx x ;;
          interchange_loop f st inds nx i k x' kc c
        else
          c <- move_cell st kr kv i c ;;
          y' <- get nx y ;;
          interchange_loop f st inds nx i k ic y' c
      | Some x, None =>
        ir <- get inds x ;; iv <- get (c_vp c) x ;;
        c <- move_cell st ir iv k c ;;
        x' <- get nx x ;;
        interchange_loop f st inds nx i k x' kc c
      | None, Some y =>
        kr <- get inds y ;; kv <- get (c_vp c) y ;;
        c <- move_cell st kr kv i c ;;
        y' <- get nx y ;;
        interchange_loop f st inds nx i k ic y' c
      end
    end.

  Definition cells_of (s : aug O) : cells T :=
    mkCells (indices (a_cs s)) (vals (a_cs s)) (a_vp s) (a_vpi s).

  (** Writing the cells back and [_interchange_ik_head_tail(i, k)], 309-317. *)
  Definition finish (s : aug O) (i k : nat) (c : cells T) : res (aug O) :=
    hd <- swap_at (a_start s) i k ;;
    tl <- swap_at (a_end s) i k ;;
    cnt <- swap_at (a_cnt s) i k ;;
    Ok (mkAug (mkCS (psize (a_cs s)) (ssize (a_cs s)) (ind_start (a_cs s)) (c_ind c) (c_val c))
          (a_inds s) hd (a_next s) tl (c_vp c) (c_vpi c) cnt).

  (** [interchange_cols(i, k)], 541-656. *)
  Definition interchange (i k : nat) (s : aug O) : res (aug O) :=
    if i =? k then Ok s
    else
      ic <- get (a_start s) i ;; kc <- get (a_start s) k ;;
      c <- interchange_loop (S (2 * length (a_inds s))) (ind_start (a_cs s)) (a_inds s) (a_next s)
             i k ic kc (cells_of s) ;;
      finish s i k c.

  (** The loop of [defer_col], 674-687. *)
  Fixpoint defer_loop (fuel : nat) (st inds : list nat) (nx : list (option nat)) (to : nat)
    (cid : option nat) (c : cells T) : res (cells T) :=
    match fuel with
    | 0 => UB
    | S f =>
      match cid with
      | None => Ok c
      | Some x =>
        row <- get inds x ;; vp <- get (c_vp c) x ;;
        ind <- set (c_ind c) vp to ;;
        e <- get st (S row) ;;
        let n := e - vp in
        ind <- rotate_left n vp ind ;;
        v <- rotate_left n vp (c_val c) ;;
        '(p, pi) <- rotate_vp_left n vp (c_vp c) (c_vpi c) ;;
        x' <- get nx x ;;
        defer_loop f st inds nx to x' (mkCells ind v p pi)
      end
    end.

  (** [defer_col(from, to)], 668-691. *)
  Definition defer (from to : nat) (s : aug O) : res (aug O) :=
    ic <- get (a_start s) from ;;
    c <- defer_loop (S (length (a_inds s))) (ind_start (a_cs s)) (a_inds s) (a_next s) to ic (cells_of s) ;;
    finish s from to c.

  (** ** Queries *)

  (** The usual walk of a secondary list, as in PivotCrout.hpp:240-250: from
      [start_aug_id(col)] by [next_aug_id] until [is_nil], collecting [primary_idx]
      and [val_from_aug_id] (AugmentedStorage.hpp:462-519). *)
  Fixpoint walk (fuel : nat) (s : aug O) (cid : option nat) : res (list (nat * T)) :=
    match fuel with
    | 0 => UB
    | S f =>
      match cid with
      | None => Ok []
      | Some x =>
        r <- get (a_inds s) x ;;
        p <- get (a_vp s) x ;; v <- get (vals (a_cs s)) p ;;
        x' <- get (a_next s) x ;;
        rest <- walk f s x' ;;
        Ok ((r, v) :: rest)
      end
    end.
  Definition walk_col (s : aug O) (col : nat) : res (list (nat * T)) :=
    cid <- get (a_start s) col ;; walk (S (length (a_inds s))) s cid.

  (** [nnz_in_col(col)], 523-525 with [_nodes_in_list], 345-349. *)
  Definition nnz_in_col (s : aug O) (col : nat) : res nat := get (a_cnt s) col.

  (** The calls a user makes. *)
  Inductive aop :=
  | APush (row : nat) (p : push O)
  | ASwap (i k : nat)
  | ADefer (from to : nat).

  Definition astep (o : aop) (s : aug O) : res (aug O) :=
    match o with
    | APush row p => aug_push row p s
    | ASwap i k => interchange i k s
    | ADefer from to => defer from to s
    end.

  Definition arun (A : CS O) (ops : list aop) : res (aug O) :=
    for_list ops astep (aug_begin A).
End Aug.
