(** * PruneModel: pruning of small entries; rotation helpers. *)
From Coq Require Import List Arith Lia Bool.
From Verif Require Import Base Scalar CSModel ConvModel Mag.
Import ListNotations.

Section Prune.
  Context {O : Ops} (G : Mag O).
  Notation T := (T O).

  (** [std::max_element] over [vals[pos..last)] by absolute value, result [abs]. *)
  Definition row_max (val : list T) (pos last : nat) : res (M G) :=
    v0 <- get val pos ;;
    best <- for_range (S pos) last (fun k best =>
      v <- get val k ;;
      Ok (if mlt G (mabs G best) (mabs G v) then v else best)) v0 ;;
    Ok (mabs G best).

  (** [_prune(n, eps, shrink)], CompressedStorage.hpp:663-730.  [jm] is the
      uninitialised extra slot [buf[n]].  Whether memory is shrunk does not change
      the contents, so [shrink] is not a parameter.  Returns the storage and the
      number of eliminated entries. *)
  Definition prune (A : CS O) (eps : M G) (jm : M G) : res (CS O * nat) :=
    if psize A =? 0 then Ok (A, 0)
    else
      let eps := if mlt G eps (m0 G) then m0 G else eps in
      nz <- nnz O A ;;
      buf <- for_range 0 nz (fun i buf =>
        j <- get (indices A) i ;; v <- get (vals A) i ;;
        b <- get buf j ;;
        set buf j (mmul G eps (mmax G b (mabs G v)))) (repeat (m0 G) (ssize A) ++ [jm]) ;;
      '(start, ind, val, j, _) <- for_range 0 (psize A)
        (fun i (s : list nat * list nat * list T * nat * nat) =>
          let '(start, ind, val, j, pos) := s in
          e <- get start (S i) ;;
          if e <? pos then UB
          else
            '(ind, val, j') <- (if e =? pos then Ok (ind, val, j)
              else
                rm <- row_max val pos e ;;
                let thres := mmul G eps rm in
                for_range pos e (fun k (s : list nat * list T * nat) =>
                  let '(ind, val, j) := s in
                  v <- get val k ;; c <- get ind k ;; b <- get buf c ;;
                  if mle G (mabs G v) (mmin G thres b) then Ok (ind, val, j)
                  else
                    ind <- set ind j c ;; val <- set val j v ;; Ok (ind, val, S j))
                  (ind, val, j)) ;;
            b <- get start i ;;
            start <- set start (S i) (b + (j' - j)) ;;
            Ok (start, ind, val, j', e))
        (ind_start A, indices A, vals A, 0, 0) ;;
      if nz - j =? 0 then Ok (mkCS (psize A) (ssize A) start ind val, 0)
      else
        f <- get start 0 ;; l <- get start (length start - 1) ;;
        Ok (mkCS (psize A) (ssize A) start (firstn (l - f) ind) (firstn (l - f) val), nz - j).
End Prune.

(** [std::rotate(first, mid, last)] on an array. *)
Definition rotate {X} (a : list X) (first mid last : nat) : res (list X) :=
  if (first <=? mid) && (mid <=? last) && (last <=? length a)
  then Ok (firstn first a ++ slice mid (last - mid) a ++ slice first (mid - first) a ++ skipn last a)
  else UB.

(** [rotate_left], common.hpp:75-80. *)
Definition rotate_left {X} (n src : nat) (v : list X) : res (list X) :=
  rotate v src (src + 1) (src + n).

(** [rotate_right], common.hpp:91-99: the same on reverse iterators. *)
Definition rotate_right {X} (n src : nat) (v : list X) : res (list X) :=
  if length v <=? src then UB
  else
    let f := length v - 1 - src in
    r <- rotate (rev v) f (f + 1) (f + n) ;;
    Ok (rev r).
