(** * ValidModel: validation of user-supplied arrays.

    Index and start arrays come from the user here, so their entries are signed
    integers ([Z]).  A conversion of a negative number to [size_type] yields a huge
    number, larger than any array size or matrix dimension; comparisons against
    sizes are written accordingly.  [znv] is the length of the value array (its
    contents do not matter). *)
From Coq Require Import List Arith Lia Bool ZArith.
From Verif Require Import Base.
Import ListNotations.

Record ZCS : Type := mkZ {
  zp : nat;            (* primary size *)
  zs : nat;            (* secondary size *)
  zdef : bool;         (* index array allocated: status() != DATA_UNDEF *)
  zstart : list Z;
  zind : list Z;
  znv : nat
}.

(** [size_type(z) > n] / [size_type(z) >= n] for signed [z]. *)
Definition zgt (z : Z) (n : nat) : bool := (z <? 0)%Z || (Z.of_nat n <? z)%Z.
Definition zge (z : Z) (n : nat) : bool := (z <? 0)%Z || (Z.of_nat n <=? z)%Z.

(** [_ind_cbegin(i)], [_ind_cend(i)]: forming the range of primary [i] is
    undefined unless it is a sub-range of the index array
    (CompressedStorage.hpp:160-175, 356-372). *)
Definition zrange (A : ZCS) (i : nat) : res (nat * nat) :=
  b <- get (zstart A) i ;;
  e <- get (zstart A) (S i) ;;
  if ((0 <=? b) && (b <=? e) && (e <=? Z.of_nat (length (zind A))))%Z
  then Ok (Z.to_nat b, Z.to_nat e) else UB.

(** [std::is_sorted] / [is_sorted_until] with the comparison [l <= r]: true iff
    the sequence increases strictly. *)
Fixpoint zsorted (l : list Z) : bool :=
  match l with
  | x :: ((y :: _) as t) => (x <? y)%Z && zsorted t
  | _ => true
  end.

(** [check_validity], CompressedStorage.hpp:192-223. *)
Definition check_validity (A : ZCS) : res unit :=
  if negb (zdef A) then Ok tt
  else if length (zstart A) <? zp A + 1 then Err
  else
    f <- get (zstart A) 0 ;;
    if negb (f =? 0)%Z then Err
    else
      l <- get (zstart A) (length (zstart A) - 1) ;;
      if zgt (l - f) (length (zind A)) || zgt (l - f) (znv A) then Err
      else
        for_range 0 (zp A) (fun i _ =>
          '(b, e) <- zrange A i ;;
          if negb (zsorted (slice b (e - b) (zind A))) then Err
          else for_range b e (fun k _ =>
                 x <- get (zind A) k ;;
                 if zge x (zs A) then Err else Ok tt) tt) tt.

(** The checks of [wrap_const_crs] (CompressedStorage.hpp:1780-1804) and
    [wrap_const_ccs] (2681-2706) for the primaries [0..n-1]: the constructor
    reads the first and the last start entry. *)
Definition wrap_check (n : nat) (A : ZCS) : res unit :=
  f <- get (zstart A) 0 ;;
  _ <- get (zstart A) (zp A) ;;
  if negb (f =? 0)%Z then Err
  else
    for_range 0 n (fun i _ =>
      b <- get (zstart A) i ;;
      e <- get (zstart A) (S i) ;;
      if (b =? e)%Z then Ok tt
      else
        '(b, e) <- zrange A i ;;
        if negb (zsorted (slice b (e - b) (zind A))) then Err
        else
          x <- get (zind A) (e - 1) ;;
          if zge x (zs A) then Err else Ok tt) tt.

(** CRS: loop over rows, the primaries. *)
Definition wrap_const_crs (A : ZCS) : res unit := wrap_check (zp A) A.
(** CCS: the loop over columns runs to [nrows], the secondary size. *)
Definition wrap_const_ccs (A : ZCS) : res unit := wrap_check (zs A) A.
