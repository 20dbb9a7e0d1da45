(** * InputModel: what [HIF::factorize] makes of the matrix it is given.

    builder.hpp:263-365 and 388-401: index base, value type, optional check, then the
    factorization of FactorModel.  Index and start entries are [Z] as in ValidModel; the
    user's value type [O'] may differ from the preconditioner's [O].

    Not modelled: messages, timers, statistics, allocation failure; matrices without rows
    (or columns, for CCS), whose start array is not looked at. *)
From Coq Require Import List Arith Lia Bool ZArith.
From Verif Require Import Base Scalar CSModel ValidModel Mag PrecModel FactorModel.
Import ListNotations.

Section Input.
  Context {O : Ops}.
  Variable O' : Ops.

  (** A compressed matrix object of the user: sizes and the three arrays. *)
  Record UserCS : Type := mkUser {
    u_p : nat; u_s : nat; u_start : list Z; u_ind : list Z; u_vals : list (T O') }.

  (** [CRS(n, indptr, indices, vals, true)] and the CCS version, CompressedStorage.hpp:88-93,
      890-892: views of the caller's memory; a view longer than the memory, or of negative
      length, is undefined.  [ssz]: the other size. *)
  Definition of_pointers (n ssz : nat) (indptr indices : list Z) (vals : list (T O')) : res UserCS :=
    if length indptr <? n + 1 then UB
    else
      f <- get indptr 0 ;;
      l <- get indptr n ;;
      let k := Z.to_nat (l - f) in
      if (l <? f)%Z || (length indices <? k) || (length vals <? k) then UB
      else Ok (mkUser n ssz (firstn (n + 1) indptr) (firstn k indices) (firstn k vals)).

  (** [A.nnz()], CompressedStorage.hpp:135-137 (index array allocated). *)
  Definition user_nnz (A : UserCS) : res Z :=
    f <- get (u_start A) 0 ;; l <- get (u_start A) (length (u_start A) - 1) ;; Ok (l - f)%Z.

  (** Index base, builder.hpp:303-325. *)
  Definition to_zero_based (A : UserCS) : res (list Z * list Z) :=
    f <- get (u_start A) 0 ;;
    if (f =? 0)%Z then Ok (u_start A, u_ind A)
    else if (f =? 1)%Z then Ok (map (fun z => z - 1)%Z (u_start A), map (fun z => z - 1)%Z (u_ind A))
    else Err.

  (** Is [std::is_same<value_type, CsType::value_type>] and what does a value become? *)
  Variable same : bool.
  Variable cast : T O' -> T O.
  (** Uninitialised values. *)
  Variable jval : nat -> T O.

  (** Values, builder.hpp:326-339.  Same type: a view of [nnz] values, of which the memory
      holds [u_vals A] (entries behind its end are undefined when read).  Different type:
      an array of [nnz] values that all of [u_vals A] is copied into. *)
  Definition user_vals (A : UserCS) : res (list (T O)) :=
    z <- user_nnz A ;;
    let k := Z.to_nat z in
    if (z <? 0)%Z then UB
    else if same then Ok (firstn k (map cast (u_vals A)))
    else if k <? length (u_vals A) then UB
    else Ok (map cast (u_vals A) ++ map jval (seq 0 (k - length (u_vals A)))).

  Definition import (A : UserCS) : res (ZCS * list (T O)) :=
    '(start, ind) <- to_zero_based A ;;
    vals <- user_vals A ;;
    z <- user_nnz A ;;
    Ok (mkZ (u_p A) (u_s A) true start ind (Z.to_nat z), vals).

  (** params.check, builder.hpp:340-346. *)
  Definition checked (chk : bool) (A : ZCS) : res unit := if chk then check_validity A else Ok tt.

  (** HIF::factorize, builder.hpp:263-365; [kernel] stands for [_factorize_kernel] on the
      converted matrix, whose non-negative indices are then used as they are; a negative one
      would address memory before an array. *)
  Definition hif_factorize {R : Type} (kernel : CS O -> res R) (chk : bool) (A : UserCS) : res R :=
    '(Z, vals) <- import A ;;
    _ <- checked chk Z ;;
    if forallb (fun z => 0 <=? z)%Z (zstart Z) && forallb (fun z => 0 <=? z)%Z (zind Z)
    then kernel (mkCS (zp Z) (zs Z) (map Z.to_nat (zstart Z)) (map Z.to_nat (zind Z)) vals)
    else UB.
End Input.
