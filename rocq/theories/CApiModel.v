(** * CApiModel: the C interface, double precision family.

    Models libhifir/src/libhifir.cpp:46-53, 128-229, 293-510 (the single,
    complex and complex-single families 512-1165 repeat the same code).

    Handles: [None] is NULL, [Some k] the [k]-th object ever allocated; using a
    destroyed object is [UB].  The arrays a matrix handle points to are taken by value
    (the caller does not modify them between the calls).  [malloc] does not fail.  The
    library's exceptions have non-empty messages.  Not modelled: [betas] (refinement with
    bounds, see C25), the file readers (see C30), lhfGetVersions, the parameter setters. *)
From Coq Require Import List Arith Bool ZArith.
From Verif Require Import Base Scalar CSModel PrecModel BuilderModel.
Import ListNotations.

(** LhfStatus, libhifir.h. *)
Inductive status := SUCCESS | NULL_OBJ | MISMATCHED_SIZES | HIFIR_ERROR.
(** LhfOperationType, libhifir.h:160-165. *)
Inductive optag := OP_S | OP_SH | OP_M | OP_MH.
Definition is_mul (o : optag) : bool := match o with OP_M | OP_MH => true | _ => false end.
Definition is_tran (o : optag) : bool := match o with OP_SH | OP_MH => true | _ => false end.
(** libhifir.h:167. *)
Definition DEFAULT_RANK : Z := (-2)%Z.

Section C.
  Variable O : Ops.
  Notation T := (T O).
  (** Control parameters ([None] in place of the pointer is NULL). *)
  Variable Par : Type.

  (** struct LhfdMatrix, libhifir.cpp:297-303. *)
  Record Mat : Type := mkMat {
    m_rm : bool; m_n : nat;
    m_ptr : option (list nat); m_ind : option (list nat); m_val : option (list T)
  }.
  (** struct LhfdHif, libhifir.cpp:377-380. *)
  Record Hdl : Type := mkHdl { h_M : HIF O; h_A : option nat }.
  (** All objects, and whether [error_msgs[1]] holds a message (libhifir.cpp:54). *)
  Record World : Type := mkW { wmats : list (option Mat); whifs : list (option Hdl); wmsg : bool }.
  Definition w0 : World := mkW [] [] false.

  (** The factorization behind [HIF::factorize]: levels stored, and whether it
      returned (otherwise it threw after storing them). *)
  Variable fact : Mat -> option Par -> list (Prec O) * bool.
  (** [int] to [size_type]. *)
  Variable to_size : Z -> nat.

  Definition deref {X} (l : list (option X)) (k : nat) : res X :=
    match nth_error l k with Some (Some x) => Ok x | _ => UB end.
  Definition with_hifs (w : World) (l : list (option Hdl)) : World := mkW (wmats w) l (wmsg w).
  Definition with_mats (w : World) (l : list (option Mat)) : World := mkW l (whifs w) (wmsg w).
  Definition put_hif (w : World) (k : nat) (h : Hdl) : World := with_hifs w (upd (whifs w) k (Some h)).
  (** _LHF_SET_HIFIR_ERROR, libhifir.cpp:46. *)
  Definition set_msg (w : World) : World := mkW (wmats w) (whifs w) true.

  Definition all_given (n : nat) (p i : option (list nat)) (v : option (list T)) : bool :=
    negb (n =? 0) && match p, i, v with Some _, Some _, Some _ => true | _, _, _ => false end.

  (** lhfdCreateMatrix, libhifir.cpp:306-323. *)
  Definition createMatrix (w : World) (rm : bool) (n : nat) p i v : World * nat :=
    let m := if all_given n p i v then mkMat rm n p i v else mkMat rm 0 None None None in
    (with_mats w (wmats w ++ [Some m]), length (wmats w)).

  (** lhfdDestroyMatrix, libhifir.cpp:326-329. *)
  Definition destroyMatrix (w : World) (m : option nat) : res (World * status) :=
    match m with
    | None => Ok (w, SUCCESS)
    | Some k => _ <- deref (wmats w) k ;; Ok (with_mats w (upd (wmats w) k None), SUCCESS)
    end.

  (** lhfdGetMatrixSize, libhifir.cpp:332-334. *)
  Definition getMatrixSize (w : World) (m : option nat) : res nat :=
    match m with None => Ok 0 | Some k => m <- deref (wmats w) k ;; Ok (m_n m) end.

  (** lhfdGetMatrixNnz, libhifir.cpp:337-340; [indptr] is not checked. *)
  Definition getMatrixNnz (w : World) (m : option nat) : res nat :=
    match m with
    | None => Ok 0
    | Some k =>
      m <- deref (wmats w) k ;;
      match m_ptr m with
      | None => UB
      | Some p => a <- get p (m_n m) ;; b <- get p 0 ;; Ok (a - b)
      end
    end.

  (** lhfdWrapMatrix, libhifir.cpp:343-355. *)
  Definition wrapMatrix (w : World) (m : option nat) (n : nat) p i v : res (World * status) :=
    match m with
    | None => Ok (w, NULL_OBJ)
    | Some k =>
      m <- deref (wmats w) k ;;
      if all_given n p i v then Ok (with_mats w (upd (wmats w) k (Some (mkMat (m_rm m) n p i v))), SUCCESS)
      else Ok (w, NULL_OBJ)
    end.

  (** libhifir_impl::factorize, libhifir.cpp:129-146, inside the [try] of its callers
      (416-420, 438-442): the handle's object is updated in both cases. *)
  Definition do_factorize (w : World) (k : nat) (h : Hdl) (m : Mat) (par : option Par) : res (World * status) :=
    match m_ptr m with
    | None => UB     (* the start array is read *)
    | Some _ =>
      let (lv, ok) := fact m par in
      match factorize O (h_M h) (m_n m) (m_n m) lv ok with
      | Ret s' _ => Ok (put_hif w k (mkHdl s' (h_A h)), SUCCESS)
      | Throw s' => Ok (set_msg (put_hif w k (mkHdl s' (h_A h))), HIFIR_ERROR)
      | Undef => UB
      end
    end.

  (** lhfdSetup, libhifir.cpp:410-422. *)
  Definition setup (w : World) (hif A S : option nat) (par : option Par) : res (World * status) :=
    match hif with
    | None => Ok (w, NULL_OBJ)
    | Some k =>
      h <- deref (whifs w) k ;;
      let h := mkHdl (h_M h) (match A with Some _ => A | None => S end) in
      let w := put_hif w k h in
      match (match S with Some _ => S | None => A end) with
      | None => Ok (w, NULL_OBJ)
      | Some f => m <- deref (wmats w) f ;; do_factorize w k h m par
      end
    end.

  (** lhfdDestroy, libhifir.cpp:401-407. *)
  Definition destroy (w : World) (hif : option nat) : res (World * status) :=
    match hif with
    | None => Ok (w, SUCCESS)
    | Some k => _ <- deref (whifs w) k ;; Ok (with_hifs w (upd (whifs w) k None), SUCCESS)
    end.

  (** [new HIF()], libhifir.cpp:387: the class has no constructor of its own, so value
      initialization sets [_nrows] and [_ncols] to zero (unlike a local [HIF M;], see
      BuilderModel.hif_new). *)
  Definition hif_zero : HIF O := mkHIF [] [] (Some (0, 0)) None None [] [].

  (** lhfdCreate, libhifir.cpp:383-398. *)
  Definition create (w : World) (A S : option nat) (par : option Par) : res (World * option nat) :=
    let k := length (whifs w) in
    let w := with_hifs w (whifs w ++ [Some (mkHdl hif_zero None)]) in
    '(w, st) <- setup w (Some k) A S par ;;
    match st with
    | HIFIR_ERROR => '(w, _) <- destroy w (Some k) ;; Ok (w, None)
    | _ => Ok (w, Some k)
    end.

  (** lhfdUpdate, libhifir.cpp:425-431: the matrix is stored before it is checked. *)
  Definition update (w : World) (hif A : option nat) : res (World * status) :=
    match hif with
    | None => Ok (w, NULL_OBJ)
    | Some k =>
      h <- deref (whifs w) k ;;
      let w := put_hif w k (mkHdl (h_M h) A) in
      match A, hprecs (h_M h) with
      | Some a, _ :: _ =>
        m <- deref (wmats w) a ;;
        nr <- hif_nrows O (h_M h) ;;
        Ok (w, if m_n m =? nr then SUCCESS else MISMATCHED_SIZES)
      | _, _ => Ok (w, SUCCESS)
      end
    end.

  (** lhfdRefactorize, libhifir.cpp:434-444. *)
  Definition refactorize (w : World) (hif S : option nat) (par : option Par) : res (World * status) :=
    match hif with
    | None => Ok (w, NULL_OBJ)
    | Some k =>
      h <- deref (whifs w) k ;;
      match S with
      | None => Ok (w, NULL_OBJ)
      | Some f => m <- deref (wmats w) f ;; do_factorize w k h m par
      end
    end.

  (** What a vector operation leaves: the status and, on success, the output array. *)
  Definition vres : Type := (World * status * option (list T))%type.

  (** Wrapping of the caller's arrays with the size of the preconditioner,
      libhifir.cpp:148-169, around an operation of the object. *)
  Definition on_arrays (w : World) (k : nat) (h : Hdl) (nr : nat) (b x : list T)
      (f : list T -> list T -> outc O (list T)) : res vres :=
    let touch := match hprecs (h_M h) with [] => false | _ => true end in
    if touch && ((length b <? nr) || (length x <? nr)) then UB
    else
      match f (firstn nr b) (firstn nr x) with
      | Ret s' x' => Ok (put_hif w k (mkHdl s' (h_A h)), SUCCESS, Some (x' ++ skipn nr x))
      | Throw s' => Ok (set_msg (put_hif w k (mkHdl s' (h_A h))), HIFIR_ERROR, None)
      | Undef => UB
      end.

  (** libhifir_impl::solve / mmultiply: [M.solve(rhs, lhs, trans)], [M.mmultiply(...)]. *)
  Definition lib_solve (junk : nat -> T) (w : World) (k : nat) (h : Hdl) (b x : list T) (tran : bool) : res vres :=
    nr <- hif_nrows O (h_M h) ;;
    on_arrays w k h nr b x (fun b x => solve O junk (h_M h) b x tran 0).
  Definition lib_mmultiply (junk : nat -> T) (w : World) (k : nat) (h : Hdl) (b x : list T) (tran : bool) : res vres :=
    nr <- hif_nrows O (h_M h) ;;
    on_arrays w k h nr b x (fun b x => mmultiply O junk (h_M h) b x tran 0).

  (** The wrapped user matrix as operator. *)
  Definition mat_cs (m : Mat) : option (CS O) :=
    match m_ptr m, m_ind m, m_val m with
    | Some p, Some i, Some v => Some (mkCS (m_n m) (m_n m) p i v)
    | _, _, _ => None
    end.
  Definition mat_mul (m : Mat) (tran : bool) (x y : list T) : res (list T) :=
    match mat_cs m with
    | None => UB
    | Some A => if m_rm m then crs_multiply O A x y tran else ccs_multiply O A x y tran
    end.

  (** libhifir_impl::hifir without bounds, libhifir.cpp:171-192. *)
  Definition lib_hifir (junk : nat -> T) (w : World) (k : nat) (h : Hdl) (m : Mat) (b x : list T) (nirs : nat)
      (tran : bool) (rank : nat) : res vres :=
    match m_ptr m with
    | None => UB
    | Some _ =>
      let n := m_n m in
      if (length b <? n) || (length x <? n) then UB
      else
        match hifir O (mat_mul m) junk (h_M h) (firstn n b) nirs (firstn n x) tran rank with
        | Ret s' x' => Ok (put_hif w k (mkHdl s' (h_A h)), SUCCESS, Some (x' ++ skipn n x))
        | Throw s' => Ok (set_msg (put_hif w k (mkHdl s' (h_A h))), HIFIR_ERROR, None)
        | Undef => UB
        end
    end.

  (** lhfdApply, libhifir.cpp:447-472. *)
  Definition apply (junk : nat -> T) (w : World) (hif : option nat) (op : optag) (b : list T) (nirs : Z) (rank : Z)
      (x : list T) : res vres :=
    match hif with
    | None => Ok (w, NULL_OBJ, None)
    | Some k =>
      h <- deref (whifs w) k ;;
      let tran := is_tran op in
      let rnk := if (rank =? DEFAULT_RANK)%Z then if (is_mul op || (1 <? nirs)%Z) then (-1)%Z else 0%Z else rank in
      if (nirs <=? 1)%Z || is_mul op then
        if is_mul op then lib_mmultiply junk w k h b x tran else lib_solve junk w k h b x tran
      else
        match h_A h with
        | None => Ok (w, NULL_OBJ, None)
        | Some a =>
          m <- deref (wmats w) a ;;
          nr <- hif_nrows O (h_M h) ;;
          if negb (nr =? m_n m) then Ok (w, MISMATCHED_SIZES, None)
          else lib_hifir junk w k h m b x (Z.to_nat nirs) tran (to_size rnk)
        end
    end.

  (** lhfdSolve, libhifir.cpp:475-483. *)
  Definition c_solve (junk : nat -> T) (w : World) (hif : option nat) (b x : list T) : res vres :=
    match hif with
    | None => Ok (w, NULL_OBJ, None)
    | Some k => h <- deref (whifs w) k ;; lib_solve junk w k h b x false
    end.

  (** lhfdGetNnz .. lhfdGetSchurRank, libhifir.cpp:495-510. *)
  Definition query (f : HIF O -> nat) (w : World) (hif : option nat) : res nat :=
    match hif with None => Ok 0 | Some k => h <- deref (whifs w) k ;; Ok (f (h_M h)) end.

  (** lhfGetErrorMsg, libhifir.cpp:224-229: [false] is NULL. *)
  Definition getErrorMsg (w : World) : World * bool := (mkW (wmats w) (whifs w) false, wmsg w).
End C.
Arguments mkMat {O}. Arguments m_rm {O}. Arguments m_n {O}. Arguments m_ptr {O}. Arguments m_ind {O}. Arguments m_val {O}.
Arguments mkHdl {O}. Arguments h_M {O}. Arguments h_A {O}.
Arguments mkW {O}. Arguments wmats {O}. Arguments whifs {O}. Arguments wmsg {O}.
