(** * BuilderModel: the [HIF] object, iterative refinement, null-space filter.

    Models src/hif/builder.hpp, src/hif/alg/IterRefine.hpp, src/hif/NspFilter.hpp.

    Simplifications.  The numerical factorization is an oracle: a [factorize] call
    carries the list of levels its kernel pushed and whether it returned or threw.
    The user matrix of the refinement is an operator.  Freshly allocated or resized
    memory holds arbitrary values, supplied by the argument [junk] of the call.
    Mixed precision, timers, verbose output are not modelled. *)

From Coq Require Import List Arith Lia Bool.
From Verif Require Import Base Scalar CSModel PrecModel.
Import ListNotations.

Section B.
  Variable O : Ops.
  Notation T := (T O).
  Infix "+" := (tadd O). Infix "-" := (tsub O). Infix "/" := (tdiv O).

  (** ** NspFilter *)

  (** NspFilter.hpp:70-90,176-180 (class data): a constant filter on [start,end) where
      [None] is [size_t(-1)], an overridden [user_filter], or a callback
      ([None]: not attached). *)
  Inductive Nsp : Type :=
  | NspConst (start : nat) (stop : option nat)
  | NspUserOr (f : option (list T -> res (list T)))
  | NspUserCb (f : option (list T -> res (list T))).

  (** [T(k)] for a [size_t] k. *)
  Fixpoint of_nat (k : nat) : T :=
    match k with Datatypes.O => t0 O | S k' => of_nat k' + t1 O end.

  (** NspFilter.hpp:160-174 _const_filter. *)
  Definition const_filter (start : nat) (stop : option nat) (x : list T) : res (list T) :=
    let n := length x in
    let stop := match stop with None => n | Some e => if e <? start then n else e end in
    if (stop <? start) || (n <? stop) then Err
    else if start =? stop then Ok x
    else
      acc <- for_range start stop (fun i a => v <- get x i ;; Ok (a + v)) (t0 O) ;;
      let shift := acc / of_nat (Nat.sub stop start) in
      for_range start stop (fun i x => v <- get x i ;; set x i (v - shift)) x.

  (** NspFilter.hpp:138-157 filter, user_filter. *)
  Definition nsp_filter (f : Nsp) (x : list T) : res (list T) :=
    match f with
    | NspConst s e => const_filter s e x
    | NspUserOr (Some g) => g x
    | NspUserOr None => Err
    | NspUserCb (Some g) => g x
    | NspUserCb None => Err
    end.

  Definition opt_filter (f : option Nsp) (x : list T) : res (list T) :=
    match f with Some f => nsp_filter f x | None => Ok x end.

  (** ** The HIF object *)

  (** builder.hpp:577-585.  [hsz] is [(_nrows,_ncols)], [None] while they are
      uninitialized (the class has no constructor); [hxk],[hr] are the buffers of
      [_ir]. *)
  Record HIF : Type := mkHIF {
    hprecs : list (Prec O);
    hwork : list T;
    hsz : option (nat * nat);
    hnsp : option Nsp;
    hnspt : option Nsp;
    hxk : list T;
    hr : list T
  }.

  Definition hif_new : HIF := mkHIF [] [] None None None [] [].

  (** An operation returns, throws leaving the object in a state, or is undefined. *)
  Inductive outc (A : Type) : Type :=
  | Ret (s : HIF) (a : A)
  | Throw (s : HIF)
  | Undef.
  Arguments Ret {A}. Arguments Throw {A}. Arguments Undef {A}.

  Definition with_work (s : HIF) (w : list T) : HIF :=
    mkHIF (hprecs s) w (hsz s) (hnsp s) (hnspt s) (hxk s) (hr s).

  (** Contents of [cnt] cells of memory that was not written yet. *)
  Definition fresh (junk : nat -> T) (cnt : nat) : list T := map junk (seq Datatypes.O cnt).

  (** builder.hpp:263-366 factorize, 515-575 _factorize_kernel.  [lv] are the levels the kernel pushed,
      [ok] whether it returned (otherwise an exception left it after pushing
      them, or a check before the kernel threw and [lv = []]). *)
  Definition factorize (s : HIF) (nr nc : nat) (lv : list (Prec O)) (ok : bool) : outc unit :=
    let w := match hprecs s with [] => hwork s | _ => [] end in
    let s' := mkHIF lv w (Some (nr, nc)) (hnsp s) (hnspt s) (hxk s) (hr s) in
    if ok then Ret s' tt else Throw s'.

  (** builder.hpp:247-254 clear. *)
  Definition clear (s : HIF) : HIF := mkHIF [] [] (hsz s) None None [] [].

  (** [if (_prec_work.empty()) _prec_work.resize(k)] *)
  Definition ensure_work (junk : nat -> T) (s : HIF) (k : nat) : list T :=
    match hwork s with [] => fresh junk k | w => w end.

  (** builder.hpp:409-423 solve.  After an exception out of the numerical part the
      contents of the work buffer are arbitrary. *)
  Definition solve (junk : nat -> T) (s : HIF) (b x : list T) (tran : bool) (r : nat) : outc (list T) :=
    match hprecs s with
    | [] => Throw s
    | precs =>
      if negb (length b =? length x) then Throw s
      else
        let w := ensure_work junk s (compute_prec_work_space O precs) in
        match (if tran then prec_solve_tran O precs b r x w else prec_solve O precs b r x w) with
        | UB => Undef
        | Err => Throw (with_work s (fresh junk (length w)))
        | Ok (x', w') =>
          match opt_filter (if tran then hnspt s else hnsp s) x' with
          | UB => Undef
          | Err => Throw (with_work s w')
          | Ok x'' => Ret (with_work s w') x''
          end
        end
    end.

  (** builder.hpp:502-512 mmultiply. *)
  Definition mmultiply (junk : nat -> T) (s : HIF) (b x : list T) (tran : bool) (r : nat) : outc (list T) :=
    match hprecs s with
    | [] => Throw s
    | precs =>
      if negb (length b =? length x) then Throw s
      else
        let w := ensure_work junk s (compute_prec_work_space O precs) in
        match (if tran then prec_prod_tran O precs b r x w else prec_prod O precs b r x w) with
        | UB => Undef
        | Err => Throw (with_work s (fresh junk (length w)))
        | Ok (x', w') => Ret (with_work s w') x'
        end
    end.

  (** builder.hpp:433-445 solve_mrhs.  [b], [x] are arrays of [N]-tuples, flattened.
      The wrapped work array claims [nw*N] cells whatever the size of
      [_prec_work]; using cells past the end of [_prec_work] is undefined, which is
      what [prec_solve_mrhs] on the cells that do exist gives. *)
  Definition solve_mrhs (junk : nat -> T) (s : HIF) (N : nat) (b x : list T) (r : nat) : outc (list T) :=
    match hprecs s with
    | [] => Throw s
    | precs =>
      if negb (length b =? length x) then Throw s
      else match hnsp s with
      | Some _ => Throw s
      | None =>
        let w := ensure_work junk s (Nat.mul (compute_prec_work_space O precs) N) in
        match prec_solve_mrhs O N precs b r x w with
        | UB => Undef
        | Err => Throw (with_work s (fresh junk (length w)))
        | Ok (x', w') => Ret (with_work s w') x'
        end
      end
    end.

  (** ** Iterative refinement *)

  (** The user's matrix: [mul tran x y] computes [y = A x] or [A^H x] into [y]
      (mt_mv.hpp multiply_nt, mv_helper.hpp multiply). *)
  Variable mulA : bool -> list T -> list T -> res (list T).

  (** [for (j < n) x[j] = f(u[j], x[j])] *)
  Definition zip_upd (n : nat) (f : T -> T -> T) (u x : list T) : res (list T) :=
    for_range Datatypes.O n (fun j x => a <- get u j ;; b <- get x j ;; set x j (f a b)) x.

  (** IterRefine.hpp:176-181 _init: [_xk.resize(n)], [_r.resize(n)]; an empty result
      is taken for a failed allocation. *)
  Definition ir_init (junk : nat -> T) (s : HIF) (n : nat) : outc unit :=
    if n =? Datatypes.O then Throw (mkHIF (hprecs s) (hwork s) (hsz s) (hnsp s) (hnspt s) [] (hr s))
    else Ret (mkHIF (hprecs s) (hwork s) (hsz s) (hnsp s) (hnspt s) (fresh junk n) (fresh junk n)) tt.

  Definition with_ir (s : HIF) (xk r : list T) : HIF :=
    mkHIF (hprecs s) (hwork s) (hsz s) (hnsp s) (hnspt s) xk r.

  Definition lift {A B} (s : HIF) (m : res A) (k : A -> outc B) : outc B :=
    match m with Ok a => k a | Err => Throw s | UB => Undef end.

  (** One pass of the loop IterRefine.hpp:91-104: [i] is zero in the first pass. *)
  Definition ir_pass (junk : nat -> T) (s : HIF) (b x : list T) (tran : bool) (ld i : nat) : outc (list T) :=
    let n := length b in
    lift s (copy_range O x Datatypes.O (length x) (hxk s) Datatypes.O) (fun xk =>
    let s := with_ir s xk (hr s) in
    lift s (if i =? Datatypes.O then copy_range O b Datatypes.O n x Datatypes.O
            else
              y <- mulA tran xk x ;;
              zip_upd n (fun bj yj => bj - yj) b y) (fun x =>
    match solve junk s x (hr s) tran ld with
    | Undef => Undef
    | Throw s' => Throw s'
    | Ret s' r =>
      let s' := with_ir s' (hxk s') r in
      lift s' (for_range Datatypes.O n (fun j x =>
                 rj <- get r j ;; xj <- get (hxk s') j ;; set x j (rj + xj)) x) (fun x =>
      Ret s' x)
    end)).

  Fixpoint ir_loop (junk : nat -> T) (s : HIF) (b x : list T) (tran : bool) (ld i cnt : nat) : outc (list T) :=
    match cnt with
    | Datatypes.O => Ret s x
    | S cnt =>
      match ir_pass junk s b x tran ld i with
      | Undef => Undef
      | Throw s' => Throw s'
      | Ret s' x' => ir_loop junk s' b x' tran ld (S i) cnt
      end
    end.

  (** IterRefine.hpp:77-105 iter_refine; builder.hpp:458-465 hifir. *)
  Definition hifir (junk : nat -> T) (s : HIF) (b : list T) (N : nat) (x : list T) (tran : bool) (ld : nat)
    : outc (list T) :=
    if N <=? 1 then solve junk s b x tran ld
    else match hsz s with
    | None => Undef
    | Some (_, nc) =>
      match ir_init junk s nc with
      | Undef => Undef
      | Throw s' => Throw s'
      | Ret s _ => ir_loop junk s b (repeat (t0 O) (length x)) tran ld Datatypes.O N
      end
    end.

  (** ** Refinement with residual bounds.  [D] is [double]: norms, their quotient
      and the comparisons [bnorm == 0], [res <= betas[0]], [res > betas[1]] are
      parameters, so that NaN is covered. *)
  Variable D : Type.
  Variable nrm : list T -> D.
  Variable ddiv : D -> D -> D.
  Variable is0 : D -> bool.
  Variable le_lo : D -> bool.
  Variable gt_hi : D -> bool.

  (** IterRefine.hpp:145-164, the [for (;;)] loop.  [fuel] counts the passes left;
      the count [iters] reaches [N] before it runs out. *)
  Fixpoint irb_loop (junk : nat -> T) (fuel : nat) (s : HIF) (b x : list T) (bnorm : D) (tran : bool)
      (ld N iters : nat) : outc (list T * nat * option bool) :=
    match fuel with
    | Datatypes.O => Undef
    | S fuel =>
      let n := length b in
      match solve junk s (hr s) (hxk s) tran ld with
      | Undef => Undef
      | Throw s' => Throw s'
      | Ret s' xk =>
        let s' := with_ir s' xk (hr s') in
        lift s' (zip_upd n (fun a b => b + a) xk x) (fun x =>
        let iters := S iters in
        if N <=? iters then Ret s' (x, iters, None)            (* flag = -1 *)
        else
          lift s' (mulA tran x xk) (fun xk =>
          lift s' (for_range Datatypes.O n (fun j r =>
                     bj <- get b j ;; aj <- get xk j ;; set r j (bj - aj)) (hr s')) (fun r =>
          let s' := with_ir s' xk r in
          let rs := ddiv (nrm r) bnorm in
          if le_lo rs then Ret s' (x, iters, Some true)         (* flag = 0 *)
          else if gt_hi rs then Ret s' (x, iters, Some false)   (* flag = 1 *)
          else irb_loop junk fuel s' b x bnorm tran ld N iters)))
      end
    end.

  (** IterRefine.hpp:122-166; the flag is [Some true] for 0, [Some false] for 1,
      [None] for -1. *)
  Definition hifir_bounded (junk : nat -> T) (s : HIF) (b : list T) (N : nat) (x : list T) (tran : bool)
      (ld : nat) : outc (list T * nat * option bool) :=
    if N <=? 1 then
      match solve junk s b x tran ld with
      | Undef => Undef
      | Throw s' => Throw s'
      | Ret s' x => Ret s' (x, 1%nat, None)
      end
    else
      let bnorm := nrm b in
      if is0 bnorm then Ret s (repeat (t0 O) (length x), Datatypes.O, Some true)
      else match hsz s with
      | None => Undef
      | Some (_, nc) =>
        match ir_init junk s nc with
        | Undef => Undef
        | Throw s' => Throw s'
        | Ret s _ =>
          lift s (copy_range O b Datatypes.O (length b) (hr s) Datatypes.O) (fun r =>
          irb_loop junk N (with_ir s (hxk s) r) b (repeat (t0 O) (length x)) bnorm tran ld N Datatypes.O)
        end
      end.
End B.
Arguments NspConst {O}. Arguments NspUserOr {O}. Arguments NspUserCb {O}.
Arguments mkHIF {O}. Arguments hprecs {O}. Arguments hwork {O}. Arguments hsz {O}. Arguments hnsp {O}.
Arguments hnspt {O}. Arguments hxk {O}. Arguments hr {O}.
Arguments Ret {O A}. Arguments Throw {O A}. Arguments Undef {O A}.

(** ** Queries *)
Section Q.
  Variable O : Ops.

  Definition some_n {A} (o : option A) : nat := match o with Some _ => 1 | None => 0 end.

  (** builder.hpp:141-147 levels. *)
  Definition levels (s : HIF O) : nat :=
    match rev (hprecs s) with
    | [] => 0
    | last :: _ => length (hprecs s) + some_n (pdense last) + some_n (psymm last)
    end.

  (** builder.hpp:238-244 prec(level): dereferences the list iterator advanced by
      [level]. *)
  Definition prec_at (s : HIF O) (level : nat) : res (Prec O) :=
    if levels s <=? level then Err else get (hprecs s) level.

  (** CompressedStorage.hpp:135-137 nnz. *)
  Definition cs_nnz (A : CS O) : nat := last (ind_start A) 0 - hd 0 (ind_start A).

  (** Prec.hpp:170-182. *)
  Definition prec_nnz_ef (P : Prec O) : nat :=
    if pn P - pm P =? 0 then 0 else cs_nnz (pE P) + cs_nnz (pF P).
  Definition prec_nnz (P : Prec O) : nat :=
    let nz := if pm P =? 0 then 0 else cs_nnz (pL P) + cs_nnz (pU P) + pm P in
    let nz := nz + prec_nnz_ef P in
    match pdense P, psymm P with
    | None, None => nz
    | _, _ => nz + (pn P - pm P) * (pn P - pm P)
    end.

  (** Prec.hpp:202-206 last_rank. *)
  Definition last_rank (P : Prec O) : nat :=
    if negb (is_last_level O P) || (pm P =? pn P) then 0
    else match pdense P with
         | Some D => ds_rank D
         | None => match psymm P with Some D => ds_rank D | None => 0 end
         end.

  Definition last_prec (s : HIF O) : option (Prec O) :=
    match rev (hprecs s) with [] => None | P :: _ => Some P end.

  (** builder.hpp:158-164, 187-193. *)
  Definition hif_nnz (s : HIF O) : nat := fold_left (fun a P => a + prec_nnz P) (hprecs s) 0.
  Definition hif_nnz_ef (s : HIF O) : nat := fold_left (fun a P => a + prec_nnz_ef P) (hprecs s) 0.
  (** builder.hpp:196: unsigned subtraction, [UB] stands for wrap-around. *)
  Definition hif_nnz_ldu (s : HIF O) : res nat :=
    if hif_nnz s <? hif_nnz_ef s then UB else Ok (hif_nnz s - hif_nnz_ef s).

  (** builder.hpp:167-184, 199-202.  Wrap-around of the unsigned subtractions is [UB]. *)
  Definition usub (a b : nat) : res nat := if a <? b then UB else Ok (a - b).
  Definition hif_nrows (s : HIF O) : res nat := match hsz s with Some (r, _) => Ok r | None => UB end.
  Definition hif_ncols (s : HIF O) : res nat := match hsz s with Some (_, c) => Ok c | None => UB end.
  Definition hif_rank (s : HIF O) : res nat :=
    match last_prec s with
    | None => Ok 0
    | Some P =>
      nr <- hif_nrows s ;; nc <- hif_ncols s ;;
      a <- usub (pn P) (pm P) ;; b <- usub a (last_rank P) ;; usub (Nat.min nr nc) b
    end.
  Definition hif_schur_rank (s : HIF O) : nat :=
    match last_prec s with None => 0 | Some P => last_rank P end.
  Definition hif_schur_size (s : HIF O) : nat :=
    match last_prec s with None => 0 | Some P => pn P - pm P end.
End Q.
