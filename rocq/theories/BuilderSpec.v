(** * BuilderSpec: what a [HIF] object is meant to do.

    The abstract object is the hierarchy left by the last successful
    factorization, the size of the last matrix offered, and the attached filters:
    it has no buffers and no history. *)
From Coq Require Import List Arith Lia Bool.
From Verif Require Import Base Scalar Spec CSModel PrecModel PrecSpec BuilderModel.
Import ListNotations.

Section S.
  Variable O : Ops.
  Notation T := (T O).

  (** Consistent sizes for all four operations, any rank argument. *)
  Definition hier_good (precs : list (Prec O)) (n : nat) : Prop :=
    forall ld tran, hier_shape (fun P => dense_solve O P ld tran) precs n /\
                    hier_shape (fun P => dense_mul O P ld tran) precs n.

  Record Abs : Type := mkAbs {
    aprecs : list (Prec O);
    asz : option (nat * nat);
    ansp : option (Nsp O);
    anspt : option (Nsp O)
  }.

  Definition abs_new : Abs := mkAbs [] None None None.

  Definition zeros (k : nat) : list T := repeat (t0 O) k.

  (** Apply the preconditioner with fresh zero buffers, then the filter. *)
  Definition spec_solve (a : Abs) (tran : bool) (r : nat) (b : list T) : res (list T) :=
    match aprecs a with
    | [] => Err
    | precs =>
      let w := zeros (compute_prec_work_space O precs) in
      ' (x, _) <- (if tran then prec_solve_tran O precs b r (zeros (length b)) w
                   else prec_solve O precs b r (zeros (length b)) w) ;;
      opt_filter O (if tran then anspt a else ansp a) x
    end.

  Definition spec_mul (a : Abs) (tran : bool) (r : nat) (b : list T) : res (list T) :=
    match aprecs a with
    | [] => Err
    | precs =>
      let w := zeros (compute_prec_work_space O precs) in
      ' (x, _) <- (if tran then prec_prod_tran O precs b r (zeros (length b)) w
                   else prec_prod O precs b r (zeros (length b)) w) ;;
      Ok x
    end.

  Definition vmap2 (f : T -> T -> T) (u v : list T) : list T :=
    map (fun p => f (fst p) (snd p)) (combine u v).

  (** The stationary iteration [x_0 = 0], [x_{k+1} = S (b - A x_k) (+) x_k]; the
      first residual is [b] itself. *)
  Section Ref.
    Variable Sv : list T -> res (list T).
    Variable A : list T -> res (list T).
    Variable plus : T -> T -> T.     (* plus (correction) (old) *)
    Variable b : list T.
    Definition residual (k : nat) (x : list T) : res (list T) :=
      match k with 0 => Ok b | S _ => y <- A x ;; Ok (vmap2 (tsub O) b y) end.
    Fixpoint refine (k : nat) : res (list T) :=
      match k with
      | 0 => Ok (zeros (length b))
      | S k' => x <- refine k' ;; r <- residual k' x ;; z <- Sv r ;; Ok (vmap2 plus z x)
      end.
  End Ref.

  (** Calls.  A refinement call carries the user's matrix operator. *)
  Inductive op : Type :=
  | OpFactorize (nr nc : nat) (lv : list (Prec O)) (ok : bool)
  | OpClear
  | OpSetNsp (f : option (Nsp O))
  | OpSetNspTran (f : option (Nsp O))
  | OpSolve (b x : list T) (tran : bool) (r : nat)
  | OpMultiply (b x : list T) (tran : bool) (r : nat)
  | OpSolveMrhs (N : nat) (b x : list T) (r : nat)
  | OpHifir (mulA : bool -> list T -> list T -> res (list T)) (b : list T) (N : nat) (x : list T)
            (tran : bool) (r : nat).

  (** What the caller sees. *)
  Inductive out : Type := OutUnit | OutVec (x : list T) | OutErr.

  Definition of_outc {A} (f : A -> out) (o : outc O A) : option (HIF O * out) :=
    match o with
    | Ret s a => Some (s, f a)
    | Throw s => Some (s, OutErr)
    | Undef => None
    end.

  (** One call on the concrete object; [None] is undefined behaviour. *)
  Definition step (junk : nat -> T) (s : HIF O) (o : op) : option (HIF O * out) :=
    match o with
    | OpFactorize nr nc lv ok => of_outc (fun _ => OutUnit) (factorize O s nr nc lv ok)
    | OpClear => Some (clear O s, OutUnit)
    | OpSetNsp f => Some (mkHIF (hprecs s) (hwork s) (hsz s) f (hnspt s) (hxk s) (hr s), OutUnit)
    | OpSetNspTran f => Some (mkHIF (hprecs s) (hwork s) (hsz s) (hnsp s) f (hxk s) (hr s), OutUnit)
    | OpSolve b x tran r => of_outc OutVec (solve O junk s b x tran r)
    | OpMultiply b x tran r => of_outc OutVec (mmultiply O junk s b x tran r)
    | OpSolveMrhs N b x r => of_outc OutVec (solve_mrhs O junk s N b x r)
    | OpHifir mulA b N x tran r => of_outc OutVec (hifir O mulA junk s b N x tran r)
    end.

  Fixpoint run (s : HIF O) (h : list ((nat -> T) * op)) : option (HIF O * list out) :=
    match h with
    | [] => Some (s, [])
    | (junk, o) :: h =>
      match step junk s o with
      | None => None
      | Some (s', v) =>
        match run s' h with None => None | Some (s'', vs) => Some (s'', v :: vs) end
      end
    end.

  Definition of_res (m : res (list T)) : out :=
    match m with Ok x => OutVec x | _ => OutErr end.

  (** The same call on the abstract object. *)
  Definition spec_step (a : Abs) (o : op) : Abs * out :=
    match o with
    | OpFactorize nr nc lv ok =>
        (mkAbs (if ok then lv else []) (Some (nr, nc)) (ansp a) (anspt a), if ok then OutUnit else OutErr)
    | OpClear => (mkAbs [] (asz a) None None, OutUnit)
    | OpSetNsp f => (mkAbs (aprecs a) (asz a) f (anspt a), OutUnit)
    | OpSetNspTran f => (mkAbs (aprecs a) (asz a) (ansp a) f, OutUnit)
    | OpSolve b x tran r =>
        (a, if length b =? length x then of_res (spec_solve a tran r b) else OutErr)
    | OpMultiply b x tran r =>
        (a, if length b =? length x then of_res (spec_mul a tran r b) else OutErr)
    | OpSolveMrhs N b x r => (a, OutErr)
    | OpHifir mulA b N x tran r =>
        (a, if N <=? 1 then if length b =? length x then of_res (spec_solve a tran r b) else OutErr
            else of_res (refine (spec_solve a tran r) (fun v => mulA tran v v) (tadd O) b N))
    end.

  Fixpoint spec_run (a : Abs) (h : list ((nat -> T) * op)) : list out :=
    match h with
    | [] => []
    | (_, o) :: h => let (a', v) := spec_step a o in v :: spec_run a' h
    end.

  (** A filter works in place: it keeps the length (or throws). *)
  Definition filter_good (f : option (Nsp O)) : Prop :=
    forall x, opt_filter O f x = Err \/ exists y, opt_filter O f x = Ok y /\ length y = length x.

  (** The user's matrix writes a vector of the size of its argument, whatever the
      output held. *)
  Definition mul_good (mulA : bool -> list T -> list T -> res (list T)) (tran : bool) (n : nat) : Prop :=
    forall x y, length x = n -> length y = n ->
      exists z, mulA tran x y = Ok z /\ mulA tran x x = Ok z /\ length z = n.

  (** Size conditions on a call, relative to the hierarchy in place. *)
  Definition vec_good (a : Abs) (b x : list T) : Prop :=
    aprecs a = [] \/ length b <> length x \/ asz a = Some (length b, length b).

  Definition op_good (a : Abs) (o : op) : Prop :=
    match o with
    | OpFactorize nr nc lv ok =>
        if ok then nr = nc /\ hier_good lv nr   (* the levels describe the matrix *)
        else lv = []                            (* it threw before a level was stored *)
    | OpClear => True
    | OpSetNsp f => filter_good f
    | OpSetNspTran f => filter_good f
    | OpSolve b x _ _ => vec_good a b x
    | OpMultiply b x _ _ => vec_good a b x
    | OpSolveMrhs _ _ _ _ => False
    | OpHifir mulA b N x tran _ =>
        if N <=? 1 then vec_good a b x
        else 0 < length b /\ length x = length b /\ asz a = Some (length b, length b)
             /\ mul_good mulA tran (length b)
    end.

  Fixpoint hist_good (a : Abs) (h : list ((nat -> T) * op)) : Prop :=
    match h with
    | [] => True
    | (_, o) :: h => op_good a o /\ hist_good (fst (spec_step a o)) h
    end.

  (** ** Exact arithmetic: [F] applies the matrix [A]; [F] solves with the matrix [M]. *)
  Definition applies (n : nat) (F : list T -> res (list T)) (A : nat -> nat -> T) : Prop :=
    forall x, length x = n -> exists y, F x = Ok y /\ length y = n /\ veq n (v_ y) (mvec n A (v_ x)).
  Definition solves (n : nat) (F : list T -> res (list T)) (M : nat -> nat -> T) : Prop :=
    forall b, length b = n -> exists x, F b = Ok x /\ length x = n /\ veq n (mvec n M (v_ x)) (v_ b).

  (** ** Bounded refinement: [x] is iterate number [it], all earlier iterates were
      within the bounds, and [flag] ([Some true] for 0, [Some false] for 1, [None] for -1)
      says why the iteration stopped. *)
  Section TR.
    Variable mulA : bool -> list T -> list T -> res (list T).
    Variable D : Type.
    Variable nrm : list T -> D.
    Variable ddiv : D -> D -> D.
    Variables le_lo gt_hi : D -> bool.
    Variable a : Abs.
    Variables (b : list T) (tran : bool) (ld N : nat) (bnorm : D).
    Let Sv := spec_solve a tran ld.
    Let Av := fun v => mulA tran v v.
    Let plus := fun z x => tadd O x z.
  (** relative residual of an iterate *)
  Definition relres (x : list T) : res D := r <- residual Av b 1 x ;; Ok (ddiv (nrm r) bnorm).

  Definition truthful (x : list T) (it : nat) (flag : option bool) : Prop :=
    1 <= it <= N /\ refine Sv Av plus b it = Ok x /\
    (forall k, 1 <= k < it -> exists y d, refine Sv Av plus b k = Ok y /\ relres y = Ok d /\ le_lo d = false /\ gt_hi d = false) /\
    match flag with
    | None => it = N
    | Some true => it < N /\ exists d, relres x = Ok d /\ le_lo d = true
    | Some false => it < N /\ exists d, relres x = Ok d /\ le_lo d = false /\ gt_hi d = true
    end.

  End TR.

  (** ** The constant filter. *)
  (** [sum] of the entries in [lo, hi). *)
  Definition range_sum (lo hi : nat) (x : list T) : T := sum (Nat.sub hi lo) (fun i => v_ x (Nat.add lo i)).

  (** Projection: what the filter with range [start, stop) does. *)
  Definition projected (start stop : nat) (x y : list T) : Prop :=
    length y = length x /\
    (forall i, (i < start \/ stop <= i)%nat -> v_ y i = v_ x i) /\
    range_sum start stop y = t0 O /\
    (exists c, forall i, (start <= i < stop)%nat -> v_ y i = tsub O (v_ x i) c).

  (** ** Hierarchies as seen by the queries. *)
  (** Sizes of a complete hierarchy. *)
  Fixpoint hier_sizes (precs : list (Prec O)) (n : nat) : Prop :=
    match precs with
    | [] => False
    | P :: rest => pm P <= pn P /\ pn P = n /\
        (if is_last_level O P then rest = [] /\ last_rank O P <= pn P - pm P
         else hier_sizes rest (pn P - pm P))
    end.

End S.
Arguments applies {O}. Arguments solves {O}.
Arguments hier_good {O}. Arguments mkAbs {O}. Arguments aprecs {O}. Arguments asz {O}. Arguments ansp {O}.
Arguments anspt {O}. Arguments OpFactorize {O}. Arguments OpClear {O}. Arguments OpSetNsp {O}.
Arguments OpSetNspTran {O}. Arguments OpSolve {O}. Arguments OpMultiply {O}. Arguments OpSolveMrhs {O}.
Arguments OpHifir {O}. Arguments OutUnit {O}. Arguments OutVec {O}. Arguments OutErr {O}.
