(** * CApiSpec: what the C interface is meant to do.

    Abstract objects: a preconditioner handle is the hierarchy left by the last successful
    factorization, the size of the last matrix offered and the attached matrix: it has
    no buffers.  Results of operations are given by the specification of the object
    (BuilderSpec): [spec_solve], [spec_mul], [refine]. *)
From Coq Require Import List Arith Bool ZArith.
From Verif Require Import Base Scalar Spec CSModel CSSpec PrecModel PrecSpec BuilderModel BuilderSpec CApiModel.
Import ListNotations.

Section S.
  Variable O : Ops.
  Notation T := (T O).
  Variable Par : Type.
  Variable fact : Mat O -> option Par -> list (Prec O) * bool.
  Variable to_size : Z -> nat.

  (** The calls of the interface.  [None] in place of a handle or array is NULL. *)
  Inductive call : Type :=
  | CCreateMatrix (rm : bool) (n : nat) (p i : option (list nat)) (v : option (list T))
  | CDestroyMatrix (m : option nat)
  | CWrapMatrix (m : option nat) (n : nat) (p i : option (list nat)) (v : option (list T))
  | CMatrixSize (m : option nat)
  | CMatrixNnz (m : option nat)
  | CCreate (A B : option nat) (par : option Par)
  | CDestroy (h : option nat)
  | CSetup (h A B : option nat) (par : option Par)
  | CUpdate (h A : option nat)
  | CRefactorize (h B : option nat) (par : option Par)
  | CApply (h : option nat) (op : optag) (b : list T) (nirs rank : Z) (x : list T)
  | CSolve (h : option nat) (b x : list T)
  | CNnz (h : option nat)
  | CLevels (h : option nat)
  | CSchurSize (h : option nat)
  | CSchurRank (h : option nat)
  | CGetErrorMsg.

  (** What the caller sees: a handle, a status with the new contents of the output array
      (on success), a number, or whether a message was returned. *)
  Inductive cout : Type :=
  | OHandle (h : option nat)
  | OStatus (s : status) (x : option (list T))
  | ONum (n : nat)
  | OMsg (b : bool).

  Definition st1 (r : res (World O * status)) : option (World O * cout) :=
    match r with Ok (w, s) => Some (w, OStatus s None) | _ => None end.
  Definition st2 (r : res (vres O)) : option (World O * cout) :=
    match r with Ok (w, s, x) => Some (w, OStatus s x) | _ => None end.
  Definition st3 (w : World O) (r : res nat) : option (World O * cout) :=
    match r with Ok n => Some (w, ONum n) | _ => None end.

  (** One call of the modelled code; [None] is undefined behaviour. *)
  Definition exec (junk : nat -> T) (w : World O) (c : call) : option (World O * cout) :=
    match c with
    | CCreateMatrix rm n p i v => let (w, k) := createMatrix O w rm n p i v in Some (w, OHandle (Some k))
    | CDestroyMatrix m => st1 (destroyMatrix O w m)
    | CWrapMatrix m n p i v => st1 (wrapMatrix O w m n p i v)
    | CMatrixSize m => st3 w (getMatrixSize O w m)
    | CMatrixNnz m => st3 w (getMatrixNnz O w m)
    | CCreate A B par => match create O Par fact w A B par with Ok (w, k) => Some (w, OHandle k) | _ => None end
    | CDestroy h => st1 (destroy O w h)
    | CSetup h A B par => st1 (setup O Par fact w h A B par)
    | CUpdate h A => st1 (update O w h A)
    | CRefactorize h B par => st1 (refactorize O Par fact w h B par)
    | CApply h op b nirs rank x => st2 (apply O to_size junk w h op b nirs rank x)
    | CSolve h b x => st2 (c_solve O junk w h b x)
    | CNnz h => st3 w (query O (hif_nnz O) w h)
    | CLevels h => st3 w (query O (levels O) w h)
    | CSchurSize h => st3 w (query O (hif_schur_size O) w h)
    | CSchurRank h => st3 w (query O (hif_schur_rank O) w h)
    | CGetErrorMsg => let (w, b) := getErrorMsg O w in Some (w, OMsg b)
    end.

  Fixpoint crun (w : World O) (h : list ((nat -> T) * call)) : option (World O * list cout) :=
    match h with
    | [] => Some (w, [])
    | (junk, c) :: h =>
      match exec junk w c with
      | None => None
      | Some (w', v) => match crun w' h with None => None | Some (w'', vs) => Some (w'', v :: vs) end
      end
    end.

  (** ** The abstract interface *)
  Record AH : Type := mkAH { a_lv : list (Prec O); a_n : nat; a_A : option nat }.
  Record AW : Type := mkAW { amats : list (option (Mat O)); ahifs : list (option AH); amsg : bool }.
  Definition aw0 : AW := mkAW [] [] false.
  Definition abs_of (h : AH) : Abs O := mkAbs (a_lv h) (Some (a_n h, a_n h)) None None.

  Definition live {X} (l : list (option X)) (k : nat) : option X :=
    match nth_error l k with Some (Some x) => Some x | _ => None end.

  Definition wmat (w : AW) (l : list (option (Mat O))) : AW := mkAW l (ahifs w) (amsg w).
  Definition whif (w : AW) (l : list (option AH)) : AW := mkAW (amats w) l (amsg w).
  Definition fails (w : AW) : AW := mkAW (amats w) (ahifs w) true.
  Definition given (n : nat) (p i : option (list nat)) (v : option (list T)) : bool :=
    match n, p, i, v with S _, Some _, Some _, Some _ => true | _, _, _, _ => false end.

  (** A (re)factorization of handle [k] with matrix [m]. *)
  Definition spec_factor (w : AW) (k : nat) (A : option nat) (m : Mat O) (par : option Par) : AW * status :=
    let (lv, ok) := fact m par in
    let w' := whif w (upd (ahifs w) k (Some (mkAH (if ok then lv else []) (m_n m) A))) in
    if ok then (w', SUCCESS) else (fails w', HIFIR_ERROR).

  (** The first [n] entries of the output array are replaced, the rest is kept. *)
  Definition spec_out (w : AW) (n : nat) (x : list T) (r : res (list T)) : AW * cout :=
    match r with
    | Ok z => (w, OStatus SUCCESS (Some (z ++ skipn n x)))
    | _ => (fails w, OStatus HIFIR_ERROR None)
    end.

  Definition spec_setup (w : AW) (k : nat) (h : AH) (A B : option nat) (par : option Par) : AW * status :=
    let A' := match A with Some _ => A | None => B end in
    match (match B with Some _ => B | None => A end) with
    | None => (whif w (upd (ahifs w) k (Some (mkAH (a_lv h) (a_n h) A'))), NULL_OBJ)
    | Some f => match live (amats w) f with Some m => spec_factor w k A' m par | None => (w, SUCCESS) end
    end.

  Definition of_st (r : AW * status) : AW * cout := (fst r, OStatus (snd r) None).

  (** The levels count the dense block; its size and rank. *)
  Definition spec_levels (lv : list (Prec O)) : nat :=
    length lv + match rev lv with
                | P :: _ => match pdense P with Some _ => 1 | None => 0 end + match psymm P with Some _ => 1 | None => 0 end
                | [] => 0
                end.
  Definition spec_schur_size (lv : list (Prec O)) : nat := match rev lv with P :: _ => pn P - pm P | [] => 0 end.
  Definition spec_schur_rank (lv : list (Prec O)) : nat := match rev lv with P :: _ => last_rank O P | [] => 0 end.

  (** [live] arguments only: the other branches are arbitrary. *)
  Definition spec_call (w : AW) (c : call) : AW * cout :=
    let dead := (w, ONum 0) in
    match c with
    | CCreateMatrix rm n p i v =>
        (wmat w (amats w ++ [Some (if given n p i v then mkMat rm n p i v else mkMat rm 0 None None None)]),
         OHandle (Some (length (amats w))))
    | CDestroyMatrix None => (w, OStatus SUCCESS None)
    | CDestroyMatrix (Some k) => (wmat w (upd (amats w) k None), OStatus SUCCESS None)
    | CWrapMatrix None _ _ _ _ => (w, OStatus NULL_OBJ None)
    | CWrapMatrix (Some k) n p i v =>
        match live (amats w) k with
        | None => dead
        | Some m => if given n p i v then (wmat w (upd (amats w) k (Some (mkMat (m_rm m) n p i v))), OStatus SUCCESS None)
                    else (w, OStatus NULL_OBJ None)
        end
    | CMatrixSize None => (w, ONum 0)
    | CMatrixSize (Some k) => match live (amats w) k with None => dead | Some m => (w, ONum (m_n m)) end
    | CMatrixNnz None => (w, ONum 0)
    | CMatrixNnz (Some k) =>
        match live (amats w) k with
        | Some m => match m_ptr m with Some p => (w, ONum (nth (m_n m) p 0 - nth 0 p 0)) | None => dead end
        | None => dead
        end
    | CCreate A B par =>
        let k := length (ahifs w) in
        let w1 := whif w (ahifs w ++ [None]) in
        match spec_setup w1 k (mkAH [] 0 None) A B par with
        | (w2, HIFIR_ERROR) => (fails w1, OHandle None)
        | (w2, _) => (w2, OHandle (Some k))
        end
    | CDestroy None => (w, OStatus SUCCESS None)
    | CDestroy (Some k) => (whif w (upd (ahifs w) k None), OStatus SUCCESS None)
    | CSetup None _ _ _ => (w, OStatus NULL_OBJ None)
    | CSetup (Some k) A B par => match live (ahifs w) k with None => dead | Some h => of_st (spec_setup w k h A B par) end
    | CUpdate None _ => (w, OStatus NULL_OBJ None)
    | CUpdate (Some k) A =>
        match live (ahifs w) k with
        | None => dead
        | Some h =>
          (whif w (upd (ahifs w) k (Some (mkAH (a_lv h) (a_n h) A))),
           OStatus match A, a_lv h with
                   | Some a, _ :: _ =>
                     match live (amats w) a with
                     | Some m => if m_n m =? a_n h then SUCCESS else MISMATCHED_SIZES
                     | None => SUCCESS
                     end
                   | _, _ => SUCCESS
                   end None)
        end
    | CRefactorize None _ _ => (w, OStatus NULL_OBJ None)
    | CRefactorize (Some k) B par =>
        match live (ahifs w) k, B with
        | None, _ => dead
        | Some h, None => (w, OStatus NULL_OBJ None)
        | Some h, Some f => match live (amats w) f with None => dead | Some m => of_st (spec_factor w k (a_A h) m par) end
        end
    | CApply None _ _ _ _ _ => (w, OStatus NULL_OBJ None)
    | CApply (Some k) op b nirs rank x =>
        match live (ahifs w) k with
        | None => dead
        | Some h =>
          let n := a_n h in
          match op with
          | OP_M => spec_out w n x (spec_mul O (abs_of h) false 0 (firstn n b))
          | OP_MH => spec_out w n x (spec_mul O (abs_of h) true 0 (firstn n b))
          | _ =>
            let tran := match op with OP_SH => true | _ => false end in
            if (nirs <=? 1)%Z then spec_out w n x (spec_solve O (abs_of h) tran 0 (firstn n b))
            else
              match a_A h with
              | None => (w, OStatus NULL_OBJ None)
              | Some a =>
                match live (amats w) a with
                | None => dead
                | Some m =>
                  if m_n m =? n then
                    let r := to_size (if (rank =? DEFAULT_RANK)%Z then (-1)%Z else rank) in
                    spec_out w n x (refine O (spec_solve O (abs_of h) tran r) (fun v => mat_mul O m tran v v) (tadd O)
                                      (firstn n b) (Z.to_nat nirs))
                  else (w, OStatus MISMATCHED_SIZES None)
                end
              end
          end
        end
    | CSolve None _ _ => (w, OStatus NULL_OBJ None)
    | CSolve (Some k) b x =>
        match live (ahifs w) k with
        | None => dead
        | Some h => spec_out w (a_n h) x (spec_solve O (abs_of h) false 0 (firstn (a_n h) b))
        end
    | CNnz None | CLevels None | CSchurSize None | CSchurRank None => (w, ONum 0)
    | CNnz (Some k) =>
        match live (ahifs w) k with None => dead | Some h => (w, ONum (list_sum (map (prec_nnz O) (a_lv h)))) end
    | CLevels (Some k) =>
        match live (ahifs w) k with None => dead | Some h => (w, ONum (spec_levels (a_lv h))) end
    | CSchurSize (Some k) =>
        match live (ahifs w) k with None => dead | Some h => (w, ONum (spec_schur_size (a_lv h))) end
    | CSchurRank (Some k) =>
        match live (ahifs w) k with None => dead | Some h => (w, ONum (spec_schur_rank (a_lv h))) end
    | CGetErrorMsg => (mkAW (amats w) (ahifs w) false, OMsg (amsg w))
    end.

  Fixpoint spec_crun (w : AW) (h : list ((nat -> T) * call)) : list cout :=
    match h with
    | [] => []
    | (_, c) :: h => let (w', v) := spec_call w c in v :: spec_crun w' h
    end.

  (** ** Legal calls *)
  (** A handle argument is NULL or a live object. *)
  Definition null_or_live {X} (l : list (option X)) (k : option nat) : Prop :=
    match k with None => True | Some k => live l k <> None end.

  (** The matrix to factorize has arrays; a factorization that returns leaves levels of
      its size, one that fails leaves none (see C22_failed_factorize_refuted). *)
  Definition fact_good (w : AW) (f : option nat) (par : option Par) : Prop :=
    match f with
    | None => True
    | Some f => exists m, live (amats w) f = Some m /\ m_ptr m <> None /\
        (if snd (fact m par) then hier_good (fst (fact m par)) (m_n m) else fst (fact m par) = [])
    end.

  (** The arrays hold at least as many entries as the preconditioner has rows. *)
  Definition arrays_good (h : AH) (b x : list T) : Prop :=
    a_lv h = [] \/ (a_n h <= length b /\ a_n h <= length x).

  Definition matrix_good (m : Mat O) : Prop :=
    0 < m_n m /\ exists A, mat_cs O m = Some A /\ wf A.

  Definition call_good (w : AW) (c : call) : Prop :=
    match c with
    | CCreateMatrix _ _ _ _ _ | CGetErrorMsg => True
    | CDestroyMatrix m | CWrapMatrix m _ _ _ _ | CMatrixSize m => null_or_live (amats w) m
    | CMatrixNnz None => True
    | CMatrixNnz (Some k) => exists m p, live (amats w) k = Some m /\ m_ptr m = Some p /\ m_n m < length p
    | CCreate A B par =>
        null_or_live (amats w) A /\ null_or_live (amats w) B /\
        fact_good w (match B with Some _ => B | None => A end) par
    | CDestroy h | CNnz h | CLevels h | CSchurSize h | CSchurRank h => null_or_live (ahifs w) h
    | CSetup h A B par =>
        null_or_live (ahifs w) h /\ null_or_live (amats w) A /\ null_or_live (amats w) B /\
        fact_good w (match B with Some _ => B | None => A end) par
    | CUpdate h A => null_or_live (ahifs w) h /\ null_or_live (amats w) A
    | CRefactorize h B par => null_or_live (ahifs w) h /\ null_or_live (amats w) B /\ fact_good w B par
    | CApply None _ _ _ _ _ => True
    | CApply (Some k) op b nirs rank x =>
        exists h, live (ahifs w) k = Some h /\
        if (nirs <=? 1)%Z || is_mul op then arrays_good h b x
        else match a_A h with
             | None => True
             | Some a => exists m, live (amats w) a = Some m /\
                 (m_n m = a_n h -> matrix_good m /\ a_n h <= length b /\ a_n h <= length x)
             end
    | CSolve None _ _ => True
    | CSolve (Some k) b x => exists h, live (ahifs w) k = Some h /\ arrays_good h b x
    end.

  Fixpoint calls_good (w : AW) (h : list ((nat -> T) * call)) : Prop :=
    match h with
    | [] => True
    | (_, c) :: h => call_good w c /\ calls_good (fst (spec_call w c)) h
    end.

  (** ** Vocabulary for the other statements *)
  (** The preconditioner handle a call names. *)
  Definition names_hif (c : call) : option nat :=
    match c with
    | CDestroy h | CSetup h _ _ _ | CUpdate h _ | CRefactorize h _ _ | CApply h _ _ _ _ _ | CSolve h _ _
    | CNnz h | CLevels h | CSchurSize h | CSchurRank h => h
    | _ => None
    end.
  (** The matrix handle a call may change. *)
  Definition changes_mat (c : call) : option nat :=
    match c with CDestroyMatrix m | CWrapMatrix m _ _ _ _ => m | _ => None end.
  (** Whether a call reports an internal error. *)
  Definition reports (v : cout) : bool :=
    match v with OStatus HIFIR_ERROR _ => true | OHandle None => true | _ => false end.
  (** Whether an error was reported since the last [lhfGetErrorMsg]. *)
  Fixpoint pending (b : bool) (h : list ((nat -> T) * call)) (vs : list cout) : bool :=
    match h, vs with
    | (_, c) :: h, v :: vs => pending (match c with CGetErrorMsg => false | _ => b || reports v end) h vs
    | _, _ => b
    end.
End S.
Arguments CCreateMatrix {O Par}. Arguments CDestroyMatrix {O Par}. Arguments CWrapMatrix {O Par}.
Arguments CMatrixSize {O Par}. Arguments CMatrixNnz {O Par}. Arguments CCreate {O Par}. Arguments CDestroy {O Par}.
Arguments CSetup {O Par}. Arguments CUpdate {O Par}. Arguments CRefactorize {O Par}. Arguments CApply {O Par}.
Arguments CSolve {O Par}. Arguments CNnz {O Par}. Arguments CLevels {O Par}. Arguments CSchurSize {O Par}.
Arguments CSchurRank {O Par}. Arguments CGetErrorMsg {O Par}.
Arguments OHandle {O}. Arguments OStatus {O}. Arguments ONum {O}. Arguments OMsg {O}.
Arguments mkAH {O}. Arguments a_lv {O}. Arguments a_n {O}. Arguments a_A {O}.
Arguments mkAW {O}. Arguments amats {O}. Arguments ahifs {O}. Arguments amsg {O}.
