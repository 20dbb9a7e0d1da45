(** * PrepSpec: what preprocessing of a level must deliver. *)
From Coq Require Import List Arith ZArith Bool Reals.
From Verif Require Import Base Scalar CSModel CSSpec ConvSpec Mag EqModel DualSpec PrepModel.
Import ListNotations.
Local Open Scope nat_scope.

(** The entries of row [i] whose index is below [m]. *)
Definition lead_row {O : Ops} (A : CS O) (m i : nat) : list (nat * T O) := filter (fun e => fst e <? m) (rowl A i).

(** Reverse Cuthill-McKee is the reordering in force (chosen, or by default in symmetric mode). *)
Definition rcm_used {X} (symm : bool) (o : popts X) : Prop := (po_reorder o = REORDER_RCM \/ po_reorder o = REORDER_AUTO /\ symm = true)%Z.

(** Real numbers as scalars and as magnitudes. *)
Definition ORe : Ops := mkOps R 0%R 1%R Rplus Rmult Rminus Ropp Rinv Rdiv (fun x => x).
Definition MRe : Mag ORe :=
  @mkMag ORe R 0%R Rabs (fun a b => if Rlt_dec a b then true else false) (fun a b => if Rle_dec a b then true else false) Rmult.

(** Preprocessing over the real numbers: [n] preallocated arrays with arbitrary contents, any [eps]
    and any reordering for the AMD option. *)
Definition exp_opt (x : option R) : R := match x with Some r => exp r | None => 0%R end.
Definition prep_real (eps : R) (mdiff : R -> R) (mbig : R -> bool) (rbig : nat -> option R) (rhuge : option R)
  (un : nat -> list nat) (um : nat -> list R) (ur : nat -> list (option R)) (ji : nat) (jv : R) (amd : list nat -> list nat -> nat -> list nat) :=
  do_preprocessing MRe KR 1%R eps Rinv Rmult sqrt exp_opt mdiff mbig (fun x => Some x) (option_map ln) rbig rhuge un um ur ji jv amd.

(** The product of [f 0 .. f (n - 1)]. *)
Fixpoint prod_below (n : nat) (f : nat -> R) : R := match n with 0 => 1%R | S m => (prod_below m f * f m)%R end.
