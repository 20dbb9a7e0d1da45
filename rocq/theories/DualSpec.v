(** * DualSpec: exact arithmetic, and what the logarithmic scaling of the matching must satisfy. *)
From Coq Require Import List Arith Bool Reals.
From Verif Require Import Base EqModel EqSpec.
Import ListNotations.

(** Comparisons of extended real numbers: [None] is infinity. *)
Definition ele (x y : option R) : Prop :=
  match x, y with _, None => True | None, Some _ => False | Some a, Some b => (a <= b)%R end.
Definition elt (x y : option R) : Prop :=
  match x, y with Some a, Some b => (a < b)%R | Some _, None => True | None, _ => False end.

(** Arithmetic without rounding: every number stands for a real number or infinity. *)
Record exact_arith (K : ROps) (ev : RR K -> option R) : Prop := {
  ea_le : forall x y, rle K x y = true <-> ele (ev x) (ev y);
  ea_lt : forall x y, rlt K x y = true <-> elt (ev x) (ev y);
  ea_eq : forall x y, req K x y = true <-> ev x = ev y;
  ea_sub : forall x y a b, ev x = Some a -> ev y = Some b -> ev (rsub K x y) = Some (a - b)%R;
  ea_add : forall x y a b, ev x = Some a -> ev y = Some b -> ev (radd K x y) = Some (a + b)%R;
  ea_0 : ev (r0 K) = Some 0%R;
  ea_inf : ev (rinf K) = None }.

(** [f 1 + ... + f n]. *)
Fixpoint rsum (n : nat) (f : nat -> R) : R := match n with 0 => 0%R | S m => (rsum m f + f (S m))%R end.
(** [f 1 * ... * f n]. *)
Fixpoint rprod (n : nat) (f : nat -> R) : R := match n with 0 => 1%R | S m => (rprod m f * f (S m))%R end.

(** [s i] is the position of a stored entry in row [i] and column [c i], the columns being
    different for different rows: a permutation of the rows on stored entries. *)
Definition transversal (n : nat) (ip irn : list nat) (s c : nat -> nat) : Prop :=
  (forall i, 1 <= i <= n -> 1 <= c i <= n /\ n1 0 ip (c i) <= s i < n1 0 ip (S (c i)) /\ n1 0 irn (s i) = i) /\
  (forall i i', 1 <= i <= n -> 1 <= i' <= n -> c i = c i' -> i = i').

(** [lv k] is the logarithm of the absolute value of the entry stored at position [k]. *)
Definition log_values (K : ROps) (ev : RR K -> option R) (V : Type) (rabs : V -> RR K) (rlog : RR K -> RR K) (vals : list V) (lv : nat -> R) : Prop :=
  forall k v, nth_error vals k = Some v -> ev (rlog (rabs v)) = Some (lv (S k)).

(** Real numbers and infinity ([None]). *)
Definition rltb (x y : option R) : bool :=
  match x, y with Some a, Some b => if Rlt_dec a b then true else false | Some _, None => true | None, _ => false end.
Definition rleb (x y : option R) : bool :=
  match x, y with Some a, Some b => if Rle_dec a b then true else false | _, None => true | None, Some _ => false end.
Definition reqb (x y : option R) : bool :=
  match x, y with Some a, Some b => if Req_EM_T a b then true else false | None, None => true | _, _ => false end.
Definition ropt (f : R -> R -> R) (x y : option R) : option R := match x, y with Some a, Some b => Some (f a b) | _, _ => None end.
Definition KR : ROps := mkROps (option R) rltb rleb reqb (ropt Rminus) (ropt Rplus) (Some 0%R) None.
