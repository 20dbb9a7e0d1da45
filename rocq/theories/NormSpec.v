(** * NormSpec: real arithmetic with a largest number, and Euclidean norms. *)
From Coq Require Import List Arith Bool Reals.
From Verif Require Import Base NormModel.
Import ListNotations.
Local Open Scope R_scope.

(** Arithmetic without rounding.  [Some x] is the number x, [None] anything that is not finite
    (an infinity or NaN).  [bd]: the greatest finite number ([None]: no limit); results beyond it
    are not finite.  How non-finite numbers compare ([ncmp]) and what one divided by
    them gives ([ninv]) is left open. *)
Record arith := mkArith { bd : option R; ncmp : option R -> option R -> bool; ninv : option R }.

Definition fits (N : arith) (x : R) : Prop := match bd N with None => True | Some B => Rabs x <= B end.
Definition chk (N : arith) (x : R) : option R :=
  match bd N with None => Some x | Some B => if Rle_dec (Rabs x) B then Some x else None end.
Definition lift1 (N : arith) (f : R -> R) (x : option R) : option R := match x with Some a => chk N (f a) | None => None end.
Definition lift2 (N : arith) (f : R -> R -> R) (x y : option R) : option R :=
  match x, y with Some a, Some b => chk N (f a b) | _, _ => None end.
Definition odiv (N : arith) (x y : option R) : option R :=
  match x, y with
  | None, _ => None
  | Some _, None => ninv N
  | Some a, Some b => if Req_EM_T b 0 then None else chk N (a / b)
  end.
Definition olt (N : arith) (x y : option R) : bool :=
  match x, y with Some a, Some b => if Rlt_dec a b then true else false | _, _ => ncmp N x y end.
Definition oeq0 (x : option R) : bool := match x with Some a => if Req_EM_T a 0 then true else false | None => false end.
Definition NS (N : arith) : SOps :=
  mkSOps (option R) (Some 0) (Some 1) (lift2 N Rplus) (lift2 N Rminus) (lift2 N Rmult) (odiv N)
    (lift1 N Ropp) (lift1 N sqrt) (lift1 N Rabs) (lift2 N (fun a b => sqrt (a * a + b * b))) (olt N) oeq0.

Definition NR (N : arith) : VOps (NS N) := real_ops (NS N).
Definition NC (N : arith) : VOps (NS N) := cplx_ops (NS N).

(** Vectors of finite numbers. *)
Definition rvec (v : list R) : list (option R) := map Some v.
Definition cnum (z : R * R) : option R * option R := (Some (fst z), Some (snd z)).
Definition cvec (v : list (R * R)) : list (option R * option R) := map cnum v.

(** Magnitude of a complex number, sums, the Euclidean norm of a real and of a complex vector. *)
Definition cmag (z : R * R) : R := sqrt (fst z * fst z + snd z * snd z).
Fixpoint sumR {A} (f : A -> R) (l : list A) : R := match l with [] => 0 | x :: t => f x + sumR f t end.
Definition rnorm (v : list R) : R := sqrt (sumR (fun x => x * x) v).
Definition cnorm (v : list (R * R)) : R := sqrt (sumR (fun z => fst z * fst z + snd z * snd z) v).

(** Componentwise multiples. *)
Definition cscale (c : R) (z : R * R) : R * R := (c * fst z, c * snd z).

(** The inner product of complex vectors: sum of conj(v_i) w_i, real and imaginary part; of real vectors. *)
Definition cdot_re (v w : list (R * R)) : R := sumR (fun p => fst (fst p) * fst (snd p) + snd (fst p) * snd (snd p)) (combine v w).
Definition cdot_im (v w : list (R * R)) : R := sumR (fun p => fst (fst p) * snd (snd p) - snd (fst p) * fst (snd p)) (combine v w).
Definition rdot (v w : list R) : R := sumR (fun p => fst p * snd p) (combine v w).
