(** * ValidSpec: valid arrays. *)
From Coq Require Import List Arith Lia Bool ZArith.
From Verif Require Import Base Scalar CSModel CSSpec ValidModel.
Import ListNotations.

(** The three arrays describe a sorted compressed matrix with [zp] primaries
    and [zs] secondaries. *)
Record zvalid (A : ZCS) : Prop := {
  zv_len : length (zstart A) = zp A + 1;
  zv_first : nth 0 (zstart A) 0%Z = 0%Z;
  zv_mono : forall i, i < zp A -> (nth i (zstart A) 0 <= nth (S i) (zstart A) 0)%Z;
  zv_inds : (nth (zp A) (zstart A) 0 <= Z.of_nat (length (zind A)))%Z;
  zv_vals : (nth (zp A) (zstart A) 0 <= Z.of_nat (znv A))%Z;
  zv_sorted : forall i k l, i < zp A ->
    (nth i (zstart A) 0 <= Z.of_nat k)%Z -> k < l -> (Z.of_nat l < nth (S i) (zstart A) 0)%Z ->
    (nth k (zind A) 0 < nth l (zind A) 0)%Z;
  zv_range : forall k, (Z.of_nat k < nth (zp A) (zstart A) 0)%Z ->
    (0 <= nth k (zind A) 0 < Z.of_nat (zs A))%Z
}.

(** The start array does not decrease. *)
Definition zmono (A : ZCS) : Prop :=
  forall i, S i < length (zstart A) -> (nth i (zstart A) 0 <= nth (S i) (zstart A) 0)%Z.

(** The storage these arrays stand for. *)
Definition zcs {O : Ops} (A : ZCS) (vals : list (T O)) : CS O :=
  mkCS (zp A) (zs A) (map Z.to_nat (zstart A)) (map Z.to_nat (zind A)) vals.
