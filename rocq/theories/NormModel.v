(** * NormModel: the vector kernels of utils/math.hpp. *)
From Coq Require Import List Arith Bool.
From Verif Require Import Base.
Import ListNotations.

(** Operations of the scalar (real) type: std::abs, std::sqrt, and std::abs of a complex number
    ([shyp], from its two parts); [slt] is <, [seq0] the comparison with zero. *)
Record SOps := mkSOps { SC : Type; sz : SC; so : SC; sadd : SC -> SC -> SC; ssub : SC -> SC -> SC; smul : SC -> SC -> SC;
  sdiv : SC -> SC -> SC; sneg : SC -> SC; ssqrt : SC -> SC; sabs : SC -> SC; shyp : SC -> SC -> SC;
  slt : SC -> SC -> bool; seq0 : SC -> bool }.

(** Operations of the value type over a scalar type. *)
Record VOps (S : SOps) := mkVOps { VT : Type; vz : VT; vadd : VT -> VT -> VT; vmul : VT -> VT -> VT; vconj : VT -> VT;
  vre : VT -> SC S; vabs : VT -> SC S; vsc : VT -> SC S -> VT }.
Arguments VT {S} _. Arguments vz {S} _. Arguments vadd {S} _. Arguments vmul {S} _. Arguments vconj {S} _.
Arguments vre {S} _. Arguments vabs {S} _. Arguments vsc {S} _.

(** Real values; /repo/src/hif/utils/math.hpp lines 60-63 (conjugate of a floating point number). *)
Definition real_ops (S : SOps) : VOps S :=
  mkVOps S (SC S) (sz S) (sadd S) (smul S) (fun x => x) (fun x => x) (sabs S) (smul S).

(** Complex values as pairs: std::complex arithmetic; math.hpp lines 70-74 (std::conj),
    lines 244-247 (complex times scalar: componentwise).  The recovery of infinities in the product
    of Annex G is left out: it only replaces numbers that are not finite by others. *)
Definition cplx_ops (S : SOps) : VOps S :=
  mkVOps S (SC S * SC S) (sz S, sz S)
    (fun a b => (sadd S (fst a) (fst b), sadd S (snd a) (snd b)))
    (fun a b => (ssub S (smul S (fst a) (fst b)) (smul S (snd a) (snd b)), sadd S (smul S (fst a) (snd b)) (smul S (snd a) (fst b))))
    (fun a => (fst a, sneg S (snd a)))
    fst (fun a => shyp S (fst a) (snd a))
    (fun a c => (smul S (fst a) c, smul S (snd a) c)).

Section K.
  Context {S : SOps} (V : VOps S).

  (** math.hpp lines 81-90: [inner]; v2[i] outside the array is undefined behaviour. *)
  Definition inner (v1 v2 : list (VT V)) : res (VT V) :=
    fold_left (fun acc i => tmp <- acc;; a <- get v1 i;; b <- get v2 i;; Ok (vadd V tmp (vmul V (vconj V a) b)))
      (seq 0 (length v1)) (Ok (vz V)).

  (** math.hpp lines 95-106: [norm2_sq]; the loop reads v[0], v[1], ... in order. *)
  Definition norm2_sq (v : list (VT V)) : SC S :=
    fold_left (fun tmp x => sadd S tmp (vre V (vmul V (vconj V x) x))) v (sz S).

  (** std::max_element with the comparison of magnitudes (math.hpp lines 122-125), on a nonempty range. *)
  Definition max_element (x : VT V) (v : list (VT V)) : VT V :=
    fold_left (fun m y => if slt S (vabs V m) (vabs V y) then y else m) v x.

  (** math.hpp lines 111-140: [norm2]. *)
  Definition norm2 (v : list (VT V)) : SC S :=
    match v with
    | [] => sz S
    | x :: t =>
      let max_mag := vabs V (max_element x t) in
      if seq0 S max_mag then fold_left (fun tmp y => sadd S tmp (vabs V y)) v (sz S)
      else
        let alpha := sdiv S (so S) max_mag in
        let tmp := fold_left (fun tmp y => let a := vsc V y alpha in sadd S tmp (vre V (vmul V (vconj V a) a))) v (sz S) in
        smul S max_mag (ssqrt S tmp)
    end.

  (** math.hpp lines 145-152: [normalize]. *)
  Definition normalize (v : list (VT V)) : list (VT V) :=
    let inv_nrm := sdiv S (so S) (norm2 v) in map (fun x => vsc V x inv_nrm) v.

  (** math.hpp lines 159-167: [normalize2]; w[i] outside the array is undefined behaviour. *)
  Definition normalize2 (v w : list (VT V)) : res (list (VT V)) :=
    let inv_nrm := sdiv S (so S) (norm2 v) in
    fold_left (fun acc i => w <- acc;; x <- get v i;; set w i (vsc V x inv_nrm)) (seq 0 (length v)) (Ok w).
End K.
