(** * VecSpec: what the accumulator and the droppings are supposed to do. *)
From Coq Require Import List Arith Lia Bool Permutation.
From Verif Require Import Base Scalar Mag VecModel.
Import ListNotations.

(** ** Accumulator *)

(** The distinct elements of a list, in the order of their first occurrence. *)
Definition firsts (l : list nat) : list nat := rev (nodup Nat.eq_dec (rev l)).

(** One use of the accumulator: reset, push the given indices with tag [step],
    then possibly restore. *)
Record phase : Type := mkPh { ph_step : nat; ph_push : list nat; ph_restore : bool }.

Section S.
  Context {O : Ops}.
  (** Indices currently held. *)
  Definition held (v : SV O) : list nat := firstn (sv_cnt v) (sv_inds v).

  (** Executing the pushes of a phase on the real object. *)
  Definition run_pushes (step : nat) (l : list nat) (v : SV O) : res (SV O) :=
    for_list l (fun i v => '(b, v) <- sv_push v i step ;; Ok v) v.
  Definition run_phase (ph : phase) (v : SV O) : res (SV O) :=
    v <- run_pushes (ph_step ph) (ph_push ph) (sv_reset v) ;;
    if ph_restore ph then sv_restore v else Ok v.
  Definition run_phases (h : list phase) (v : SV O) : res (SV O) :=
    for_list h run_phase v.

  (** A step tag is only reused after a restore. *)
  Fixpoint tags_ok (h : list phase) : Prop :=
    match h with
    | [] => True
    | ph :: t => (ph_restore ph = true \/ forall ph', In ph' t -> ph_step ph' <> ph_step ph) /\ tags_ok t
    end.

  (** Accumulator of dense size [n], not marked for deletion anywhere. *)
  Record sv_ok (n : nat) (v : SV O) : Prop := mk_sv_ok {
    so_vals : length (sv_vals v) = n;
    so_inds : length (sv_inds v) = n;
    so_cnt : sv_cnt v <= n;
    so_tags : length (sv_dtags v) = n;
    so_stags : sv_stags v = repeat false n;
    so_nodup : NoDup (held v);
    so_range : forall i, In i (held v) -> i < n }.

  (** Contract of [std::nth_element] as used: a rearrangement of the range whose
      first [N] elements all have keys at least those of the rest. *)
  Definition nth_element_ok {K} (le : K -> K -> bool) (f : (nat -> K) -> nat -> list nat -> list nat) : Prop :=
    forall key N l, 1 <= N <= length l ->
      Permutation l (f key N l) /\
      forall i j, i < N -> N <= j < length l ->
        le (key (nth j (f key N l) 0)) (key (nth i (f key N l) 0)) = true.
End S.
