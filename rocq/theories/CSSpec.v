(** * CSSpec: when a storage is valid, and which matrix it denotes.

    [crs_mat A] / [ccs_mat A] is the dense matrix (function of row, column) a
    CRS / CCS storage stands for: entry [(i,j)] is the sum of the stored values of
    row [i] with column index [j] (at most one if the indices are sorted). *)

From Coq Require Import List Arith Lia Bool Ring.
From Verif Require Import Base Scalar Spec CSModel.
Import ListNotations.

Section CSSpec.
  Variable O : Ops.
  Notation T := (T O).
  Notation "0" := (t0 O).

  Definition st (A : CS O) (i : nat) : nat := nth i (ind_start A) Datatypes.O.
  Definition ix (A : CS O) (k : nat) : nat := nth k (indices A) Datatypes.O.
  Definition vl (A : CS O) (k : nat) : T := nth k (vals A) 0.

  (** Structural validity: a start array of [psize+1] non-decreasing offsets
      beginning with 0, index and value arrays long enough, indices in range. *)
  Record wf (A : CS O) : Prop := {
    wf_len : psize A + 1 <= length (ind_start A);
    wf_first : st A 0 = Datatypes.O;
    wf_mono : forall i, i < psize A -> st A i <= st A (S i);
    wf_inds : st A (psize A) <= length (indices A);
    wf_vals : st A (psize A) <= length (vals A);
    wf_range : forall k, k < st A (psize A) -> ix A k < ssize A
  }.

  (** Indices strictly increasing in each primary. *)
  Definition sorted (A : CS O) : Prop :=
    forall i k l, i < psize A -> st A i <= k -> k < l -> l < st A (S i) -> ix A k < ix A l.

  Definition valid (A : CS O) : Prop := wf A /\ sorted A.

  (** Sum of [g index value] over the stored entries of primary [i]. *)
  Definition rsum (A : CS O) (i : nat) (g : nat -> T -> T) : T :=
    sum (st A (S i) - st A i) (fun k => g (ix A (st A i + k)) (vl A (st A i + k))).

  Definition ent (A : CS O) (i j : nat) : T :=
    rsum A i (fun j' v => if Nat.eqb j' j then v else 0).

  Definition crs_mat (A : CS O) : nat -> nat -> T := fun i j => ent A i j.
  Definition ccs_mat (A : CS O) : nat -> nat -> T := fun i j => ent A j i.

  Definition crs_rows (A : CS O) := psize A.
  Definition crs_cols (A : CS O) := ssize A.
  Definition ccs_rows (A : CS O) := ssize A.
  Definition ccs_cols (A : CS O) := psize A.

  (** Every stored index of primary [i] is below / above [i]. *)
  Definition pat_below (A : CS O) : Prop :=
    forall i k, i < psize A -> st A i <= k < st A (S i) -> ix A k < i.
  Definition pat_above (A : CS O) : Prop :=
    forall i k, i < psize A -> st A i <= k < st A (S i) -> i < ix A k.

  Lemma st_mono : forall A, wf A -> forall i j, i <= j -> j <= psize A -> st A i <= st A j.
  Proof.
    intros A W i j H. induction H; intros; auto.
    transitivity (st A m). apply IHle; lia. apply W; lia.
  Qed.

  (** ** Hoare rule for the traversal of one primary *)
  Lemma row_iter_wp : forall S (I : nat -> S -> Prop) A i f s,
    wf A -> i < psize A ->
    I (st A i) s ->
    (forall k s, st A i <= k < st A (Datatypes.S i) -> ix A k < ssize A -> I k s ->
        wp (f (ix A k) (vl A k) s) (I (Datatypes.S k))) ->
    wp (row_iter O A i f s) (I (st A (Datatypes.S i))).
  Proof.
    intros S I A i f s W Hi H0 Hs. unfold row_iter.
    assert (L := wf_len A W). assert (M := wf_mono A W i Hi).
    apply wp_bind. apply wp_get with (d := Datatypes.O); [lia|].
    apply wp_bind. apply wp_get with (d := Datatypes.O); [lia|].
    change (nth i (ind_start A) Datatypes.O) with (st A i).
    change (nth (Datatypes.S i) (ind_start A) Datatypes.O) with (st A (Datatypes.S i)).
    destruct (Nat.ltb_spec (st A (Datatypes.S i)) (st A i)); [lia|].
    apply for_range_inv; auto.
    intros k s' Hk Hi'.
    assert (B : st A (Datatypes.S i) <= st A (psize A)) by (apply st_mono; auto; lia).
    assert (L1 := wf_inds A W). assert (L2 := wf_vals A W).
    apply wp_bind. apply wp_get with (d := Datatypes.O); [lia|].
    apply wp_bind. apply wp_get with (d := 0); [lia|].
    apply Hs; auto. apply W; lia.
  Qed.

  Lemma row_iter_rev_wp : forall S (I : nat -> S -> Prop) A i f s,
    wf A -> i < psize A ->
    I (st A (Datatypes.S i)) s ->
    (forall k s, st A i <= k < st A (Datatypes.S i) -> ix A k < ssize A -> I (Datatypes.S k) s ->
        wp (f (ix A k) (vl A k) s) (I k)) ->
    wp (row_iter_rev O A i f s) (I (st A i)).
  Proof.
    intros S I A i f s W Hi H0 Hs. unfold row_iter_rev.
    assert (L := wf_len A W). assert (M := wf_mono A W i Hi).
    apply wp_bind. apply wp_get with (d := Datatypes.O); [lia|].
    apply wp_bind. apply wp_get with (d := Datatypes.O); [lia|].
    change (nth i (ind_start A) Datatypes.O) with (st A i).
    change (nth (Datatypes.S i) (ind_start A) Datatypes.O) with (st A (Datatypes.S i)).
    destruct (Nat.ltb_spec (st A (Datatypes.S i)) (st A i)); [lia|].
    apply for_down_inv.
    { now replace (st A i + (st A (Datatypes.S i) - st A i)) with (st A (Datatypes.S i)) by lia. }
    intros k s' Hk Hi'.
    assert (B : st A (Datatypes.S i) <= st A (psize A)) by (apply st_mono; auto; lia).
    assert (L1 := wf_inds A W). assert (L2 := wf_vals A W).
    apply wp_bind. apply wp_get with (d := Datatypes.O); [lia|].
    apply wp_bind. apply wp_get with (d := 0); [lia|].
    apply Hs; auto; try lia. apply W; lia.
  Qed.

  Lemma rsum_ext : forall A i g g', wf A -> i < psize A ->
    (forall k, st A i <= k < st A (S i) -> g (ix A k) (vl A k) = g' (ix A k) (vl A k)) ->
    rsum A i g = rsum A i g'.
  Proof. intros. unfold rsum. apply sum_ext. intros. apply H1. lia. Qed.

  Section Laws.
    Hypothesis RL : RingLaws O.
    Infix "+" := (tadd O). Infix "*" := (tmul O). Infix "-" := (tsub O).
    Add Ring TCS : (rl_ring O RL).

    (** An additive map of the values, summed against a vector, is a product with
        the denoted matrix. *)
    Lemma rsum_mvec : forall A i (h : T -> T) (x : nat -> T),
      wf A -> (i < psize A)%nat ->
      (forall a b, h (a + b) = h a + h b) -> h 0 = 0 ->
      rsum A i (fun j v => h v * x j) = sum (ssize A) (fun j => h (ent A i j) * x j).
    Proof.
      intros A i h x W Hi Hadd H0.
      assert (Hs : forall n f, h (sum n f) = sum n (fun k => h (f k))).
      { induction n; simpl; intros; auto. now rewrite Hadd, IHn. }
      unfold ent, rsum.
      transitivity (sum (st A (S i) - st A i)%nat (fun k => sum (ssize A) (fun j =>
          h (if Nat.eqb (ix A (st A i + k)) j then vl A (st A i + k) else 0) * x j))).
      - apply sum_ext; intros k Hk.
        rewrite (sum_one_nz O RL (ssize A) (ix A (st A i + k))).
        + now rewrite Nat.eqb_refl.
        + apply W. assert (B : (st A (S i) <= st A (psize A))%nat) by (apply st_mono; auto; lia).
          lia.
        + intros j Hj Hn. destruct (Nat.eqb_spec (ix A (st A i + k)) j); [congruence|].
          rewrite H0. ring.
      - rewrite sum_swap by auto. apply sum_ext; intros j Hj.
        rewrite Hs. now rewrite <- sum_scal_r.
    Qed.

    Lemma rsum_ent_lin : forall A i j (h : T -> T),
      (forall a b, h (a + b) = h a + h b) -> h 0 = 0 ->
      rsum A i (fun j' v => if Nat.eqb j' j then h v else 0) = h (ent A i j).
    Proof.
      intros A i j h Hadd H0.
      assert (Hs : forall n f, h (sum n f) = sum n (fun k => h (f k))).
      { induction n; simpl; intros; auto. now rewrite Hadd, IHn. }
      unfold ent, rsum. rewrite Hs. apply sum_ext; intros.
      destruct (Nat.eqb _ j); auto.
    Qed.

    (** Without a stored index [j] in primary [i] the entry is zero. *)
    Lemma ent_zero : forall A i j, (i < psize A)%nat ->
      (forall k, (st A i <= k < st A (S i))%nat -> ix A k <> j) -> ent A i j = 0.
    Proof.
      intros A i j Hi H. unfold ent, rsum. apply sum_zero; auto. intros k Hk.
      destruct (Nat.eqb_spec (ix A (st A i + k)) j); auto. exfalso. eapply H; eauto. lia.
    Qed.

    (** In sorted storage the entry is the stored value. *)
    Lemma ent_stored : forall A i k, sorted A -> (i < psize A)%nat ->
      (st A i <= k < st A (S i))%nat -> ent A i (ix A k) = vl A k.
    Proof.
      intros A i k Hs Hi Hk. unfold ent, rsum.
      rewrite (sum_one_nz O RL _ (k - st A i)).
      - replace (st A i + (k - st A i))%nat with k by lia. now rewrite Nat.eqb_refl.
      - lia.
      - intros q Hq Hn. destruct (Nat.eqb_spec (ix A (st A i + q)) (ix A k)); auto.
        exfalso. destruct (Nat.lt_trichotomy (st A i + q) k) as [L|[L|L]].
        + pose proof (Hs i (st A i + q)%nat k Hi ltac:(lia) L ltac:(lia)). lia.
        + lia.
        + pose proof (Hs i k (st A i + q)%nat Hi ltac:(lia) L ltac:(lia)). lia.
    Qed.

    Lemma ent_outside : forall A i j, wf A -> (i < psize A)%nat -> (ssize A <= j)%nat -> ent A i j = 0.
    Proof.
      intros A i j W Hi Hj. apply ent_zero; auto. intros k Hk.
      assert (B : (st A (S i) <= st A (psize A))%nat) by (apply st_mono; auto; lia).
      pose proof (wf_range A W k ltac:(lia)). lia.
    Qed.

    Lemma pat_below_ent : forall A i j, pat_below A -> (i < psize A)%nat -> (i <= j)%nat -> ent A i j = 0.
    Proof. intros. apply ent_zero; auto. intros k Hk E. specialize (H i k H0 Hk). lia. Qed.

    Lemma pat_above_ent : forall A i j, pat_above A -> (i < psize A)%nat -> (j <= i)%nat -> ent A i j = 0.
    Proof. intros. apply ent_zero; auto. intros k Hk E. specialize (H i k H0 Hk). lia. Qed.
  End Laws.
End CSSpec.
Arguments st {O}. Arguments ix {O}. Arguments vl {O}. Arguments wf {O}. Arguments sorted {O}.
Arguments valid {O}. Arguments rsum {O}. Arguments ent {O}. Arguments crs_mat {O}.
Arguments ccs_mat {O}. Arguments pat_below {O}. Arguments pat_above {O}.

(** Boolean version of [valid], for concrete matrices. *)
Definition wfb {O} (A : CS O) : bool :=
  (psize A + 1 <=? length (ind_start A)) && (st A 0 =? 0)
  && forallb (fun i => st A i <=? st A (S i)) (seq 0 (psize A))
  && (st A (psize A) <=? length (indices A)) && (st A (psize A) <=? length (vals A))
  && forallb (fun k => ix A k <? ssize A) (seq 0 (st A (psize A))).
Definition sortedb {O} (A : CS O) : bool :=
  forallb (fun i => forallb (fun k => negb (S k <? st A (S i)) || (ix A k <? ix A (S k)))
     (seq (st A i) (st A (S i) - st A i))) (seq 0 (psize A)).

Lemma wfb_wf : forall O (A : CS O), wfb A = true -> wf A.
Proof.
  intros O A H. unfold wfb in H. repeat (apply andb_prop in H; destruct H as [H ?]).
  rewrite forallb_forall in *.
  constructor.
  - now apply Nat.leb_le.
  - now apply Nat.eqb_eq.
  - intros i Hi. apply Nat.leb_le. apply H3. apply in_seq. lia.
  - now apply Nat.leb_le.
  - now apply Nat.leb_le.
  - intros k Hk. apply Nat.ltb_lt. apply H0. apply in_seq. lia.
Qed.

Lemma sorted_consec : forall O (A : CS O),
  (forall i k, i < psize A -> st A i <= k -> S k < st A (S i) -> ix A k < ix A (S k)) -> sorted A.
Proof.
  intros O A H i k l Hi Hk Hkl Hl. revert Hl. induction Hkl; intros.
  - apply (H i); auto.
  - apply Nat.lt_trans with (ix A m). apply IHHkl; lia. apply (H i); auto; lia.
Qed.

Lemma sortedb_sorted : forall O (A : CS O), sortedb A = true -> sorted A.
Proof.
  intros O A H. apply sorted_consec. intros i k Hi Hk HS.
  unfold sortedb in H. rewrite forallb_forall in H.
  specialize (H i ltac:(apply in_seq; lia)). rewrite forallb_forall in H.
  specialize (H k ltac:(apply in_seq; lia)).
  destruct (Nat.ltb_spec (S k) (st A (S i))); [|lia]. simpl in H. now apply Nat.ltb_lt.
Qed.
