(** * LinAlg: solvability of square systems, by Gaussian elimination.

    Used to show that the "exact dense solver" hypothesis of the factorization
    theorems can be met for every nonsingular matrix, and that a matrix without
    kernel has an adjoint without kernel. *)
From Coq Require Import List Arith Lia Bool Ring.
From Verif Require Import Base Scalar Spec CSProofs LevelMath.
Import ListNotations.

Section LA.
  Variable O : Ops.
  Notation T := (T O).
  Notation "0" := (t0 O). Notation "1" := (t1 O).
  Infix "+" := (tadd O). Infix "*" := (tmul O). Infix "-" := (tsub O). Infix "/" := (tdiv O).
  Notation "x ^*" := (tconj O x) (at level 30).
  Variable z : T -> bool.

  (** First row from [i] on, among the next [k], with a nonzero first entry. *)
  Fixpoint find_piv (A : nat -> nat -> T) (i k : nat) : nat :=
    match k with
    | Datatypes.O => i
    | S k => if z (A i Datatypes.O) then find_piv A (S i) k else i
    end.
  Definition swap0 (r i : nat) : nat :=
    if Nat.eqb i Datatypes.O then r else if Nat.eqb i r then Datatypes.O else i.
  Fixpoint gsolve (n : nat) (A : nat -> nat -> T) (b : nat -> T) : nat -> T :=
    match n with
    | Datatypes.O => fun _ => 0
    | S n =>
      let r := find_piv A Datatypes.O n in
      let A' := fun i j => A (swap0 r i) j in
      let b' := fun i => b (swap0 r i) in
      let pv := A' Datatypes.O Datatypes.O in
      let x := gsolve n (fun i j => A' (S i) (S j) - A' (S i) Datatypes.O / pv * A' Datatypes.O (S j))
                        (fun i => b' (S i) - A' (S i) Datatypes.O / pv * b' Datatypes.O) in
      fun j => match j with
               | Datatypes.O => (b' Datatypes.O - sum n (fun j => A' Datatypes.O (S j) * x j)) / pv
               | S j => x j
               end
    end.

  Section Laws.
    Hypothesis FL : FieldLaws O.
    Hypothesis Z : forall x, z x = true <-> x = 0.
    Let RL := fl_ring O FL.
    Add Ring TLA : (rl_ring O RL).

    Lemma inj_ker : forall n A, (forall x, veq n (mvec n A x) (fun _ => 0) -> veq n x (fun _ => 0)) <-> injective_on n A.
    Proof.
      intros n A. split.
      - intros H x y E i Hi. assert (X : x i - y i = 0).
        { apply (H (fun j => x j - y j)); auto. intros k Hk. rewrite (mvec_sub_r O RL), (E k Hk). ring. }
        transitivity (x i - y i + y i); [ring|]. rewrite X. ring.
      - intros H x E. apply (H x (fun _ => 0)). intros i Hi. rewrite (E i Hi). symmetry. apply (sum_zero O RL). intros. ring.
    Qed.

    Lemma find_piv_l : forall A k i, (i <= find_piv A i k)%nat /\ (find_piv A i k <= i + k)%nat /\
      ((exists j, (i <= j <= i + k)%nat /\ A j Datatypes.O <> 0) -> A (find_piv A i k) Datatypes.O <> 0).
    Proof.
      induction k; intros i; cbn [find_piv].
      - split; [lia|]. split; [lia|]. intros (j & Hj & N). replace i with j by lia. auto.
      - destruct (z (A i Datatypes.O)) eqn:E.
        + destruct (IHk (S i)) as (H1 & H2 & H3). split; [lia|]. split; [lia|]. intros (j & Hj & N). apply H3. exists j. split; auto.
          destruct (Nat.eq_dec j i); [|lia]. subst j. apply Z in E. contradiction.
        + split; [lia|]. split; [lia|]. intros _ C. apply Z in C. congruence.
    Qed.
    Lemma find_piv_lt : forall n (A : nat -> nat -> T), injective_on (S n) A ->
      (find_piv A Datatypes.O n < S n)%nat /\ A (find_piv A Datatypes.O n) Datatypes.O <> 0.
    Proof.
      intros n A H. destruct (find_piv_l A n Datatypes.O) as (_ & H2 & H3). split; [lia|]. 
      intros C. apply (fl_one O FL).
      assert (X : forall j, (j < S n)%nat -> A j Datatypes.O = 0).
      { intros j Hj. destruct (z (A j Datatypes.O)) eqn:E; [now apply Z|]. exfalso. apply H3; auto. exists j. split; [lia|].
        intros E'. apply Z in E'. congruence. }
      apply (proj2 (inj_ker (S n) A) H (fun j => if Nat.eqb j Datatypes.O then 1 else 0)) with (i := Datatypes.O); [|lia].
      intros i Hi. unfold mvec. rewrite (sum_one_nz O RL (S n) Datatypes.O).
      - cbn [Nat.eqb]. rewrite X by auto. ring.
      - lia.
      - intros k Hk N. destruct (Nat.eqb_spec k Datatypes.O); [lia|ring].
    Qed.
    Lemma swap0_lt : forall n r i, (r < n)%nat -> (i < n)%nat -> (swap0 r i < n)%nat.
    Proof. intros. unfold swap0. destruct (Nat.eqb_spec i Datatypes.O); auto. destruct (Nat.eqb_spec i r); auto. lia. Qed.
    Lemma swap0_inv : forall r i, swap0 r (swap0 r i) = i.
    Proof.
      intros. unfold swap0. destruct (Nat.eqb_spec i Datatypes.O).
      - subst. destruct (Nat.eqb_spec r Datatypes.O); auto. rewrite Nat.eqb_refl. auto.
      - destruct (Nat.eqb_spec i r).
        + subst. cbn [Nat.eqb]. auto.
        + destruct (Nat.eqb_spec i Datatypes.O); [lia|]. destruct (Nat.eqb_spec i r); [lia|auto].
    Qed.
    Lemma swap_veq : forall n r (f g : nat -> T), (r < n)%nat ->
      veq n (fun i => f (swap0 r i)) (fun i => g (swap0 r i)) <-> veq n f g.
    Proof.
      intros. split; intros E i Hi.
      - specialize (E (swap0 r i) (swap0_lt n r i H Hi)). cbn beta in E. now rewrite swap0_inv in E.
      - cbn beta. apply E. now apply swap0_lt.
    Qed.

    Lemma mvec_S : forall n (A : nat -> nat -> T) x i,
      mvec (S n) A x i = A i Datatypes.O * x Datatypes.O + sum n (fun j => A i (S j) * x (S j)).
    Proof. intros. unfold mvec. now rewrite (sum_S_l O RL). Qed.

    (** One elimination step. *)
    Lemma elim_step : forall n (A : nat -> nat -> T) x c i, c <> 0 -> A Datatypes.O Datatypes.O = c ->
      mvec n (fun i j => A (S i) (S j) - A (S i) Datatypes.O / c * A Datatypes.O (S j)) (fun j => x (S j)) i =
      mvec (S n) A x (S i) - A (S i) Datatypes.O / c * mvec (S n) A x Datatypes.O.
    Proof.
      intros n A x c i Hc E. rewrite !mvec_S. unfold mvec.
      set (q := A (S i) Datatypes.O / c). 
      transitivity (sum n (fun j => A (S i) (S j) * x (S j) - q * (A Datatypes.O (S j) * x (S j)))).
      { apply sum_ext. intros. ring. }
      rewrite (sum_sub O RL), (sum_scal_l O RL), E.
      assert (Q : A (S i) Datatypes.O = q * c) by (unfold q; rewrite (div_mul O FL); auto).
      rewrite Q. ring.
    Qed.

    Lemma gsolve_l : forall n A b, injective_on n A -> veq n (mvec n A (gsolve n A b)) b.
    Proof.
      induction n; intros A b H; [intros i Hi; lia|].
      destruct (find_piv_lt n A H) as (Hr & Hp). cbn [gsolve]. set (r := find_piv A Datatypes.O n) in *.
      set (A' := fun i j => A (swap0 r i) j). set (b' := fun i => b (swap0 r i)).
      set (pv := A' Datatypes.O Datatypes.O). assert (Hpv : pv <> 0) by (unfold pv, A', swap0; cbn; exact Hp).
      set (S' := fun i j => A' (S i) (S j) - A' (S i) Datatypes.O / pv * A' Datatypes.O (S j)).
      set (x := gsolve n S' (fun i => b' (S i) - A' (S i) Datatypes.O / pv * b' Datatypes.O)).
      assert (HA' : injective_on (S n) A').
      { intros u v E. apply H. apply (proj1 (swap_veq (S n) r _ _ Hr)). exact E. }
      assert (HS : injective_on n S').
      { apply inj_ker. intros u Hu.
        set (w := fun j => match j with Datatypes.O => (0 - sum n (fun j => A' Datatypes.O (S j) * u j)) / pv | S j => u j end).
        assert (W0 : mvec (S n) A' w Datatypes.O = 0).
        { rewrite mvec_S. unfold w. change (A' Datatypes.O Datatypes.O) with pv.
          transitivity ((0 - sum n (fun j => A' Datatypes.O (S j) * u j)) / pv * pv + sum n (fun j => A' Datatypes.O (S j) * u j)); [ring|].
          rewrite (div_mul O FL) by auto. ring. }
        assert (W : veq (S n) w (fun _ => 0)).
        { apply (proj2 (inj_ker (S n) A') HA'). intros [|i] Hi; [exact W0|].
          assert (E : mvec n S' u i = mvec (S n) A' w (S i) - A' (S i) Datatypes.O / pv * mvec (S n) A' w Datatypes.O).
          { exact (elim_step n A' w pv i Hpv eq_refl). }
          rewrite (Hu i) in E by lia. rewrite W0 in E.
          transitivity (mvec (S n) A' w (S i) - A' (S i) Datatypes.O / pv * 0); [ring|]. rewrite <- E. auto. }
        intros j Hj. exact (W (S j) (proj1 (Nat.succ_lt_mono j n) Hj)). }
      pose proof (IHn S' (fun i => b' (S i) - A' (S i) Datatypes.O / pv * b' Datatypes.O) HS) as IH. fold x in IH.
      set (y := fun j => match j with Datatypes.O => (b' Datatypes.O - sum n (fun j => A' Datatypes.O (S j) * x j)) / pv | S j => x j end).
      assert (Y0 : mvec (S n) A' y Datatypes.O = b' Datatypes.O).
      { rewrite mvec_S. unfold y. change (A' Datatypes.O Datatypes.O) with pv.
        transitivity ((b' Datatypes.O - sum n (fun j => A' Datatypes.O (S j) * x j)) / pv * pv + sum n (fun j => A' Datatypes.O (S j) * x j)); [ring|].
        rewrite (div_mul O FL) by auto. ring. }
      assert (Y : veq (S n) (mvec (S n) A' y) b').
      { intros [|i] Hi; [exact Y0|].
        assert (E : mvec n S' x i = mvec (S n) A' y (S i) - A' (S i) Datatypes.O / pv * mvec (S n) A' y Datatypes.O).
        { exact (elim_step n A' y pv i Hpv eq_refl). }
        rewrite (IH i) in E by lia. rewrite Y0 in E.
        transitivity (mvec (S n) A' y (S i) - A' (S i) Datatypes.O / pv * b' Datatypes.O + A' (S i) Datatypes.O / pv * b' Datatypes.O); [ring|].
        rewrite <- E. ring. }
      apply (proj1 (swap_veq (S n) r _ _ Hr)). exact Y.
    Qed.

    Lemma adj_inj : forall n (A : nat -> nat -> T), injective_on n A -> injective_on n (madj A).
    Proof.
      intros n A H. apply inj_ker. intros x E i Hi.
      set (e := fun j => if Nat.eqb j i then 1 else 0).
      pose proof (gsolve_l n A e H) as G.
      assert (X : inner n (mvec n A (gsolve n A e)) x = 0).
      { rewrite (adjoint_spec O RL). apply (sum_zero O RL). intros k Hk. rewrite (E k Hk), (conj_0 O RL). ring. }
      assert (X2 : inner n (mvec n A (gsolve n A e)) x = (x i)^*).
      { unfold inner. rewrite (sum_one_nz O RL n i); auto.
        - rewrite (G i Hi). unfold e. rewrite Nat.eqb_refl. ring.
        - intros k Hk N. rewrite (G k Hk). unfold e. destruct (Nat.eqb_spec k i); [contradiction|ring]. }
      rewrite X in X2. rewrite <- (rl_conj_inv O RL (x i)), <- X2. apply conj_0; auto.
    Qed.
  End Laws.
End LA.
