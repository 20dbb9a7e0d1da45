(** * Spec: the mathematical objects the properties talk about.

    This file is the independent specification: finite sums, matrices as
    functions of two indices, matrix-vector products, adjoints, triangularity
    and permutations.  It does not mention any data structure of the code. *)

From Coq Require Import List Arith Lia Ring Ring_theory Bool.
From Verif Require Import Base Scalar.
Import ListNotations.

Section Spec.
  Variable O : Ops.
  Notation T := (T O).
  Notation "0" := (t0 O). Notation "1" := (t1 O).
  Infix "+" := (tadd O). Infix "*" := (tmul O). Infix "-" := (tsub O).
  Notation "- x" := (topp O x). Notation "x ^*" := (tconj O x) (at level 30).

  (** [sum n f = f 0 + f 1 + ... + f (n-1)] *)
  Fixpoint sum (n : nat) (f : nat -> T) : T :=
    match n with
    | Datatypes.O => 0
    | S n' => sum n' f + f n'
    end.

  Definition vec := nat -> T.
  Definition mat := nat -> nat -> T.

  (** Contents of an array seen as a vector. *)
  Definition v_ (l : list T) : vec := fun i => nth i l 0.

  (** [(A x)_i], [A] with [n] columns. *)
  Definition mvec (n : nat) (A : mat) (x : vec) : vec := fun i => sum n (fun j => A i j * x j).
  (** Conjugate transpose. *)
  Definition madj (A : mat) : mat := fun i j => (A j i)^*.
  Definition mid : mat := fun i j => if Nat.eqb i j then 1 else 0.
  Definition madd (A B : mat) : mat := fun i j => A i j + B i j.
  Definition msub (A B : mat) : mat := fun i j => A i j - B i j.
  Definition mmul (n : nat) (A B : mat) : mat := fun i j => sum n (fun k => A i k * B k j).
  Definition mdiag (d : vec) : mat := fun i j => if Nat.eqb i j then d i else 0.
  Definition inner (n : nat) (x y : vec) : T := sum n (fun i => x i * (y i)^*).

  Definition veq (n : nat) (x y : vec) : Prop := forall i, (i < n)%nat -> x i = y i.
  Definition meq (m n : nat) (A B : mat) : Prop :=
    forall i j, (i < m)%nat -> (j < n)%nat -> A i j = B i j.

  Definition strict_lower (n : nat) (A : mat) : Prop :=
    forall i j, (i < n)%nat -> (j < n)%nat -> (i <= j)%nat -> A i j = 0.
  Definition strict_upper (n : nat) (A : mat) : Prop :=
    forall i j, (i < n)%nat -> (j < n)%nat -> (j <= i)%nat -> A i j = 0.

  (** [y'] is the outcome of solving the unit triangular system [(I+M) y' = b]
      in place: it satisfies the equations, it is the only vector that does, and
      entries of the buffer beyond [n] are untouched. *)
  Definition unit_solve_spec (n : nat) (M : mat) (b y' : list T) : Prop :=
    length y' = length b /\
    veq n (mvec n (madd mid M) (v_ y')) (v_ b) /\
    (forall x, veq n (mvec n (madd mid M) x) (v_ b) -> veq n x (v_ y')) /\
    (forall i, (n <= i)%nat -> v_ y' i = v_ b i).

  (** ** Facts about sums *)
  Lemma sum_ext : forall n f g, (forall i, (i < n)%nat -> f i = g i) -> sum n f = sum n g.
  Proof. induction n; simpl; intros; auto. rewrite (IHn f g), H; auto. Qed.

  Section Laws.
    Hypothesis RL : RingLaws O.
    Add Ring TS : (rl_ring O RL).

    Lemma sum_zero : forall n f, (forall i, (i < n)%nat -> f i = 0) -> sum n f = 0.
    Proof. induction n; simpl; intros; auto. rewrite IHn, H; auto. ring. Qed.

    Lemma sum_add : forall n f g, sum n (fun i => f i + g i) = sum n f + sum n g.
    Proof. induction n; simpl; intros. ring. rewrite IHn. ring. Qed.

    Lemma sum_sub : forall n f g, sum n (fun i => f i - g i) = sum n f - sum n g.
    Proof. induction n; simpl; intros. ring. rewrite IHn. ring. Qed.

    Lemma sum_scal_l : forall n c f, sum n (fun i => c * f i) = c * sum n f.
    Proof. induction n; simpl; intros. ring. rewrite IHn. ring. Qed.

    Lemma sum_scal_r : forall n c f, sum n (fun i => f i * c) = sum n f * c.
    Proof. induction n; simpl; intros. ring. rewrite IHn. ring. Qed.

    Lemma sum_swap : forall n m f,
      sum n (fun i => sum m (fun j => f i j)) = sum m (fun j => sum n (fun i => f i j)).
    Proof.
      induction n; simpl; intros.
      - symmetry. apply sum_zero; auto.
      - rewrite IHn. rewrite <- sum_add. auto.
    Qed.

    Lemma sum_delta : forall n k (f : nat -> T), (k < n)%nat ->
      sum n (fun i => if Nat.eqb k i then f i else 0) = f k.
    Proof.
      induction n; simpl; intros; [lia|].
      destruct (Nat.eqb_spec k n).
      - subst. rewrite sum_zero. ring. intros. destruct (Nat.eqb_spec n i); auto; lia.
      - rewrite IHn by lia. ring.
    Qed.

    Lemma sum_delta' : forall n k (f : nat -> T), (k < n)%nat ->
      sum n (fun i => if Nat.eqb i k then f i else 0) = f k.
    Proof.
      intros. rewrite <- (sum_delta n k f H). apply sum_ext. intros.
      now rewrite Nat.eqb_sym.
    Qed.

    Lemma sum_split : forall n m f, sum (n + m) f = sum n f + sum m (fun i => f (n + i)%nat).
    Proof.
      induction m; simpl; intros.
      - rewrite Nat.add_0_r. ring.
      - rewrite Nat.add_succ_r. simpl. rewrite IHm. ring.
    Qed.

    Lemma sum_S_l : forall n f, sum (S n) f = f Datatypes.O + sum n (fun i => f (S i)).
    Proof. intros. change (S n) with (Nat.add (S Datatypes.O) n). rewrite sum_split. simpl. ring. Qed.

    Lemma sum_conj : forall n f, (sum n f)^* = sum n (fun i => (f i)^*).
    Proof.
      induction n; simpl; intros. apply conj_0; auto.
      now rewrite (rl_conj_add O RL), IHn.
    Qed.

    Lemma sum_opp : forall n f, sum n (fun i => - f i) = - sum n f.
    Proof. induction n; simpl; intros. ring. rewrite IHn. ring. Qed.

    Lemma sum_one_nz : forall n k (f : nat -> T), (k < n)%nat ->
      (forall i, (i < n)%nat -> i <> k -> f i = 0) -> sum n f = f k.
    Proof.
      intros. rewrite <- (sum_delta n k f H). apply sum_ext. intros.
      destruct (Nat.eqb_spec k i); auto.
    Qed.

    (** Matrix algebra used by the properties. *)
    Lemma mvec_mmul : forall m n A B x i,
      mvec m (mmul n A B) x i = mvec n A (mvec m B x) i.
    Proof.
      intros. unfold mvec, mmul.
      transitivity (sum m (fun j => sum n (fun k => A i k * B k j * x j))).
      - apply sum_ext; intros. now rewrite <- sum_scal_r.
      - rewrite sum_swap. apply sum_ext; intros. rewrite <- sum_scal_l.
        apply sum_ext; intros. ring.
    Qed.

    Lemma mvec_ext : forall n A B x y i,
      (forall j, (j < n)%nat -> A i j = B i j) -> (forall j, (j < n)%nat -> x j = y j) ->
      mvec n A x i = mvec n B y i.
    Proof. intros. unfold mvec. apply sum_ext; intros. now rewrite H, H0. Qed.

    Lemma mvec_add_r : forall n A x y i,
      mvec n A (fun j => x j + y j) i = mvec n A x i + mvec n A y i.
    Proof. intros. unfold mvec. rewrite <- sum_add. apply sum_ext; intros; ring. Qed.

    Lemma mvec_sub_r : forall n A x y i,
      mvec n A (fun j => x j - y j) i = mvec n A x i - mvec n A y i.
    Proof. intros. unfold mvec. rewrite <- sum_sub. apply sum_ext; intros; ring. Qed.

    Lemma mvec_madd : forall n A B x i,
      mvec n (madd A B) x i = mvec n A x i + mvec n B x i.
    Proof. intros. unfold mvec, madd. rewrite <- sum_add. apply sum_ext; intros; ring. Qed.

    Lemma mvec_mid : forall n x i, (i < n)%nat -> mvec n mid x i = x i.
    Proof.
      intros. unfold mvec, mid. rewrite <- (sum_delta n i x H). apply sum_ext; intros.
      destruct (Nat.eqb i i0); ring.
    Qed.

    Lemma mvec_diag : forall n d x i, (i < n)%nat -> mvec n (mdiag d) x i = d i * x i.
    Proof.
      intros. unfold mvec, mdiag. rewrite <- (sum_delta n i (fun j => d i * x j) H).
      apply sum_ext; intros. destruct (Nat.eqb i i0); ring.
    Qed.

    (** [<A x, y> = <x, A^H y>], [A] of size [m] by [n]. *)
    Lemma adjoint_spec : forall m n A x y,
      inner m (mvec n A x) y = inner n x (mvec m (madj A) y).
    Proof.
      intros. unfold inner, mvec, madj.
      transitivity (sum m (fun i => sum n (fun j => A i j * x j * (y i)^*))).
      - apply sum_ext; intros. now rewrite <- sum_scal_r.
      - rewrite sum_swap. apply sum_ext; intros. rewrite sum_conj, <- sum_scal_l.
        apply sum_ext; intros. rewrite (rl_conj_mul O RL), (rl_conj_inv O RL). ring.
    Qed.
  End Laws.
End Spec.

Arguments sum {O}. Arguments v_ {O}. Arguments mvec {O}. Arguments madj {O}. Arguments mid {O}.
Arguments madd {O}. Arguments msub {O}. Arguments mmul {O}. Arguments mdiag {O}.
Arguments inner {O}. Arguments veq {O}. Arguments meq {O}. Arguments strict_lower {O}.
Arguments strict_upper {O}. Arguments unit_solve_spec {O}.

(** ** Permutations of [0..n-1] given as arrays *)

(** [p] (as an array of length at least [n]) is a bijection of [0..n-1]. *)
Definition is_perm (n : nat) (p : list nat) : Prop :=
  length p = n /\
  (forall i, i < n -> nth i p 0 < n) /\
  (forall i j, i < n -> j < n -> nth i p 0 = nth j p 0 -> i = j).

(** [pinv] is the inverse of [p]. *)
Definition is_inv (n : nat) (p pinv : list nat) : Prop :=
  length p = n /\ length pinv = n /\
  (forall i, i < n -> nth i p 0 < n /\ nth (nth i p 0) pinv 0 = i) /\
  (forall i, i < n -> nth i pinv 0 < n /\ nth (nth i pinv 0) p 0 = i).

Lemma is_inv_perm : forall n p q, is_inv n p q -> is_perm n p.
Proof.
  intros n p q (H1 & H2 & H3 & H4). split; [auto|split].
  - intros; apply H3; auto.
  - intros i j Hi Hj E. destruct (H3 i Hi) as [_ A]. destruct (H3 j Hj) as [_ B].
    congruence.
Qed.

Lemma is_inv_sym : forall n p q, is_inv n p q -> is_inv n q p.
Proof. unfold is_inv; intuition. Qed.
