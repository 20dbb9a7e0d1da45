(** * DenseSpec: what the dense solvers of the last level should do, and the
    contracts of the LAPACK routines they call.  Only [DenseModel.dget]-style
    column-major addressing is shared with the model. *)
From Coq Require Import List Arith Bool QArith Qabs Permutation.
From Verif Require Import Base Scalar Spec DenseModel.
Import ListNotations.
Local Open Scope nat_scope.

Section DS.
  Context {O : Ops}.
  Notation T := (T O).
  Notation "0" := (t0 O).
  Infix "+" := (tadd O). Infix "*" := (tmul O).

  (** Entry [(i, j)] of the column-major array [m] with [nr] rows. *)
  Definition cm (nr : nat) (m : list T) (i j : nat) : T := nth (i + j * nr)%nat m 0.
  (** Its upper triangular part. *)
  Definition upper (nr : nat) (m : list T) (i j : nat) : T := if i <=? j then cm nr m i j else 0.
  (** Column of the [j]-th pivot (LAPACK's pivots are 1-based). *)
  Definition piv (jpvt : list nat) (j : nat) : nat := (nth j jpvt Datatypes.O - 1)%nat.

  (** The pivot array is a permutation. *)
  Definition good_pivots (n : nat) (jpvt : list nat) : Prop :=
    length jpvt = n /\ (forall i, (i < n)%nat -> (1 <= nth i jpvt Datatypes.O <= n)%nat) /\
    (forall i j, (i < n)%nat -> (j < n)%nat -> nth i jpvt Datatypes.O = nth j jpvt Datatypes.O -> i = j).

  (** Contract of [geqp3]: [A(:, p) = Q R] with [Q] unitary, [R] in the upper triangle of [m]. *)
  Record geqp3_ok (n : nat) (A : nat -> nat -> T) (m : list T) (jpvt : list nat) (Q : nat -> nat -> T) : Prop := {
    gq_len : length m = (n * n)%nat;
    gq_piv : good_pivots n jpvt;
    gq_fac : forall i j, (i < n)%nat -> (j < n)%nat -> A i (piv jpvt j) = sum n (fun k => Q i k * upper n m k j);
    gq_q1 : forall i j, (i < n)%nat -> (j < n)%nat -> sum n (fun k => tconj O (Q k i) * Q k j) = mid i j;
    gq_q2 : forall i j, (i < n)%nat -> (j < n)%nat -> sum n (fun k => Q i k * tconj O (Q j k)) = mid i j }.

  (** Contract of [ormqr] with [r] reflectors: the first [r] entries of [Q^H v] and, on a vector
      whose other entries are zero, [Q v]. *)
  Record ormqr_ok (n : nat) (Q : nat -> nat -> T) (ormqr : bool -> nat -> list T -> list T) : Prop := {
    oq_len : forall tr r v, (r <= n)%nat -> length v = n -> length (ormqr tr r v) = n;
    oq_adj : forall r v j, (r <= n)%nat -> length v = n -> (j < r)%nat ->
      nth j (ormqr true r v) 0 = sum n (fun i => tconj O (Q i j) * v_ v i);
    oq_app : forall r v i, (r <= n)%nat -> length v = n -> (i < n)%nat ->
      (forall j, (r <= j < n)%nat -> nth j v 0 = 0) -> nth i (ormqr false r v) 0 = sum r (fun j => Q i j * v_ v j) }.

  (** [j] is one of the first [r] pivot columns. *)
  Definition pivot_col (jpvt : list nat) (r j : nat) : Prop := exists k, (k < r)%nat /\ j = piv jpvt k.

  (** [z] is the basic least-squares solution of [A z = b] on the first [r] pivot columns:
      it vanishes elsewhere and the residual is orthogonal to these columns. *)
  Definition basic_solution (n : nat) (A : nat -> nat -> T) (jpvt : list nat) (r : nat) (b z : list T) : Prop :=
    length z = n /\ (forall j, (j < n)%nat -> ~ pivot_col jpvt r j -> v_ z j = 0) /\
    (forall j, pivot_col jpvt r j -> sum n (fun i => tconj O (A i j) * tsub O (v_ b i) (mvec n A (v_ z) i)) = 0).
  (** [z] solves the equations of [A^H z = b] belonging to these columns and lies in their span. *)
  Definition basic_solution_adj (n : nat) (A : nat -> nat -> T) (jpvt : list nat) (r : nat) (b z : list T) : Prop :=
    length z = n /\ (forall j, pivot_col jpvt r j -> mvec n (madj A) (v_ z) j = v_ b j) /\
    (exists c : nat -> T, forall i, (i < n)%nat -> v_ z i = sum r (fun k => A i (piv jpvt k) * c k)).
End DS.

(** Column [j] of [nrhs] right-hand sides stored row by row. *)
Definition rhs_col {A} (d : A) (j : nat) (x : list (list A)) : list A := map (fun row => nth j row d) x.

(** The most a solver can divide by: contracts of [laic1] on magnitudes. *)
Section Laic.
  Context {O : Ops}.
  Variable is0 : T O -> bool.
  Variable mag : T O -> Q.
  Variable laic1 : bool -> nat -> list (T O) -> Q -> list (T O) -> T O -> Q * T O * T O.
  Local Open Scope Q_scope.

  (** A zero pivot makes the estimate of the smallest singular value zero; the estimate of the
      largest one stays positive. *)
  Record laic1_ok : Prop := {
    la_min0 : forall r x s w g, is0 g = true -> 0 <= s -> fst (fst (laic1 false r x s w g)) == 0;
    la_min : forall r x s w g, 0 <= s -> 0 <= fst (fst (laic1 false r x s w g));
    la_max : forall r x s w g, 0 < s -> 0 < fst (fst (laic1 true r x s w g)) }.

  (** A new row and column that do not interact with the vector so far, and are no larger
      than the estimate: the largest estimate and its vector stay; the smallest estimate is the
      new diagonal entry. *)
  Record laic1_special : Prop := {
    ls_max : forall r x s w g, (forall i, (i < r)%nat -> nth i x (t0 O) = t0 O \/ nth i w (t0 O) = t0 O) -> 0 < s -> mag g <= s ->
      laic1 true r x s w g = (s, t1 O, t0 O);
    ls_min : forall r x s w g, (forall i, (i < r)%nat -> nth i x (t0 O) = t0 O \/ nth i w (t0 O) = t0 O) -> 0 < s -> mag g <= s ->
      laic1 false r x s w g = (mag g, t0 O, t1 O) }.

  (** The vector and the estimate of the smallest singular value of the leading [r] by [r] block of
      [R], the triangle in [m]: start from the unit vector and [|R(0,0)|], then extend. *)
  Fixpoint min_est (jv : T O) (nr nc : nat) (m : list (T O)) (r : nat) : list (T O) * Q :=
    match r with
    | 0%nat => (map (fun i => if (i =? 0)%nat then t1 O else jv) (seq 0 nc), mag (cm nr m 0 0))
    | S r =>
      let '(x, s) := min_est jv nr nc m r in
      let '(s', s1, c1) := laic1 false r x s (map (fun i => cm nr m i r) (seq 0 nr)) (cm nr m r r) in
      (map (fun i => if (i <? r)%nat then tmul O (nth i x (t0 O)) s1 else if (i =? r)%nat then c1 else nth i x (t0 O)) (seq 0 nc), s')
    end.

  Record mag_ok : Prop := { mg_nn : forall a, 0 <= mag a; mg_0 : forall a, is0 a = true <-> mag a == 0 }.
End Laic.

(** Laws of the (rounded) product of magnitudes used by the rank decisions. *)
Record fmul_ok (fmul : Q -> Q -> Q) : Prop := {
  fm_0 : forall a b, (a == 0)%Q -> (fmul a b == 0)%Q;
  fm_pos : forall a b, (0 < a)%Q -> (0 < b)%Q -> (0 < fmul a b)%Q;
  fm_mono : forall a b t, (0 <= a)%Q -> (a <= b)%Q -> (0 < t)%Q -> (fmul a t <= fmul b t)%Q }.

(** Contract of [syev]: [A = Q diag(w) Q^H] with [Q] unitary; [gemv] multiplies by [Q^H] and [Q]. *)
Section Eig.
  Context {O : Ops}.
  Variable inj : Q -> T O.
  Record syev_ok (n : nat) (A : nat -> nat -> T O) (w : list Q) (V : nat -> nat -> T O) (gemv : bool -> list (T O) -> list (T O)) : Prop := {
    sv_len : length w = n;
    sv_fac : forall i j, i < n -> j < n -> A i j = sum n (fun k => tmul O (tmul O (V i k) (inj (nth k w 0%Q))) (tconj O (V j k)));
    sv_v1 : forall i j, i < n -> j < n -> sum n (fun k => tmul O (tconj O (V k i)) (V k j)) = mid i j;
    sv_v2 : forall i j, i < n -> j < n -> sum n (fun k => tmul O (V i k) (tconj O (V j k))) = mid i j;
    sv_glen : forall b v, length v = n -> length (gemv b v) = n;
    sv_gadj : forall v j, length v = n -> j < n -> nth j (gemv true v) (t0 O) = sum n (fun i => tmul O (tconj O (V i j)) (v_ v i));
    sv_gapp : forall v i, length v = n -> i < n -> nth i (gemv false v) (t0 O) = sum n (fun j => tmul O (V i j) (v_ v j)) }.
  (** The inner product of eigenvector [k] with a vector. *)
  Definition eig_coord (n : nat) (V : nat -> nat -> T O) (k : nat) (x : nat -> T O) : T O := sum n (fun i => tmul O (tconj O (V i k)) (x i)).
  (** Eigenvalue [k] is among the first [r] of the order. *)
  Definition kept (order : list nat) (r k : nat) : Prop := exists i, i < r /\ nth i order 0 = k.
End Eig.

(** Contract of [std::sort]. *)
Definition sort_ok (sort : (nat -> nat -> bool) -> list nat -> list nat) : Prop :=
  forall lt l,
    (forall a, In a l -> lt a a = false) ->
    (forall a b c, In a l -> In b l -> In c l -> lt a b = true -> lt b c = true -> lt a c = true) ->
    (forall a b c, In a l -> In b l -> In c l -> lt a b = false -> lt b c = false -> lt a c = false) ->
    Permutation l (sort lt l) /\
    forall i j d, (i < j < length l)%nat -> lt (nth j (sort lt l) d) (nth i (sort lt l) d) = false.
