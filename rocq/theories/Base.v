(** * Base: outcomes, checked arrays, loops.

    Nothing in this file models a particular function of the code base; it fixes
    how C++ statements are written down in the model:
    - [res A] is the outcome of a C++ routine: a value, a raised [hif_error]
      ([Err]), or undefined behaviour ([UB], e.g. an access outside an array);
    - [get]/[set] are array reads/writes that are [UB] outside the array;
    - [for_range]/[for_down] are the [for (i = lo; i < hi; ++i)] and
      [for (i = hi; i != lo; --i) {... i-1 ...}] loops. *)

From Coq Require Import List Arith Lia Bool PeanoNat.
Import ListNotations.

Inductive res (A : Type) : Type :=
| Ok (a : A)
| Err
| UB.
Arguments Ok {A} a.
Arguments Err {A}.
Arguments UB {A}.

Definition bind {A B} (m : res A) (f : A -> res B) : res B :=
  match m with
  | Ok a => f a
  | Err => Err
  | UB => UB
  end.

Declare Scope res_scope.
Delimit Scope res_scope with res.
Notation "x <- m ;; k" := (bind m (fun x => k))
  (at level 61, m at next level, right associativity) : res_scope.
Notation "' p <- m ;; k" := (bind m (fun x => let p := x in k))
  (at level 61, p pattern, m at next level, right associativity) : res_scope.
Open Scope res_scope.

(** Weakest precondition: [m] returns normally, with a value satisfying [Q]. *)
Definition wp {A} (m : res A) (Q : A -> Prop) : Prop :=
  match m with
  | Ok a => Q a
  | Err => False
  | UB => False
  end.

Lemma wp_ok : forall A (a : A) (Q : A -> Prop), Q a -> wp (Ok a) Q.
Proof. intros; assumption. Qed.

Lemma wp_bind : forall A B (m : res A) (f : A -> res B) Q,
  wp m (fun a => wp (f a) Q) -> wp (bind m f) Q.
Proof. intros A B [a| |] f Q H; simpl in *; auto. Qed.

Lemma wp_conseq : forall A (m : res A) (P Q : A -> Prop),
  wp m P -> (forall a, P a -> Q a) -> wp m Q.
Proof. intros A [a| |] P Q H HPQ; simpl in *; auto. Qed.

Lemma wp_inv : forall A (m : res A) Q, wp m Q -> exists a, m = Ok a /\ Q a.
Proof. intros A [a| |] Q H; simpl in *; try contradiction. exists a; auto. Qed.

Lemma wp_intro : forall A (m : res A) a (Q : A -> Prop), m = Ok a -> Q a -> wp m Q.
Proof. intros; subst; simpl; auto. Qed.

Lemma wp_and : forall A (m : res A) (P Q : A -> Prop),
  wp m P -> wp m Q -> wp m (fun a => P a /\ Q a).
Proof. intros A [a| |] P Q; simpl; auto. Qed.

Lemma wp_ok_inv : forall A (m : res A) a (Q : A -> Prop), m = Ok a -> wp m Q -> Q a.
Proof. intros; subst; auto. Qed.

(** ** Checked arrays *)

Definition get {A} (l : list A) (i : nat) : res A :=
  match nth_error l i with
  | Some a => Ok a
  | None => UB
  end.

Fixpoint upd {A} (l : list A) (i : nat) (v : A) : list A :=
  match l, i with
  | [], _ => []
  | _ :: t, 0 => v :: t
  | a :: t, S j => a :: upd t j v
  end.

Definition set {A} (l : list A) (i : nat) (v : A) : res (list A) :=
  if i <? length l then Ok (upd l i v) else UB.

Lemma upd_length : forall A (l : list A) i v, length (upd l i v) = length l.
Proof. induction l; destruct i; simpl; auto. Qed.

Lemma nth_upd_eq : forall A (l : list A) i v d,
  i < length l -> nth i (upd l i v) d = v.
Proof. induction l; destruct i; simpl; intros; try lia; auto. apply IHl; lia. Qed.

Lemma nth_upd_neq : forall A (l : list A) i j v d,
  i <> j -> nth j (upd l i v) d = nth j l d.
Proof.
  induction l; destruct i, j; simpl; intros; auto; try lia.
Qed.

Lemma nth_upd : forall A (l : list A) i j v d,
  i < length l -> nth j (upd l i v) d = if j =? i then v else nth j l d.
Proof.
  intros. destruct (Nat.eqb_spec j i).
  - subst. now apply nth_upd_eq.
  - now apply nth_upd_neq; auto.
Qed.

Lemma upd_overflow : forall A (l : list A) i v, length l <= i -> upd l i v = l.
Proof. induction l; destruct i; simpl; intros; auto; try lia. f_equal; apply IHl; lia. Qed.

Lemma get_nth : forall A (l : list A) i d, i < length l -> get l i = Ok (nth i l d).
Proof.
  intros. unfold get. rewrite (nth_error_nth' l d H). reflexivity.
Qed.

Lemma get_ok : forall A (l : list A) i a, get l i = Ok a -> i < length l /\ forall d, nth i l d = a.
Proof.
  unfold get; intros A l i a H. destruct (nth_error l i) eqn:E; inversion H; subst.
  split.
  - apply nth_error_Some. congruence.
  - intros. now apply nth_error_nth.
Qed.

Lemma set_ok : forall A (l : list A) i v, i < length l -> set l i v = Ok (upd l i v).
Proof. intros. unfold set. apply Nat.ltb_lt in H. now rewrite H. Qed.

Lemma wp_get : forall A (l : list A) i d (Q : A -> Prop),
  i < length l -> Q (nth i l d) -> wp (get l i) Q.
Proof. intros. rewrite (get_nth _ _ _ d H). auto. Qed.

Lemma wp_set : forall A (l : list A) i v (Q : list A -> Prop),
  i < length l -> Q (upd l i v) -> wp (set l i v) Q.
Proof. intros. rewrite set_ok by auto. auto. Qed.

(** ** Loops *)

(** [for (i = lo; i < lo + n; ++i) s = f i s] *)
Fixpoint for_n {S} (lo n : nat) (f : nat -> S -> res S) (s : S) : res S :=
  match n with
  | 0 => Ok s
  | Datatypes.S n' => s' <- f lo s ;; for_n (Datatypes.S lo) n' f s'
  end.

(** [for (i = lo; i < hi; ++i)] *)
Definition for_range {S} (lo hi : nat) (f : nat -> S -> res S) (s : S) : res S :=
  for_n lo (hi - lo) f s.

(** [for (i = lo + n; i != lo; --i) s = f (i-1) s] *)
Fixpoint for_down {S} (lo n : nat) (f : nat -> S -> res S) (s : S) : res S :=
  match n with
  | 0 => Ok s
  | Datatypes.S n' => s' <- f (lo + n') s ;; for_down lo n' f s'
  end.

(** [for (auto x : l) s = f x s] *)
Fixpoint for_list {A S} (l : list A) (f : A -> S -> res S) (s : S) : res S :=
  match l with
  | [] => Ok s
  | x :: t => s' <- f x s ;; for_list t f s'
  end.

Lemma for_n_inv : forall S (I : nat -> S -> Prop) n lo f s,
  I lo s ->
  (forall i s, lo <= i < lo + n -> I i s -> wp (f i s) (I (Datatypes.S i))) ->
  wp (for_n lo n f s) (I (lo + n)).
Proof.
  induction n; intros lo f s H0 Hs; simpl.
  - now rewrite Nat.add_0_r.
  - apply wp_bind. eapply wp_conseq.
    + apply Hs; [lia|exact H0].
    + intros s' Hs'. replace (lo + Datatypes.S n) with (Datatypes.S lo + n) by lia.
      apply IHn; auto. intros; apply Hs; auto; lia.
Qed.

Lemma for_range_inv : forall S (I : nat -> S -> Prop) lo hi f s,
  lo <= hi ->
  I lo s ->
  (forall i s, lo <= i < hi -> I i s -> wp (f i s) (I (Datatypes.S i))) ->
  wp (for_range lo hi f s) (I hi).
Proof.
  intros. unfold for_range. replace hi with (lo + (hi - lo)) at 2 by lia.
  apply for_n_inv; auto. intros; apply H1; auto; lia.
Qed.

Lemma for_down_inv : forall S (I : nat -> S -> Prop) n lo f s,
  I (lo + n) s ->
  (forall i s, lo <= i < lo + n -> I (Datatypes.S i) s -> wp (f i s) (I i)) ->
  wp (for_down lo n f s) (I lo).
Proof.
  induction n; intros lo f s H0 Hs; simpl.
  - now rewrite Nat.add_0_r in H0.
  - apply wp_bind. eapply wp_conseq.
    + apply Hs; [lia|]. now replace (Datatypes.S (lo + n)) with (lo + Datatypes.S n) by lia.
    + intros s' Hs'. apply IHn; auto. intros; apply Hs; auto; lia.
Qed.

Lemma for_list_inv : forall A S (I : list A -> S -> Prop) l (f : A -> S -> res S) s,
  I [] s ->
  (forall pre x post s, l = pre ++ x :: post -> I pre s -> wp (f x s) (I (pre ++ [x]))) ->
  wp (for_list l f s) (I l).
Proof.
  intros A S I l f s H0 Hs.
  assert (G : forall post pre s, l = pre ++ post -> I pre s -> wp (for_list post f s) (I l)).
  { induction post; intros pre s1 E H1; simpl.
    - rewrite app_nil_r in E. now subst.
    - apply wp_bind. eapply wp_conseq. { eapply Hs; eauto. }
      intros s' Hs'. apply (IHpost (pre ++ [a])); auto. rewrite <- app_assoc; auto. }
  now apply (G l []).
Qed.

(** Two runs of the same loop related step by step. *)
Lemma for_n_sim : forall S1 S2 (R : S1 -> S2 -> Prop) n lo f g s1 s2,
  R s1 s2 ->
  (forall i a b, lo <= i < lo + n -> R a b ->
     match f i a, g i b with
     | Ok a', Ok b' => R a' b' | Err, Err => True | UB, UB => True | _, _ => False end) ->
  match for_n lo n f s1, for_n lo n g s2 with
  | Ok a', Ok b' => R a' b' | Err, Err => True | UB, UB => True | _, _ => False end.
Proof.
  induction n; intros lo f g s1 s2 H0 Hs; simpl; auto.
  pose proof (Hs lo s1 s2 ltac:(lia) H0) as H1.
  destruct (f lo s1), (g lo s2); simpl; try contradiction; auto.
  apply IHn; auto. intros; apply Hs; auto; lia.
Qed.

Lemma for_n_ext : forall S n lo (f g : nat -> S -> res S) s,
  (forall i s, lo <= i < lo + n -> f i s = g i s) ->
  for_n lo n f s = for_n lo n g s.
Proof.
  induction n; intros; simpl; auto. rewrite H by lia.
  destruct (g lo s); simpl; auto. apply IHn. intros; apply H; lia.
Qed.

Lemma for_n_app : forall S n m lo (f : nat -> S -> res S) s,
  for_n lo (n + m) f s = (s' <- for_n lo n f s ;; for_n (lo + n) m f s').
Proof.
  induction n; intros; simpl.
  - now rewrite Nat.add_0_r.
  - destruct (f lo s); simpl; auto. rewrite IHn. now rewrite Nat.add_succ_r.
Qed.

(** ** Sub-arrays (a C++ pointer [p + off] into a buffer) *)

Definition slice {A} (off len : nat) (l : list A) : list A := firstn len (skipn off l).

Lemma nth_firstn_lt : forall A n (l : list A) i d, i < n -> nth i (firstn n l) d = nth i l d.
Proof. induction n; intros; [lia|]. destruct l; simpl; auto. destruct i; auto. apply IHn; lia. Qed.

Lemma nth_skipn' : forall A n (l : list A) i d, nth i (skipn n l) d = nth (n + i) l d.
Proof. induction n; intros; simpl; auto. destruct l; simpl; auto. destruct i; auto. Qed.

Lemma slice_length : forall A off len (l : list A),
  off + len <= length l -> length (slice off len l) = len.
Proof. intros. unfold slice. rewrite firstn_length, skipn_length. lia. Qed.

Lemma nth_slice : forall A off len (l : list A) i d,
  i < len -> nth i (slice off len l) d = nth (off + i) l d.
Proof. intros. unfold slice. rewrite nth_firstn_lt by auto. apply nth_skipn'. Qed.

Lemma list_ext : forall A (l1 l2 : list A) d,
  length l1 = length l2 -> (forall i, i < length l1 -> nth i l1 d = nth i l2 d) -> l1 = l2.
Proof. intros. apply (nth_ext _ _ d d); auto. Qed.

Lemma nth_map_seq : forall A (f : nat -> A) n i d, i < n -> nth i (map f (seq 0 n)) d = f i.
Proof.
  intros. rewrite nth_indep with (d' := f 0) by (rewrite map_length, seq_length; auto).
  rewrite map_nth. now rewrite seq_nth.
Qed.

Lemma nth_repeat_any : forall A (a d : A) n i, i < n -> nth i (repeat a n) d = a.
Proof. induction n; intros; [lia|]; destruct i; simpl; auto. apply IHn; lia. Qed.

Ltac wpb := apply wp_bind.
