(** * RcmProofs1: breadth first search as lists. *)
From Coq Require Import List Arith Lia Bool ZArith Permutation.
From Verif Require Import Base Scalar CSModel RcmModel AugProofs2.
Import ListNotations.

(** One neighbour, all neighbours of one node. *)
Definition visit (A q : list nat) (w : nat) : list nat := if mem w (A ++ q) then q else q ++ [w].
Definition visits (A q l : list nat) : list nat := fold_left (visit A) l q.

Lemma mem_app : forall w a b, mem w (a ++ b) = mem w a || mem w b.
Proof. intros. unfold mem. apply existsb_app. Qed.

Lemma visit_pre : forall A q w, exists t, visit A q w = q ++ t.
Proof. intros. unfold visit. destruct (mem w (A ++ q)); eauto. exists []. now rewrite app_nil_r. Qed.
Lemma visits_pre : forall l A q, exists t, visits A q l = q ++ t.
Proof.
  induction l; intros; simpl.
  - exists []. now rewrite app_nil_r.
  - destruct (visit_pre A q a) as [t E]. unfold visits; simpl. rewrite E.
    destruct (IHl A (q ++ t)) as [t' E']. unfold visits in E'. rewrite E'. exists (t ++ t'). now rewrite app_assoc.
Qed.

(** The state of a search from [root] in the graph [N] without the nodes [A]: [q] are
    the nodes found so far, the first [h] have been expanded. *)
Record Bst (n : nat) (N : nat -> list nat) (A : list nat) (root : nat) (q : list nat) (h : nat) : Prop := {
  bs_nd : NoDup (A ++ q);
  bs_rng : forall v, In v (A ++ q) -> 1 <= v <= n;
  bs_root : In root q;
  bs_h : h <= length q;
  bs_closed : forall i, i < h -> forall w, In w (N (nth i q 0)) -> In w (A ++ q);
  bs_min : forall X : nat -> Prop, X root -> (forall v w, X v -> In w (N v) -> ~ In w A -> X w) ->
    forall v, In v q -> X v }.

Lemma visit_Bst : forall n N A root q h w v, Bst n N A root q h -> In v q -> In w (N v) -> 1 <= w <= n ->
  Bst n N A root (visit A q w) h /\ In w (A ++ visit A q w).
Proof.
  intros n N A root q h w v B Hv Hw R. unfold visit. destruct (mem_dec w (A ++ q)) as [[H E]|[H E]]; rewrite E; auto.
  assert (Hin : In w (A ++ q ++ [w])) by (rewrite !in_app_iff; simpl; auto).
  split; auto. destruct B as [b1 b2 b3 b4 b5 b6]. constructor.
  - rewrite app_assoc. apply (Permutation_NoDup (l := w :: A ++ q)).
    { apply Permutation_cons_append. }
    constructor; auto.
  - intros v' Hv'. rewrite app_assoc, in_app_iff in Hv'. destruct Hv' as [Hv'|[->|[]]]; auto.
  - apply in_or_app; auto.
  - rewrite app_length; lia.
  - intros i Hi w' Hw'. rewrite app_nth1 in Hw' by lia. rewrite app_assoc. apply in_or_app. left. eauto.
  - intros X X0 XC v' Hv'. apply in_app_or in Hv'. destruct Hv' as [Hv'|[<-|[]]]; [apply (b6 X); auto|].
    apply (XC v); [apply (b6 X); auto|auto|]. intros Q. apply H, in_or_app; auto.
Qed.

Lemma visits_Bst : forall n N A root h l q v, Bst n N A root q h -> In v q -> (forall w, In w l -> In w (N v) /\ 1 <= w <= n) ->
  Bst n N A root (visits A q l) h /\ forall w, In w l -> In w (A ++ visits A q l).
Proof.
  intros n N A root h. induction l; intros q v B Hv Hl; simpl.
  - split; auto. contradiction.
  - unfold visits; simpl.
    destruct (Hl a) as [La Ra]; [simpl; auto|].
    destruct (visit_Bst n N A root q h a v B Hv La Ra) as [B1 I1].
    assert (Hv1 : In v (visit A q a)). { destruct (visit_pre A q a) as [t E]. rewrite E. apply in_or_app; auto. }
    destruct (IHl (visit A q a) v B1 Hv1) as [B2 I2]. { intros; apply Hl; simpl; auto. }
    split; auto. intros w [<-|Hw]; [|apply I2; auto].
    destruct (visits_pre l A (visit A q a)) as [t E]. unfold visits in E. rewrite E.
    rewrite app_assoc. apply in_or_app; auto.
Qed.

(** Expanding the next node. *)
Lemma expand_Bst : forall n N A root q h, (forall v w, 1 <= v <= n -> In w (N v) -> 1 <= w <= n) ->
  Bst n N A root q h -> h < length q -> Bst n N A root (visits A q (N (nth h q 0))) (S h).
Proof.
  intros n N A root q h HN B Hh.
  assert (Hv : In (nth h q 0) q) by (apply nth_In; auto).
  assert (Rv : 1 <= nth h q 0 <= n) by (apply (bs_rng _ _ _ _ _ _ B), in_or_app; auto).
  destruct (visits_Bst n N A root h (N (nth h q 0)) q (nth h q 0) B Hv) as [B1 C1].
  { intros w Hw. split; auto. eapply HN; eauto. }
  destruct (visits_pre (N (nth h q 0)) A q) as [t E].
  set (q' := visits A q (N (nth h q 0))) in *.
  destruct B1 as [b1 b2 b3 b4 b5 b6]. constructor; auto.
  - rewrite E, app_length; lia.
  - intros i Hi w Hw. destruct (Nat.eq_dec i h) as [->|NE].
    + rewrite E in Hw. rewrite app_nth1 in Hw by auto. auto.
    + apply (b5 i); auto; lia.
Qed.

Lemma init_Bst : forall n N A root, NoDup A -> (forall v, In v A -> 1 <= v <= n) -> 1 <= root <= n -> ~ In root A ->
  Bst n N A root [root] 0.
Proof.
  intros n N A root ND R Hr Hn. constructor; simpl; auto; try lia.
  - apply (Permutation_NoDup (l := root :: A)). { apply Permutation_cons_append. } constructor; auto.
  - intros v Hv. apply in_app_or in Hv. destruct Hv as [Hv|[<-|[]]]; auto.
  - intros X X0 XC v [<-|[]]; auto.
Qed.

(** The unexpanded part may be permuted. *)
Lemma perm_Bst : forall n N A root qa qb qb' h, Permutation qb qb' -> h <= length qa ->
  Bst n N A root (qa ++ qb) h -> Bst n N A root (qa ++ qb') h.
Proof.
  intros n N A root qa qb qb' h P Hh [b1 b2 b3 b4 b5 b6].
  assert (PP : Permutation (qa ++ qb) (qa ++ qb')) by (apply Permutation_app_head; auto).
  assert (PA : Permutation (A ++ qa ++ qb) (A ++ qa ++ qb')) by (apply Permutation_app_head; auto).
  constructor.
  - eapply Permutation_NoDup; eauto.
  - intros v Hv. apply b2. eapply Permutation_in; [symmetry; eauto|auto].
  - eapply Permutation_in; eauto.
  - rewrite app_length; lia.
  - intros i Hi w Hw. rewrite app_nth1 in Hw by lia. eapply Permutation_in; [eauto|]. apply (b5 i); auto. rewrite app_nth1 by lia. auto.
  - intros X X0 XC v Hv. apply (b6 X); auto. eapply Permutation_in; [symmetry; eauto|auto].
Qed.

Lemma Bst_len : forall n N A root q h, Bst n N A root q h -> length A + length q <= n.
Proof.
  intros n N A root q h [b1 b2 _ _ _ _]. rewrite <- app_length.
  replace n with (length (seq 1 n)) by apply seq_length.
  apply NoDup_incl_length; auto. intros v Hv. apply in_seq. specialize (b2 v Hv). lia.
Qed.

(** Complete searches: same nodes, smaller from inside. *)
Lemma Bst_incl : forall n N A root q root' q' h', Bst n N A root q (length q) -> Bst n N A root' q' h' -> In root' q -> incl q' q.
Proof.
  intros n N A root q root' q' h' B B' Hr v Hv. apply (bs_min _ _ _ _ _ _ B' (fun v => In v q)); auto.
  intros v0 w H0 Hw HA. destruct (In_nth q v0 0 H0) as (i & Hi & Ei).
  pose proof (bs_closed _ _ _ _ _ _ B i Hi w) as C. rewrite Ei in C. specialize (C Hw). apply in_app_or in C. tauto.
Qed.

Lemma nodup_app_r : forall (A q : list nat), NoDup (A ++ q) -> NoDup q.
Proof. induction A; simpl; intros; auto. inversion H; auto. Qed.
Lemma Bst_ndq : forall n N A root q h, Bst n N A root q h -> NoDup q.
Proof. intros. eapply nodup_app_r, bs_nd; eauto. Qed.

Lemma Bst_len_le : forall n N A root q root' q' h', Bst n N A root q (length q) -> Bst n N A root' q' h' -> In root' q -> length q' <= length q.
Proof. intros. apply NoDup_incl_length. eapply Bst_ndq; eauto. eapply Bst_incl; eauto. Qed.

Lemma Bst_same : forall n N A root q q', Bst n N A root q (length q) -> Bst n N A root q' (length q') -> length q' = length q.
Proof.
  intros. apply Nat.le_antisymm.
  - eapply (Bst_len_le _ _ _ _ _ _ _ _ H H0), bs_root; eauto.
  - eapply (Bst_len_le _ _ _ _ _ _ _ _ H0 H), bs_root; eauto.
Qed.

(** In a symmetric graph every node found finds the root. *)
Lemma Bst_sym : forall n N A root q root' q', (forall v w, 1 <= v <= n -> In w (N v) -> In v (N w)) ->
  Bst n N A root q (length q) -> Bst n N A root' q' (length q') -> In root' q -> In root q'.
Proof.
  intros n N A root q root' q' Sy B B' Hr.
  assert (DA : forall v, In v q -> ~ In v A).
  { intros v Hv HA. pose proof (bs_nd _ _ _ _ _ _ B) as ND. clear - Hv HA ND.
    induction A; simpl in *; [contradiction|]. inversion ND; subst. destruct HA as [->|HA]; auto. apply H1, in_or_app; auto. }
  assert (K : (fun v => In v q /\ forall Y : nat -> Prop, (forall v w, Y v -> In w (N v) -> ~ In w A -> Y w) -> Y v -> Y root) root').
  { apply (bs_min _ _ _ _ _ _ B (fun v => In v q /\ forall Y : nat -> Prop, (forall v w, Y v -> In w (N v) -> ~ In w A -> Y w) -> Y v -> Y root)); auto.
    - split; [eapply bs_root; eauto|auto].
    - intros v w [Hv HY] Hw HA. 
      assert (Hwq : In w q).
      { destruct (In_nth q v 0 Hv) as (i & Hi & Ei). pose proof (bs_closed _ _ _ _ _ _ B i Hi w) as C. rewrite Ei in C.
        specialize (C Hw). apply in_app_or in C. tauto. }
      split; auto. intros Y YC Yw. apply HY; auto. apply (YC w); auto. apply Sy; auto.
      apply (bs_rng _ _ _ _ _ _ B), in_or_app; auto. }
  destruct K as [_ K]. apply (K (fun v => In v q')).
  - intros v0 w H0 Hw HA. destruct (In_nth q' v0 0 H0) as (i & Hi & Ei).
    pose proof (bs_closed _ _ _ _ _ _ B' i Hi w) as C. rewrite Ei in C. specialize (C Hw). apply in_app_or in C. tauto.
  - eapply bs_root; eauto.
Qed.

(** ** Arrays *)
Definition nbl (X adj : list nat) (v : nat) : list nat := slice (nth (v - 1) X 0) (nth v X 0 - nth (v - 1) X 0) adj.

Lemma get1_nth : forall T (a : list T) i d, 1 <= i <= length a -> get1 a i = Ok (nth (i - 1) a d).
Proof. intros. destruct i; [lia|]. cbn [get1]. replace (S i - 1) with i by lia. apply get_nth. lia. Qed.
Lemma set1_upd : forall T (a : list T) i v, 1 <= i <= length a -> set1 a i v = Ok (upd a (i - 1) v).
Proof. intros. destruct i; [lia|]. cbn [set1]. replace (S i - 1) with i by lia. apply set_ok. lia. Qed.

Lemma range_list : forall T adj (f : nat -> T -> res T) k b s, b + k <= length adj ->
  for_n (S b) k (fun j s => nbr <- get1 adj j ;; f nbr s) s = for_list (slice b k adj) f s.
Proof.
  induction k; intros b s H; simpl; auto.
  assert (E : slice b (S k) adj = nth b adj 0 :: slice (S b) k adj).
  { apply (list_ext _ _ _ 0).
    - cbn [length]. rewrite !slice_length by lia. auto.
    - intros i Hi. rewrite slice_length in Hi by lia. rewrite nth_slice by lia.
      destruct i; simpl. now rewrite Nat.add_0_r. rewrite nth_slice by lia. f_equal; lia. }
  rewrite E. rewrite (get_nth _ _ _ 0) by lia. cbn [bind for_list].
  destruct (f (nth b adj 0) s); cbn [bind]; auto. apply IHk. lia.
Qed.

Lemma range_list' : forall T adj (f : nat -> T -> res T) b e s, b <= e -> e <= length adj ->
  for_range (S b) (S e) (fun j s => nbr <- get1 adj j ;; f nbr s) s = for_list (slice b (e - b) adj) f s.
Proof. intros. unfold for_range. replace (S e - S b) with (e - b) by lia. apply range_list. lia. Qed.

(** A queue stored behind [A]. *)
Definition lay (A R0 q : list nat) : list nat := A ++ q ++ skipn (length q) R0.

Lemma lay_length : forall A R0 q, length q <= length R0 -> length (lay A R0 q) = length A + length R0.
Proof. intros. unfold lay. rewrite !app_length, skipn_length. lia. Qed.

Lemma upd_app_r : forall T (a b : list T) i v, upd (a ++ b) (length a + i) v = a ++ upd b i v.
Proof. induction a; simpl; intros; auto. now rewrite IHa. Qed.

Lemma lay_push : forall A R0 q w, length q < length R0 ->
  set1 (lay A R0 q) (length A + (length q + 1)) w = Ok (lay A R0 (q ++ [w])).
Proof.
  intros. rewrite set1_upd by (rewrite lay_length by lia; lia). f_equal. unfold lay.
  replace (length A + (length q + 1) - 1) with (length A + (length q + 0)) by lia.
  rewrite upd_app_r, upd_app_r. rewrite <- app_assoc. do 2 f_equal. rewrite app_length. simpl.
  assert (E : skipn (length q) R0 = nth (length q) R0 0 :: skipn (length q + 1) R0).
  { rewrite Nat.add_1_r. clear - H. revert R0 H. induction (length q); intros; destruct R0; simpl in *; try lia; auto.
    apply IHn. lia. }
  rewrite E. auto.
Qed.

Lemma lay_get : forall A R0 q i, length q <= length R0 -> i < length q -> get1 (lay A R0 q) (length A + (i + 1)) = Ok (nth i q 0).
Proof.
  intros. rewrite (get1_nth _ _ _ 0) by (rewrite lay_length by lia; lia). f_equal. unfold lay.
  rewrite app_nth2 by lia. rewrite app_nth1 by lia. f_equal. lia.
Qed.

(** Mask: the nodes in [D] are taken. *)
Definition MaskOk (n : nat) (mask : list bool) (D : list nat) : Prop :=
  length mask = n + 1 /\ forall w, 1 <= w <= n -> nth w mask false = negb (mem w D).

Lemma MaskOk_get : forall n mask D w, MaskOk n mask D -> 1 <= w <= n -> get mask w = Ok (negb (mem w D)).
Proof. intros n mask D w [L H] R. rewrite (get_nth _ _ _ false) by lia. f_equal. auto. Qed.

Lemma MaskOk_clear : forall n mask D w, MaskOk n mask D -> 1 <= w <= n ->
  exists mask', set mask w false = Ok mask' /\ MaskOk n mask' (D ++ [w]).
Proof.
  intros n mask D w [L H] R. rewrite set_ok by lia. eexists; split; eauto. split.
  - now rewrite upd_length.
  - intros v Hv. rewrite nth_upd by lia. rewrite mem_app. unfold mem at 2. simpl. rewrite (H v Hv).
    destruct (v =? w); simpl; destruct (mem v D); auto.
Qed.

Lemma MaskOk_ext : forall n mask D D', MaskOk n mask D -> (forall v, In v D <-> In v D') -> MaskOk n mask D'.
Proof.
  intros n mask D D' [L H] E. split; auto. intros w Hw. rewrite H by auto. f_equal.
  destruct (mem_dec w D) as [[a b]|[a b]], (mem_dec w D') as [[c d]|[c d]]; rewrite b, d; auto; exfalso; firstorder.
Qed.
