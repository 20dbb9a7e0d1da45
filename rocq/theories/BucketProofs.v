(** * BucketProofs: the counting sort used by the conversion routines. *)
From Coq Require Import List Arith Lia Bool Permutation.
From Verif Require Import Base Scalar CSModel ConvModel.
Import ListNotations.

(** ** Loops over lists *)
Lemma for_list_app : forall A S (f : A -> S -> res S) l1 l2 s,
  for_list (l1 ++ l2) f s = (s' <- for_list l1 f s ;; for_list l2 f s').
Proof. induction l1; simpl; intros; auto. destruct (f a s); simpl; auto. Qed.

Lemma for_n_list : forall S (f : nat -> S -> res S) n lo s,
  for_n lo n f s = for_list (seq lo n) f s.
Proof. induction n; simpl; intros; auto. destruct (f lo s); simpl; auto. Qed.

Lemma for_range_list : forall S (f : nat -> S -> res S) lo hi s,
  for_range lo hi f s = for_list (seq lo (hi - lo)) f s.
Proof. intros. apply for_n_list. Qed.

Lemma for_list_map : forall A B S (g : A -> B) (f : B -> S -> res S) l s,
  for_list (map g l) f s = for_list l (fun a => f (g a)) s.
Proof. induction l; simpl; intros; auto. destruct (f (g a) s); simpl; auto. Qed.

Lemma for_list_ext_in : forall A S (f g : A -> S -> res S) l s,
  (forall a s, In a l -> f a s = g a s) -> for_list l f s = for_list l g s.
Proof.
  induction l; simpl; intros; auto. rewrite H by auto. destruct (g a s); simpl; auto.
Qed.

Lemma for_list_flat_map : forall A B S (g : A -> list B) (f : B -> S -> res S) l s,
  for_list (flat_map g l) f s = for_list l (fun a s => for_list (g a) f s) s.
Proof.
  induction l; simpl; intros; auto. rewrite for_list_app.
  destruct (for_list (g a) f s); simpl; auto.
Qed.

(** A loop that only updates one component. *)
Lemma for_list_fst : forall A S U (f : A -> S -> res S) (u : U) l s,
  for_list l (fun a (x : S * U) => s' <- f a (fst x) ;; Ok (s', snd x)) (s, u)
  = (s' <- for_list l f s ;; Ok (s', u)).
Proof. induction l; simpl; intros; auto. destruct (f a s); simpl; auto. Qed.

Lemma nth_map_seq' : forall A (f : nat -> A) lo n i d, i < n -> nth i (map f (seq lo n)) d = f (lo + i).
Proof.
  intros. rewrite nth_indep with (d' := f lo) by (rewrite map_length, seq_length; auto).
  rewrite map_nth. now rewrite seq_nth.
Qed.

(** ** Buckets *)
Section Bucket.
  Context {P : Type}.
  Implicit Type es : list (nat * P).

  (** Payloads with key [k], in order. *)
  Definition bk (k : nat) es : list P := map snd (filter (fun e => fst e =? k) es).
  (** Number of entries with key below [k]. *)
  Definition below (k : nat) es : nat := length (filter (fun e => fst e <? k) es).

  Lemma bk_app : forall k e1 e2, bk k (e1 ++ e2) = bk k e1 ++ bk k e2.
  Proof. intros. unfold bk. now rewrite filter_app, map_app. Qed.
  Lemma below_app : forall k e1 e2, below k (e1 ++ e2) = below k e1 + below k e2.
  Proof. intros. unfold below. now rewrite filter_app, app_length. Qed.

  Lemma below_0 : forall es, below 0 es = 0.
  Proof. induction es; simpl; auto. Qed.

  Lemma below_S : forall k es, below (S k) es = below k es + length (bk k es).
  Proof.
    intros k es. unfold below, bk. induction es; simpl; auto. rewrite map_length in *.
    destruct (Nat.ltb_spec (fst a) (S k)), (Nat.ltb_spec (fst a) k), (Nat.eqb_spec (fst a) k);
      simpl; lia.
  Qed.

  Lemma below_all : forall n es, (forall e, In e es -> fst e < n) -> below n es = length es.
  Proof.
    intros n es. unfold below. induction es; simpl; intros; auto.
    rewrite (proj2 (Nat.ltb_lt _ _)) by auto. simpl. rewrite IHes; auto.
  Qed.

  Lemma below_mono : forall es j k, j <= k -> below j es <= below k es.
  Proof. intros es j k H. induction H; auto. rewrite below_S. lia. Qed.

  Lemma below_le : forall k es, below k es <= length es.
  Proof. intros. unfold below. induction es; simpl; auto. destruct (fst a <? k); simpl; lia. Qed.

  Lemma bk_in : forall k p es, In p (bk k es) <-> In (k, p) es.
  Proof.
    intros. unfold bk. rewrite in_map_iff. split.
    - intros ([k' p'] & E & H). apply filter_In in H. simpl in *. destruct H as [H1 H2].
      apply Nat.eqb_eq in H2. now subst.
    - intros H. exists (k, p). split; auto. apply filter_In. simpl. now rewrite Nat.eqb_refl.
  Qed.

  Lemma bk_snoc : forall k es a p, bk k (es ++ [(a, p)]) = bk k es ++ (if a =? k then [p] else []).
  Proof. intros. rewrite bk_app. unfold bk at 2. simpl. destruct (a =? k); auto. Qed.

  Lemma length_bk_le : forall k pre x post, length (bk k pre) <= length (bk k (pre ++ x :: post)).
  Proof. intros. rewrite bk_app, app_length. lia. Qed.
End Bucket.

(** ** Counting and accumulation *)
Lemma count_keys_wp : forall (P : Type) (es : list (nat * P)) n,
  (forall e, In e es -> fst e < n) ->
  wp (count_keys (map fst es) (repeat 0 (n + 1)))
     (fun p => length p = n + 1 /\ nth 0 p 0 = 0 /\
               forall k, k < n -> nth (S k) p 0 = length (bk k es)).
Proof.
  intros P es n Hk. unfold count_keys. rewrite for_list_map.
  apply (for_list_inv _ _ (fun pre p => length p = n + 1 /\ nth 0 p 0 = 0 /\
               forall k, k < n -> nth (S k) p 0 = length (bk k pre))).
  - rewrite repeat_length. split; auto. rewrite nth_repeat_any by lia. split; auto.
    intros. rewrite nth_repeat_any by lia. auto.
  - intros pre [k0 p0] post p E (L & H0 & H1). simpl.
    assert (k0 < n) by (apply (Hk (k0, p0)); rewrite E; apply in_or_app; simpl; auto).
    wpb. apply wp_get with (d := 0); [lia|]. apply wp_set; [lia|].
    rewrite upd_length. split; auto. split.
    + rewrite nth_upd by lia. auto.
    + intros k Hkn. rewrite nth_upd by lia. rewrite bk_snoc, app_length, <- H1 by auto.
      destruct (Nat.eqb_spec (S k) (S k0)), (Nat.eqb_spec k0 k); simpl; try lia.
      subst. lia.
Qed.

Lemma accumulate_wp : forall (P : Type) (es : list (nat * P)) n p,
  length p = n + 1 -> nth 0 p 0 = 0 ->
  (forall k, k < n -> nth (S k) p 0 = length (bk k es)) ->
  wp (accumulate n p) (fun p' => length p' = n + 1 /\ forall k, k <= n -> nth k p' 0 = below k es).
Proof.
  intros P es n p L H0 H1. unfold accumulate.
  eapply wp_conseq.
  - apply (for_range_inv _ (fun i p' => length p' = n + 1 /\
      (forall k, k <= i -> nth k p' 0 = below k es) /\
      (forall k, i < k -> nth k p' 0 = nth k p 0))); [lia| |].
    + split; auto. split; auto. intros k Hk. replace k with 0 by lia. now rewrite below_0.
    + intros i s Hi (Ls & A & B). wpb. apply wp_get with (d := 0); [lia|].
      wpb. apply wp_get with (d := 0); [lia|]. apply wp_set; [lia|].
      rewrite upd_length. split; auto. split; intros k Hk; rewrite nth_upd by lia.
      * destruct (Nat.eqb_spec k (S i)); [|apply A; lia]. subst.
        rewrite B, A, H1, below_S by lia. lia.
      * destruct (Nat.eqb_spec k (S i)); [lia|]. apply B; lia.
  - intros p' (L' & A & _). auto.
Qed.

(** Building the bucket start array. *)
Lemma starts_wp : forall (P : Type) (es : list (nat * P)) n,
  (forall e, In e es -> fst e < n) ->
  wp (p <- count_keys (map fst es) (repeat 0 (n + 1)) ;; accumulate n p)
     (fun p' => length p' = n + 1 /\ forall k, k <= n -> nth k p' 0 = below k es).
Proof.
  intros. wpb. eapply wp_conseq. { apply count_keys_wp; eauto. }
  intros p (L & A & B). now apply accumulate_wp.
Qed.

Lemma shift_swap_wp : forall n p, n < length p ->
  wp (shift_swap n p) (fun p' => length p' = length p /\
     (0 < n -> nth 0 p' 0 = 0) /\ (forall k, 0 < k < n -> nth k p' 0 = nth (k - 1) p 0) /\
     forall k, n <= k -> nth k p' 0 = nth k p 0).
Proof.
  intros n p L. unfold shift_swap. wpb.
  eapply wp_conseq.
  - apply (for_range_inv _ (fun i (s : nat * list nat) =>
      fst s = (match i with 0 => 0 | S i' => nth i' p 0 end) /\
      length (snd s) = length p /\ (0 < i -> nth 0 (snd s) 0 = 0) /\
      (forall k, 0 < k < i -> nth k (snd s) 0 = nth (k - 1) p 0) /\
      forall k, i <= k -> nth k (snd s) 0 = nth k p 0)); [lia| |].
    + simpl. repeat split; auto; intros; lia.
    + intros i [tmp s] Hi (E & Ls & A & B & C). simpl in *.
      wpb. apply wp_get with (d := 0); [lia|]. wpb. apply wp_set; [lia|]. apply wp_ok. simpl.
      rewrite upd_length. repeat split; auto.
      * intros _. rewrite nth_upd by lia. destruct (Nat.eqb_spec 0 i).
        -- subst. auto.
        -- apply A; lia.
      * intros k Hk. rewrite nth_upd by lia. destruct (Nat.eqb_spec k i).
        -- subst. destruct i; [lia|]. f_equal. lia.
        -- apply B; lia.
      * intros k Hk. rewrite nth_upd by lia. destruct (Nat.eqb_spec k i); [lia|]. apply C; lia.
  - intros [tmp p'] (_ & L' & A & B & C). simpl in *. auto.
Qed.

Section Place.
  Variable O : Ops.
  Notation T := (T O).
  Notation ent3 := (nat * (nat * T))%type.

  (** State after placing [pre] of [es]. *)
  Definition placed (n : nat) (es pre : list ent3) (s : list nat * list nat * list T) : Prop :=
    let '(p, ind, val) := s in
    length p = n + 1 /\ length ind = length es /\ length val = length es /\
    nth n p 0 = length es /\
    (forall k, k < n -> nth k p 0 = below k es + length (bk k pre)) /\
    forall k r, k < n -> r < length (bk k pre) ->
      nth (below k es + r) ind 0 = fst (nth r (bk k pre) (0, t0 O)) /\
      nth (below k es + r) val (t0 O) = snd (nth r (bk k pre) (0, t0 O)).

  Lemma place_wp : forall n es pre k0 i0 v0 post s,
    es = pre ++ (k0, (i0, v0)) :: post ->
    (forall e, In e es -> fst e < n) ->
    placed n es pre s ->
    wp (place O k0 i0 v0 s) (placed n es (pre ++ [(k0, (i0, v0))])).
  Proof.
    intros n es pre k0 i0 v0 post [[p ind] val] E Hk (Lp & Li & Lv & Hn & Hp & Hc).
    assert (K0 : k0 < n) by (apply (Hk (k0, (i0, v0))); rewrite E; apply in_or_app; simpl; auto).
    assert (LE : length (bk k0 pre) < length (bk k0 es)).
    { rewrite E, bk_app, app_length. unfold bk at 3. simpl. rewrite Nat.eqb_refl. simpl. lia. }
    assert (PB : below k0 es + length (bk k0 pre) < length es).
    { pose proof (below_S k0 es). pose proof (below_le (S k0) es). lia. }
    unfold place. wpb. apply wp_get with (d := 0); [lia|]. rewrite Hp by auto.
    wpb. apply wp_set; [lia|]. wpb. apply wp_set; [lia|]. wpb. apply wp_set; [lia|].
    apply wp_ok. unfold placed. rewrite !upd_length.
    split; [auto|]. split; [auto|]. split; [auto|]. split.
    { rewrite nth_upd by lia. destruct (Nat.eqb_spec n k0); [lia|auto]. }
    split.
    - intros k Hkn. rewrite nth_upd by lia. rewrite bk_snoc, app_length.
      destruct (Nat.eqb_spec k k0), (Nat.eqb_spec k0 k); simpl; try lia.
      + subst; lia.
      + rewrite Hp by auto. lia.
    - intros k r Hkn Hr. rewrite bk_snoc in *. rewrite app_length in Hr.
      rewrite !nth_upd by lia.
      destruct (Nat.eqb_spec k0 k).
      + subst k. simpl in Hr. destruct (Nat.eqb_spec (below k0 es + r) (below k0 es + length (bk k0 pre))).
        * assert (r = length (bk k0 pre)) by lia. subst r. rewrite app_nth2, Nat.sub_diag by lia. auto.
        * rewrite app_nth1 by lia. apply Hc; lia.
      + simpl in Hr. rewrite app_nil_r.
        assert (LB : length (bk k pre) <= length (bk k es)) by (rewrite E; apply length_bk_le).
        destruct (Nat.eqb_spec (below k es + r) (below k0 es + length (bk k0 pre))).
        * exfalso. pose proof (below_S k es). pose proof (below_S k0 es).
          destruct (Nat.lt_ge_cases k k0).
          -- pose proof (below_mono es (S k) k0 ltac:(lia)). lia.
          -- pose proof (below_mono es (S k0) k ltac:(lia)). lia.
        * apply Hc; lia.
  Qed.

  Lemma place_all_wp : forall n es p ind val,
    (forall e, In e es -> fst e < n) ->
    length p = n + 1 -> length ind = length es -> length val = length es ->
    (forall k, k <= n -> nth k p 0 = below k es) ->
    wp (for_list es (fun e => place O (fst e) (fst (snd e)) (snd (snd e))) (p, ind, val))
       (placed n es es).
  Proof.
    intros n es p ind val Hk Lp Li Lv Hp.
    apply (for_list_inv _ _ (placed n es)).
    - unfold placed. unfold bk. simpl. split; [auto|]. split; [auto|]. split; [auto|]. split.
      { rewrite Hp by lia. now apply below_all. }
      split; intros. { rewrite Hp by lia. lia. } lia.
    - intros pre [k0 [i0 v0]] post s E H. simpl. eapply place_wp; eauto.
  Qed.

  (** Contents of the output arrays, bucket by bucket. *)
  Definition bucketed (n : nat) (es : list ent3) (p ind : list nat) (val : list T) : Prop :=
    length p = n + 1 /\ length ind = length es /\ length val = length es /\
    (forall k, k <= n -> nth k p 0 = below k es) /\
    forall k, k < n ->
      map (fun q => (nth q ind 0, nth q val (t0 O))) (seq (nth k p 0) (nth (S k) p 0 - nth k p 0))
      = bk k es.

  Lemma placed_shift_bucketed : forall n es p ind val,
    (forall e, In e es -> fst e < n) ->
    placed n es es (p, ind, val) ->
    forall p', length p' = n + 1 -> (0 < n -> nth 0 p' 0 = 0) ->
      (forall k, 0 < k < n -> nth k p' 0 = nth (k - 1) p 0) ->
      (nth n p' 0 = nth n p 0) ->
      bucketed n es p' ind val.
  Proof.
    intros n es p ind val Hk (Lp & Li & Lv & Hn & Hp & Hc) p' Lp' H0 Hs Hn'.
    assert (HB : forall k, k <= n -> nth k p' 0 = below k es).
    { intros k Hkn. destruct (Nat.eq_dec k n).
      - subst. rewrite Hn', Hn. symmetry. now apply below_all.
      - destruct k.
        + rewrite H0 by lia. now rewrite below_0.
        + rewrite Hs by lia. replace (S k - 1) with k by lia. rewrite Hp by lia. now rewrite below_S. }
    repeat split; auto.
    intros k Hkn. rewrite !HB by lia. rewrite below_S.
    replace (below k es + length (bk k es) - below k es) with (length (bk k es)) by lia.
    apply (list_ext _ _ _ (0, t0 O)). { now rewrite map_length, seq_length. }
    intros r Hr. rewrite map_length, seq_length in Hr.
    rewrite nth_map_seq' by auto. destruct (Hc k r Hkn Hr) as [E1 E2].
    rewrite E1, E2. now destruct (nth r (bk k es) (0, t0 O)).
  Qed.
End Place.
